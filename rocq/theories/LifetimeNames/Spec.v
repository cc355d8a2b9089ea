(** Specification: histories of a binding context, lexical scopes, and the default-lifetime rules. *)
From Coq Require Import List Arith ZArith Bool Strings.String.
From Verif.LifetimeNames Require Import Model.
Import ListNotations.
Local Open Scope string_scope.

(** * Histories (C36) *)
Inductive op := Push (id : string) | Fresh (hint : option string) | Get (id : string) | Pop (id : string).
(** What an operation did: bound an id to a name it generated, or dropped the id's innermost binding. *)
Inductive event := Bound (id name : string) | Popped (id : string).
(** One call: its result (a name), its event if any, the new context; [None] is a panic. *)
Definition step (c : ctx) (o : op) : option (option string * list event * ctx) :=
  match o with
  | Push id => let (n, c') := push_new_binding c id in Some (Some n, [Bound id n], c')
  | Fresh hint => let (n, c') := push_fresh_binding c hint in Some (Some n, [Bound n n], c')
  | Get id => match get_or_push_new_binding c id with
              | Some (n, called, c') => Some (Some n, if called then [Bound id n] else [], c')
              | None => None
              end
  | Pop id => match pop_binding c id with Some c' => Some (None, [Popped id], c') | None => None end
  end.
Fixpoint run (c : ctx) (ops : list op) : option (list event * ctx) :=
  match ops with
  | [] => Some ([], c)
  | o :: ops' => match step c o with
                 | Some (_, ev, c1) => match run c1 ops' with Some (evs, c2) => Some ((ev ++ evs)%list, c2) | None => None end
                 | None => None
                 end
  end.
(** The names generated in a history. *)
Fixpoint generated (evs : list event) : list string :=
  match evs with [] => [] | Bound _ n :: r => n :: generated r | Popped _ :: r => generated r end.
(** The stack of names of an id (innermost first), from the events alone. *)
Fixpoint stack_from (id : string) (s : list string) (evs : list event) : list string :=
  match evs with
  | [] => s
  | Bound k n :: r => stack_from id (if String.eqb k id then n :: s else s) r
  | Popped k :: r => stack_from id (if String.eqb k id then tl s else s) r
  end.
Definition builtin : list event := [Bound "static" "static"; Bound "unknown" "unknown"].

(** * Scopes *)
(** A scope lists binders, outermost first: the name in the code and the lifetime it stands for. *)
Definition scope := list (string * string).
Definition bound_to (sc : scope) (id n : string) : Prop := exists a b, sc = (a ++ (id, n) :: b)%list /\ ~ In id (map fst b).
Definition unbound (sc : scope) (id : string) : Prop := ~ In id (map fst sc).
(** The names a record binds: its own, or an implicit one for each lifetime its members need. *)
Definition record_binders (ins : list string) (arity : nat) : list string := match ins with [] => repeat "__implicit" arity | _ => ins end.
(** The scope of the enclosing items (innermost first): a record's lifetimes are those of the transformed record. *)
Inductive enclosing_scope : list item -> scope -> Prop :=
| ENone : enclosing_scope [] [("static", "static"); ("unknown", "unknown")]
| EOther outer sc : enclosing_scope outer sc -> enclosing_scope (IOther :: outer) sc
| EFunc ins ns outer sc : enclosing_scope outer sc -> List.length ns = List.length ins -> enclosing_scope (IFunc ins :: outer) (sc ++ combine ins ns)%list
| ERecord ins arity ns outer sc : enclosing_scope outer sc -> add_lifetime_to_record ins (Some arity) outer = Some ns ->
    enclosing_scope (IRecord ins (Some arity) :: outer) (sc ++ combine (record_binders ins arity) ns)%list.
(** [record_lifetime_arity] counts the explicit inputs when there are any (lines 79-82). *)
Definition explicit_arity (items : list item) : Prop := forall ins a, In (IRecord ins a) items -> ins <> [] -> a = Some (List.length ins).

(** * Which lifetimes a parameter gets *)
(** The types whose own lifetime the transformation decides: references, types with one lifetime parameter and [this]. *)
Definition takes_lifetime (d : db) (is_this : bool) (t : ty) : Prop :=
  match t with
  | Ty (Decl id _) _ => decl_arity d id = Some 1
  | Ty (Pointer k _) _ => is_this = true \/ k = LValueRef
  | _ => False
  end.
(** The first parameter is the implicit object parameter. *)
Definition this_at (f : func) (i : nat) : bool :=
  match i, params f with 0, p :: _ => String.eqb (ident p) "__this" && negb (constructor f) | _, _ => false end.
(** The types of parameter [i] before and after. *)
Definition param_types (f f' : func) (i : nat) (t t' : ty) : Prop :=
  exists p p', nth_error (params f) i = Some p /\ nth_error (params f') i = Some p' /\ t = ptype p /\ t' = ptype p'.
(** A function without Clang annotations. *)
Definition no_lifetimebound (f : func) : Prop := forall p, In p (params f) -> bound p = false.
(** The lifetimes of a type that takes one and was annotated with [lts]: resolved in the scope; without annotation one of
    the added binders; ['unknown] and multiple annotations give none. *)
Definition resolved (sc new : scope) (lts out : list string) : Prop :=
  match lts with
  | [] => exists n, out = [n] /\ In (n, n) new
  | [id] => exists n, bound_to sc id n /\ out = if String.eqb n "unknown" then [] else [n]
  | _ => out = []
  end.
(** Binders added for names that were not bound. *)
Definition added (base new : scope) : Prop := NoDup (map fst new) /\ forall id, In id (map fst new) -> unbound base id.
(** The parameters (by position, after the transformation) whose lifetime the transformation decided, other than [this]. *)
Definition deciding (d : db) (f f' : func) (i : nat) (t' : ty) : Prop :=
  exists t, param_types f f' i t t' /\ takes_lifetime d (this_at f i) t.

(** * Clang's [[clang::lifetimebound]] *)
(** Annotations are at most one lifetime, and not ['unknown]. *)
Definition plain (l : list string) : Prop := l = [] \/ exists x, l = [x] /\ x <> "unknown".
Definition plainly_annotated (f : func) : Prop := plain (lifetimes (return_type f)) /\ forall p, In p (params f) -> bound p = true -> plain (lifetimes (ptype p)).
(** The function is a member of a record that has [n] lifetimes. *)
Definition record_lifetimes (f : func) (n : nat) : Prop := match enclosing f with IRecord _ a :: _ => a = Some n | _ => n = 0 end.
(** What a parameter lends: for the implicit object parameter of a view type it is what the view refers to (the lifetime of
    [*this]), otherwise what the parameter refers to. *)
Definition lent (d : db) (view_member is_this : bool) (t t' : ty) (n : string) : Prop :=
  if view_member && is_this then
    forall k v l k' v' l', t = Ty (Pointer k v) l -> t' = Ty (Pointer k' v') l' -> takes_lifetime d false v -> lifetimes v' = [n]
  else takes_lifetime d is_this t -> lifetimes t' = [n].
