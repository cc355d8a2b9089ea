(** Model of rs_bindings_from_cc/generate_bindings/lifetime_defaults_transform.rs.  Names are byte strings. *)
From Coq Require Import List Arith ZArith Bool Strings.String DecimalString.
Import ListNotations.
Local Open Scope string_scope.

Fixpoint mem (x : string) (l : list string) : bool := match l with [] => false | y :: l' => String.eqb x y || mem x l' end.
Fixpoint last_of (l : list string) : option string := match l with [] => None | [x] => Some x | _ :: l' => last_of l' end.
(** [format!("{}", ix)].  The counter is a 32-bit integer in the code; its overflow is not modelled. *)
Definition dec (ix : nat) : string := NilZero.string_of_uint (Nat.to_uint ix).

(** * The binding context *)
(** lines 20-31 [VariableBinding], [BindingContext]: a stack of renamings for each bound name (innermost last). *)
Record ctx := Ctx { bindings : string -> option (list string); names : list string }.
Definition upd (m : string -> option (list string)) (k : string) (v : option (list string)) : string -> option (list string) :=
  fun k' => if String.eqb k' k then v else m k'.
(** lines 231-243 [fresh_name_for].  The loop tries [id_0], [id_1], ...; one of the first [length names + 1] is free
    (C36), so [fuel] never runs out. *)
Fixpoint search (ns : list string) (id : string) (fuel ix : nat) : string :=
  let name := id ++ "_" ++ dec ix in
  match fuel with 0 => name | S fuel' => if mem name ns then search ns id fuel' (S ix) else name end.
Definition fresh_name_for (c : ctx) (id : string) : string :=
  if mem id (names c) then search (names c) id (List.length (names c)) 0 else id.
(** lines 200-208 [push_new_binding]. *)
Definition push_new_binding (c : ctx) (id : string) : string * ctx :=
  let renamed := match bindings c id with Some r => r | None => [] end in
  let fresh := fresh_name_for c id in
  (fresh, Ctx (upd (bindings c) id (Some (renamed ++ [fresh])%list)) (fresh :: names c)).
(** lines 211-217 [push_fresh_binding]. *)
Definition push_fresh_binding (c : ctx) (hint : option string) : string * ctx :=
  push_new_binding c (fresh_name_for c (match hint with Some id => id | None => "lt" end)).
(** lines 221-228 [get_or_push_new_binding]: also whether the callback ran; [None] is a failing [unwrap]. *)
Definition get_or_push_new_binding (c : ctx) (id : string) : option (string * bool * ctx) :=
  match bindings c id with
  | Some renamed => match last_of renamed with Some n => Some (n, false, c) | None => None end
  | None => let (n, c') := push_new_binding c id in Some (n, true, c')
  end.
(** lines 246-252 [pop_binding]. *)
Definition pop_binding (c : ctx) (id : string) : option ctx :=
  match bindings c id with
  | None => None
  | Some renamed => let r := removelast renamed in Some (Ctx (upd (bindings c) id (match r with [] => None | _ => Some r end)) (names c))
  end.
(** lines 255-260 [BindingContext::new]. *)
Definition new_ctx : ctx := snd (push_new_binding (snd (push_new_binding (Ctx (fun _ => None) []) "static")) "unknown").

(** * Lifetime states *)
(** lines 275-294 [LifetimeState]. *)
Inductive lstate := Unseen | Single (l : string) | Unknown.
Definition update (self next : lstate) : lstate :=
  match self, next with
  | Unseen, n => n
  | s, Unseen => s
  | Single a, Single b => if String.eqb a b then Single a else Unknown
  | _, _ => Unknown
  end.

(** * Types, functions and items of the IR *)
(** ir [CcType]: its variant and explicit lifetimes; constness, the legacy pointer lifetime id and the signature of a
    function pointer are not modelled. *)
Inductive kind := LValueRef | RValueRef | Nullable | NonNull | Owned.
Inductive ty := Ty (v : variant) (lts : list string)
with variant := Decl (id : Z) (args : option ty) | Pointer (k : kind) (pointee : ty) | Primitive | FuncPointer | ErrorType.
Definition lifetimes (t : ty) : list string := match t with Ty _ l => l end.
Definition set_lifetimes (t : ty) (l : list string) : ty := match t with Ty v _ => Ty v l end.
Record param := Param { ident : string; bound : bool; ptype : ty }.
(** Enclosing items, innermost first.  A record has its [record_lifetime_arity]: [None] is an error. *)
Inductive item := IFunc (inputs : list string) | IRecord (inputs : list string) (arity : option nat) | IOther.
Record func := Func { constructor : bool; params : list param; return_type : ty; inputs : list string; enclosing : list item }.
(** What the transformation asks of the database: [decl_lifetime_arity] ([None]: error) and [type_arg_from_decl_id]
    (lines 419-436). *)
Record db := Db { decl_arity : Z -> option nat; type_arg : Z -> option ty }.
(** lines 32-43 [lifetime_arity]. *)
Definition lifetime_arity (d : db) (t : ty) : option nat :=
  match t with Ty v _ => match v with Pointer _ _ => Some 1 | Primitive => Some 0 | FuncPointer | ErrorType => None | Decl id _ => decl_arity d id end end.
(** lines 343-347 [decl_binds_lifetimes]. *)
Definition binds (d : db) (id : Z) : bool := match decl_arity d id with Some 1 => true | _ => false end.

(** * The transformation *)
(** The context together with the list of new binders ([new_bindings]). *)
Record st := St { cx : ctx; newb : list string }.
Definition get_or_push (s : st) (id : string) : option (string * st) :=
  match get_or_push_new_binding (cx s) id with
  | Some (n, called, c) => Some (n, St c (if called then newb s ++ [n] else newb s)%list)
  | None => None
  end.
Definition push_fresh (s : st) (hint : string) : string * st :=
  let (n, c) := push_fresh_binding (cx s) (Some hint) in (n, St c (newb s ++ [n])%list).
(** lines 312-332 [get_state_for_annotated_lifetime]. *)
Definition state_for (s : st) (l : list string) : option (lstate * st) :=
  match l with
  | [] => Some (Unseen, s)
  | [id] => match get_or_push s id with Some (n, s') => Some (if String.eqb n "unknown" then Unknown else Single n, s') | None => None end
  | _ => Some (Unknown, s)
  end.
(** lines 336-341 [get_lifetime_for_state]. *)
Definition lifetime_for (x : lstate) : list string := match x with Single l => [l] | _ => [] end.
(** lines 367-374, 385-392: the annotated lifetime, or a new one. *)
Definition choose (s : st) (hint : string) (l : list string) : option (lstate * st) :=
  match state_for s l with
  | Some (Unseen, s') => let (n, s'') := push_fresh s' hint in Some (Single n, s'')
  | r => r
  end.
Definition is_lref (k : kind) : bool := match k with LValueRef => true | _ => false end.
(** lines 353-416 [add_lifetime_to_input_type]; [fuel] bounds the nesting of type arguments and pointees, [None] is
    exceeding it.  The name hint is always given by the only caller. *)
Fixpoint input_type (d : db) (fuel : nat) (is_this : bool) (hint : string) (s : st) (t : ty) {struct fuel} : option (ty * lstate * lstate * st) :=
  match fuel with
  | 0 => None
  | S fuel' =>
      match t with
      | Ty v lts =>
          match v with
          | Decl id args =>
              if binds d id then
                match (match type_arg d id with
                       | Some a => match input_type d fuel' false hint s a with Some (a', _, _, s') => Some (Decl id (Some a'), s') | None => None end
                       | None => Some (Decl id args, s)
                       end) with
                | Some (v', s1) => match choose s1 hint lts with Some (x, s2) => Some (Ty v' (lifetime_for x), x, Unseen, s2) | None => None end
                | None => None
                end
              else Some (t, Unseen, Unseen, s)
          | Pointer k p =>
              if is_this || is_lref k then
                match input_type d fuel' false hint s p with
                | Some (p', _, _, s1) =>
                    match choose s1 hint lts with
                    | Some (x, s2) =>
                        let t' := Ty (Pointer k p') (lifetime_for x) in
                        Some (if is_this then (t', Unseen, x, s2) else (t', x, Unseen, s2))
                    | None => None
                    end
                | None => None
                end
              else Some (t, Unseen, Unseen, s)
          | _ => Some (t, Unseen, Unseen, s)
          end
      end
  end.
(** lines 452-460, 480-487: resolve every annotated lifetime. *)
Fixpoint resolve_all (s : st) (l : list string) : option (list string * st) :=
  match l with
  | [] => Some ([], s)
  | x :: l' => match get_or_push s x with
               | Some (n, s') => match resolve_all s' l' with Some (r, s'') => Some (n :: r, s'') | None => None end
               | None => None
               end
  end.
(** lines 440-513 [add_lifetime_to_output_type]. *)
Fixpoint output_type (d : db) (fuel : nat) (hint : list string) (s : st) (t : ty) {struct fuel} : option (ty * st) :=
  match fuel with
  | 0 => None
  | S fuel' =>
      match t with
      | Ty v lts =>
          match v with
          | Decl id args =>
              match (if binds d id then
                       match lts with
                       | [] => Some (match hint with [] => lts | _ => hint end, s)
                       | _ => match resolve_all s lts with Some (r, s') => Some (if mem "unknown" r then [] else r, s') | None => None end
                       end
                     else Some (lts, s)) with
              | Some (lts', s1) =>
                  match type_arg d id with
                  | Some a => match output_type d fuel' hint s1 a with Some (a', s2) => Some (Ty (Decl id (Some a')) lts', s2) | None => None end
                  | None => Some (Ty v lts', s1)
                  end
              | None => None
              end
          | Pointer k p =>
              if is_lref k then
                match lts with
                | [] =>
                    match output_type d fuel' hint s p with
                    | Some (p', s') => Some (Ty (Pointer (match hint with [] => NonNull | _ => k end) p') hint, s')
                    | None => None
                    end
                | _ => match resolve_all s lts with Some (r, s') => Some (Ty v r, s') | None => None end
                end
              else Some (t, s)
          | _ => Some (t, s)
          end
      end
  end.

Definition list_eqb (a b : list string) : bool := if list_eq_dec string_dec a b then true else false.
Definition is_nil {A} (l : list A) : bool := match l with [] => true | _ => false end.
(** lines 521-538 [inject_lifetimes_into_this]. *)
Definition inject (p : param) (l : list string) : option param :=
  match ptype p with
  | Ty (Pointer k q) lts =>
      if negb (is_nil (lifetimes q)) && negb (list_eqb (lifetimes q) l) then None
      else Some (Param (ident p) (bound p) (Ty (Pointer k (set_lifetimes q l)) lts))
  | _ => None
  end.
(** Does lifetimebound lowering concern the parameter at [ix]? (lines 557, 610) *)
Definition concerned (ctor : bool) (ix : nat) (p : param) : bool := bound p || (ctor && Nat.eqb ix 0).
(** lines 556-579: collect the annotation the parameters agree on. *)
Fixpoint agree (ctor : bool) (ix : nat) (ps : list param) (rl : list string) (has : bool) : option (list string * bool) :=
  match ps with
  | [] => Some (rl, has)
  | p :: ps' =>
      if concerned ctor ix p then
        let has := has || bound p in
        let l := lifetimes (ptype p) in
        if is_nil rl then agree ctor (S ix) ps' l has
        else if negb (is_nil l) && negb (list_eqb l rl) then None
        else agree ctor (S ix) ps' rl has
      else agree ctor (S ix) ps' rl has
  end.
Definition is_this_param (p : param) : bool := String.eqb (ident p) "__this".
(** lines 609-617: write the lifetime to the parameters. *)
Fixpoint annotate (ctor member : bool) (this_names rl : list string) (ix : nat) (ps : list param) : option (list param) :=
  match ps with
  | [] => Some []
  | p :: ps' =>
      match (if concerned ctor ix p then
               if member && Nat.eqb ix 0 && negb (is_nil this_names) then inject p rl
               else Some (Param (ident p) (bound p) (set_lifetimes (ptype p) rl))
             else Some p) with
      | Some p' => match annotate ctor member this_names rl (S ix) ps' with Some r => Some (p' :: r) | None => None end
      | None => None
      end
  end.
(** lines 544-637 [lower_clang_annotations]; [None] is [bail!].  Returns parameters and return type. *)
Definition lower (d : db) (c : ctx) (f : func) (this_names : list string) : option (list param * ty) :=
  match agree (constructor f) 0 (params f) (lifetimes (return_type f)) false with
  | None => None
  | Some (rl, has) =>
      if has then
        match params f with
        | [] => None
        | this :: _ =>
            let member := is_this_param this in
            match (if is_nil rl then
                     if constructor f then Some this_names
                     else if member && bound this then
                       if negb (is_nil this_names) then Some this_names
                       else if negb (is_nil (lifetimes (ptype this))) then Some (lifetimes (ptype this))
                       else Some [fresh_name_for c "__this"]
                     else match lifetime_arity d (return_type f) with Some n => Some (repeat (fresh_name_for c "__rv") n) | None => None end
                   else Some rl) with
            | None => None
            | Some rl =>
                match annotate (constructor f) member this_names rl 0 (params f) with
                | None => None
                | Some ps =>
                    if constructor f then Some (ps, return_type f)
                    else match lifetime_arity d (return_type f) with
                         | None => None
                         | Some n => Some (ps, set_lifetimes (return_type f) (if Nat.eqb n (List.length rl) then rl else []))
                         end
                end
            end
        end
      else Some (params f, return_type f)
  end.
(** Push bindings for several names. *)
Fixpoint push_all (c : ctx) (l : list string) : list string * ctx :=
  match l with [] => ([], c) | x :: l' => let (n, c1) := push_new_binding c x in let (r, c2) := push_all c1 l' in (n :: r, c2) end.
(** lines 639-670 [bind_lifetime_inputs]: ancestors first; the names of the innermost item if it is a record. *)
Fixpoint bind_enclosing (c : ctx) (items : list item) : option (list string * ctx) :=
  match items with
  | [] => Some ([], c)
  | i :: outer =>
      match bind_enclosing c outer with
      | None => None
      | Some (_, c1) =>
          match i with
          | IFunc ins => Some ([], snd (push_all c1 ins))
          | IRecord ins None => None
          | IRecord ins (Some n) => Some (if negb (Nat.eqb n (List.length ins)) then push_all c1 (repeat "__implicit" n) else push_all c1 ins)
          | IOther => Some ([], c1)
          end
      end
  end.
(** lines 690-713: the loop over the parameters. *)
Fixpoint input_params (d : db) (fuel : nat) (ctor : bool) (ix : nat) (ps : list param) (state this_state : lstate) (s : st)
  : option (list param * lstate * lstate * st) :=
  match ps with
  | [] => Some ([], state, this_state, s)
  | p :: ps' =>
      let is_this := Nat.eqb ix 0 && is_this_param p && negb ctor in
      match input_type d fuel is_this (ident p) s (ptype p) with
      | None => None
      | Some (t', x, y, s1) =>
          match input_params d fuel ctor (S ix) ps' (update state x) (update this_state y) s1 with
          | Some (r, x', y', s2) => Some (Param (ident p) (bound p) t' :: r, x', y', s2)
          | None => None
          end
      end
  end.
(** lines 720-729: [this] with a lifetime becomes a reference. *)
Definition promote (ctor : bool) (ps : list param) : list param :=
  match ps with
  | p :: ps' =>
      if is_this_param p && negb ctor then
        match ptype p with
        | Ty (Pointer k q) (l :: ls) => Param (ident p) (bound p) (Ty (Pointer LValueRef q) (l :: ls)) :: ps'
        | _ => ps
        end
      else ps
  | [] => []
  end.
(** lines 673-731 [add_lifetime_to_func]. *)
Definition add_lifetime_to_func (d : db) (fuel : nat) (f : func) : option func :=
  match bind_enclosing new_ctx (enclosing f) with
  | None => None
  | Some (this_names, c1) =>
      let (own, c2) := push_all c1 (inputs f) in
      match lower d c2 f this_names with
      | None => None
      | Some (ps, ret) =>
          match input_params d fuel (constructor f) 0 ps Unseen Unseen (St c2 own) with
          | None => None
          | Some (ps', state, this_state, s) =>
              let hint := match this_state with Unseen => lifetime_for state | _ => lifetime_for this_state end in
              match output_type d fuel hint s ret with
              | None => None
              | Some (ret', s') => Some (Func (constructor f) (promote (constructor f) ps') ret' (newb s') (enclosing f))
              end
          end
      end
  end.
(** lines 733-752 [add_lifetime_to_record]: the record's lifetime inputs, given its enclosing items. *)
Definition add_lifetime_to_record (ins : list string) (arity : option nat) (outer : list item) : option (list string) :=
  match bind_enclosing new_ctx outer with
  | None => None
  | Some (_, c) =>
      match ins with
      | [] => match arity with Some n => Some (fst (push_all c (repeat "__implicit" n))) | None => None end
      | _ => Some (fst (push_all c ins))
      end
  end.
(** lines 755-786 [add_lifetime_to_type_alias]: the alias's lifetime inputs and its underlying type. *)
Fixpoint alias_names (it n : nat) : list string := match n with 0 => [] | S n' => ("__alias" ++ dec it) :: alias_names (S it) n' end.
Definition add_lifetime_to_type_alias (d : db) (ins : list string) (t : ty) (outer : list item) : option (list string * ty) :=
  match bind_enclosing new_ctx outer with
  | None => None
  | Some (_, c) =>
      if negb (is_nil ins) then None
      else match lifetimes t, lifetime_arity d t with
           | [], Some n => let l := fst (push_all c (alias_names 0 n)) in Some (l, set_lifetimes t l)
           | _, _ => Some ([], t)
           end
  end.
