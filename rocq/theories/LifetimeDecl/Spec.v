(** Names of lifetimes, and which lifetimes a declaration gives, independently of the
    functions of the model. *)
From Coq Require Import List NArith ZArith Ascii String Bool.
From Verif.Lifetimes Require Import Model.
From Verif.FnLifetimes Require Import Model.
From Verif.FnLifetimes Require Spec.
From Verif.LifetimeDecl Require Import Model.
Import ListNotations.
Local Open Scope N_scope.
Local Open Scope list_scope.

(** ** Names *)
Definition is_lower (c : ascii) : Prop := 97 <= N_of_ascii c <= 122.
Definition word (w : text) : Prop := w <> [] /\ Forall is_lower w.
(** The place of a word in a, b, ..., z, aa, ab, ..., counted from 1. *)
Definition place (w : text) : N := fold_left (fun a c => 26 * a + (N_of_ascii c - 96)) w 0.

(** What users of a table do: look up (and declare) names, ask for a name of a lifetime
    that exists, add a new name for a lifetime that has none; others create lifetimes. *)
Inductive uses : table -> Z -> Prop :=
| u_start c : (2 <= c)%Z -> uses empty_table c
| u_name t c n l t' c' : uses t c -> lifetime_for n t c = (l, t', c') -> uses t' c'
| u_lifetime t c l n t' : uses t c -> (l < c)%Z -> name_for l t = (n, t') -> uses t' c
| u_add t c n l t' : uses t c -> (l < c)%Z -> l <> Static -> n <> static_name ->
    (forall m, lookup_name t m <> Some l) -> add_name n l t = Some t' -> uses t' c
| u_new t c : uses t c -> uses t (c + 1).
(** One-to-one. *)
Definition one_to_one (t : table) : Prop :=
  forall n l, lookup_name t n = Some l <-> lookup_lifetime t l = Some n.
(** Rust's keywords of two letters cannot be names of lifetimes. *)
Definition rust_keyword (w : text) : Prop := In w [T "as"; T "do"; T "fn"; T "if"; T "in"].

(** ** Places for lifetimes *)
(** The names written on a type, if its annotation is of the right form. *)
Definition written (an : list (list text)) : option (list text) :=
  match an with [] => Some [] | [ns] => Some ns | _ => None end.
Definition as_fun (t : ty) : Prop := exists an f, t = TFun an f.
Inductive AnnotatedV : ty -> Prop :=
| an_plain q an : written an = Some [] -> AnnotatedV (TPlain q an)
| an_ptr q an t ns : written an = Some ns -> (List.length ns <= 1)%nat -> ~ as_fun t -> AnnotatedV t -> AnnotatedV (TPtr q an t)
| an_fptr q an an' f : written an = Some [] -> AnnotatedV (TFun an' f) -> AnnotatedV (TPtr q an (TFun an' f))
| an_rec q ps ta an ns : written an = Some ns -> ns = [] \/ List.length ns = List.length ps -> AnnotatedA ta -> AnnotatedV (TRec q ps ta an)
| an_fun an ns f : written an = Some ns -> AnnotatedF f -> AnnotatedV (TFun an f)
with AnnotatedA : tys -> Prop :=
| an_nil : AnnotatedA TNil
| an_none r : AnnotatedA r -> AnnotatedA (TCons TNone r)
| an_some t r : AnnotatedV t -> AnnotatedA r -> AnnotatedA (TCons (TSome t) r)
with AnnotatedF : fty -> Prop :=
| an_ft ps r : AnnotatedA ps -> AnnotatedV r -> AnnotatedF (FT ps r).
(** Written names, or [None] where nothing is written. *)
Definition names_of (an : list (list text)) : list text := match written an with Some ns => ns | None => [] end.
Definition first_name (an : list (list text)) : option text := hd_error (names_of an).
Fixpoint padded (n : nat) (ns : list text) : list (option text) :=
  match n with O => [] | S k => hd_error ns :: padded k (tl ns) end.
(** The places of a type that have a lifetime, in order: a pointer after what it points to
    (functions pointed to are 'static, without a place), lifetime parameters before
    template arguments. *)
Fixpoint slots_v (t : ty) : list (option text) :=
  match t with
  | TPlain _ _ => []
  | TPtr _ an t' => match t' with TFun _ f => slots_f f | _ => slots_v t' ++ [first_name an] end
  | TRec _ ps ta an => padded (List.length ps) (names_of an) ++ slots_args ta
  | TFun _ f => slots_f f
  end
with slots_o (o : oty) : list (option text) := match o with TNone => [] | TSome t => slots_v t end
with slots_args (a : tys) : list (option text) := match a with TNil => [] | TCons o r => slots_o o ++ slots_args r end
with slots_f (f : fty) : list (option text) := match f with FT ps r => slots_args ps ++ slots_v r end.

(** A value of the type with these lifetimes at these places. *)
Inductive Fits : ty -> vl -> list lifetime -> Prop :=
| fits_plain q an : Fits (TPlain q an) (VPlain q) []
| fits_ptr q an t v l ls : ~ as_fun t -> Fits t v ls -> Fits (TPtr q an t) (VPtr q l v) (ls ++ [l])
| fits_fptr q an an' f g ls : Fits_f f g ls -> Fits (TPtr q an (TFun an' f)) (VPtr q Static (VFun g)) ls
| fits_rec q ps ta an a lps ls : map fst lps = ps -> Fits_args ta a ls -> Fits (TRec q ps ta an) (VRec q a lps) (map snd lps ++ ls)
| fits_fun an f g ls : Fits_f f g ls -> Fits (TFun an f) (VFun g) ls
with Fits_o : oty -> ovl -> list lifetime -> Prop :=
| fits_none : Fits_o TNone ONone []
| fits_some t v ls : Fits t v ls -> Fits_o (TSome t) (OSome v) ls
with Fits_args : tys -> args -> list lifetime -> Prop :=
| fits_nil : Fits_args TNil ANil []
| fits_cons o v ls r a ls' : Fits_o o v ls -> Fits_args r a ls' -> Fits_args (TCons o r) (ACons v a) (ls ++ ls')
with Fits_f : fty -> fl -> list lifetime -> Prop :=
| fits_ft ps a ls r v ls' : Fits_args ps a ls -> Fits r v ls' -> Fits_f (FT ps r) (FL a v ONone) (ls ++ ls').

(** The same for a declared function: [this] (the object, then the pointer), parameters,
    result. *)
Definition AnnotatedD (d : decl) : Prop :=
  (exists ns, written (d_this_an d) = Some ns /\
    match d_this d with None => ns = [] | Some t => (List.length ns <= 1)%nat /\ AnnotatedV t end)
  /\ AnnotatedA (d_params d) /\ AnnotatedV (d_return d).
Definition this_slots (d : decl) : list (option text) :=
  match d_this d with None => [] | Some t => slots_v t ++ [first_name (d_this_an d)] end.
Inductive FitsThis : option ty -> ovl -> list lifetime -> Prop :=
| ft_none : FitsThis None ONone []
| ft_some t v l ls : Fits t v ls -> FitsThis (Some t) (OSome (VPtr false l v)) (ls ++ [l]).
Definition FitsDecl (d : decl) (f : fl) (this inputs outputs : list lifetime) : Prop :=
  match f with FL ps r th => FitsThis (d_this d) th this /\ Fits_args (d_params d) ps inputs /\ Fits (d_return d) r outputs end.

(** ** Elision *)
(** The lifetimes of a parameter that count for elision: of a pointer to a function only
    those of the function. *)
Inductive counts : ovl -> lifetime -> Prop :=
| counts_fun q l f x : In x (Spec.lifetimes_f f) -> counts (OSome (VPtr q l (VFun f))) x
| counts_other v x : (forall q l f, v <> VPtr q l (VFun f)) -> In x (Spec.lifetimes_v v) -> counts (OSome v) x.
Inductive counts_any : args -> lifetime -> Prop :=
| counts_here o r x : counts o x -> counts_any (ACons o r) x
| counts_later o r x : counts_any r x -> counts_any (ACons o r) x.
(** The lifetime of an elided result: that of [this], or else the only one that counts. *)
Inductive elided : ovl -> args -> lifetime -> Prop :=
| elided_this q l v ps : elided (OSome (VPtr q l v)) ps l
| elided_param ps l : counts_any ps l -> (forall x, counts_any ps x -> x = l) -> elided ONone ps l.

(** ** Strings *)
Definition name_char (c : ascii) : Prop := alnum c = true.
Definition name_like (n : text) : Prop := n <> [] /\ Forall name_char n.
(** Neither pointers nor functions nor lifetime parameters. *)
Fixpoint trivial_v (v : vl) : Prop :=
  match v with
  | VPlain _ => True
  | VPtr _ _ _ | VFun _ => False
  | VRec _ a lps => trivial_args a /\ lps = []
  end
with trivial_o (o : ovl) : Prop := match o with ONone => True | OSome v => trivial_v v end
with trivial_args (a : args) : Prop := match a with ANil => True | ACons o r => trivial_o o /\ trivial_args r end.
(** Template arguments are trivial. *)
Fixpoint untemplated_v (v : vl) : Prop :=
  match v with
  | VPlain _ => True
  | VPtr _ _ v' => untemplated_v v'
  | VRec _ a _ => trivial_args a
  | VFun f => untemplated_f f
  end
with untemplated_o (o : ovl) : Prop := match o with ONone => True | OSome v => untemplated_v v end
with untemplated_args (a : args) : Prop := match a with ANil => True | ACons o r => untemplated_o o /\ untemplated_args r end
with untemplated_f (f : fl) : Prop := match f with FL ps r th => untemplated_args ps /\ untemplated_v r /\ untemplated_o th end.
(** Classes have lifetime parameters or non-trivial template arguments, not both, and
    template arguments have no non-trivial ones of their own. *)
Fixpoint one_level_v (v : vl) : Prop :=
  match v with
  | VPlain _ => True
  | VPtr _ _ v' => one_level_v v'
  | VRec _ a lps => trivial_args a \/ (untemplated_args a /\ lps = [])
  | VFun f => one_level_f f
  end
with one_level_o (o : ovl) : Prop := match o with ONone => True | OSome v => one_level_v v end
with one_level_args (a : args) : Prop := match a with ANil => True | ACons o r => one_level_o o /\ one_level_args r end
with one_level_f (f : fl) : Prop := match f with FL ps r th => one_level_args ps /\ one_level_v r /\ one_level_o th end.
(** Lifetimes for places in order, each given (or refused) by a source of lifetimes. *)
Fixpoint supply {S} (source : option text -> S -> result (lifetime * S)) (slots : list (option text)) (st : S) : result (list lifetime * S) :=
  match slots with
  | [] => Ok ([], st)
  | n :: r => match source n st with
              | Err e => Err e
              | Ok (l, st1) => match supply source r st1 with
                               | Err e => Err e
                               | Ok (ls, st2) => Ok (l :: ls, st2)
                               end
              end
  end.
(** The names among tokens: all but the separators. *)
Definition is_separator (t : text) : Prop := In t [T "("; T ")"; T ","; T "->"; T ":"; T "["; T "]"; T ">"; T "<"].
Inductive Names : list text -> list text -> Prop :=
| nm_nil : Names [] []
| nm_sep t ts ns : is_separator t -> Names ts ns -> Names (t :: ts) ns
| nm_name t ts ns : ~ is_separator t -> Names ts ns -> Names (t :: ts) (t :: ns).
Definition all_slots (d : decl) : list (option text) := this_slots d ++ slots_args (d_params d) ++ slots_v (d_return d).
(** Between two states: names keep their lifetimes, and names of [ns] get lifetimes that
    are new. *)
Definition extends (ns : list text) (t : table) (c : Z) (t' : table) (c' : Z) : Prop :=
  (forall n l, lookup_name t n = Some l -> lookup_name t' n = Some l) /\
  (forall n l, lookup_name t' n = Some l -> lookup_name t n = Some l \/ (In n ns /\ (c <= l < c')%Z)) /\
  (c <= c')%Z.
(** What a place gets: a written name its lifetime; without one, an input gets a lifetime
    made for it, a result the elided one. *)
Definition given_input (st st' : state) (o : option text) (l : lifetime) : Prop :=
  match o with Some n => lookup_name (tab st') n = Some l | None => (counter st <= l < counter st')%Z end.
Definition given_result (st' : state) (th : ovl) (ps : args) (o : option text) (l : lifetime) : Prop :=
  match o with Some n => lookup_name (tab st') n = Some l | None => elided th ps l end.
Definition input_slots (d : decl) : list (option text) := this_slots d ++ slots_args (d_params d).
Definition unwritten (slots : list (option text)) : Prop := In None slots.
