(** What the states and verdicts of the nullability checker mean. *)
From Coq Require Import List Bool Arith.
From Verif.NullState Require Import Model.
Import ListNotations.

(** A valuation says which atoms are true in one execution. *)
Fixpoint eval (v : nat -> bool) (f : formula) : bool :=
  match f with
  | FLit b => b
  | FAtom a => v a
  | FNot f => negb (eval v f)
  | FAnd f g => eval v f && eval v g
  | FOr f g => eval v f || eval v g
  | FImp f g => implb (eval v f) (eval v g)
  | FEq f g => Bool.eqb (eval v f) (eval v g)
  end.

(** [v] obeys what the context knows. *)
Definition obeys (C : ctx) (v : nat -> bool) : Prop := forall f, In f (clauses C) -> eval v f = true.

(** [v] is an execution that reaches the environment with token [t]. *)
Definition reaches (C : ctx) (t : nat) (v : nat -> bool) : Prop := obeys C v /\ v t = true.

Definition reachable (C : ctx) (t : nat) : Prop := exists v, reaches C t v.

(** [v] meets the optional additional constraints. *)
Definition meets (extra : option formula) (v : nat -> bool) : Prop :=
  match extra with Some c => eval v c = true | None => True end.

(** The property can be true in [v]: it is, or nothing is known about it. *)
Definition can_be (p : option formula) (v : nat -> bool) : Prop :=
  match p with Some f => eval v f = true | None => True end.

Definition true_in (fs : list formula) (v : nat -> bool) : Prop := forall f, In f fs -> eval v f = true.

(** A solver that never lies, and one that also never gives up. *)
Definition sound (solve : solver) : Prop :=
  forall fs, (solve fs = Unsat -> forall v, ~ true_in fs v) /\ (solve fs = Sat -> exists v, true_in fs v).
Definition exact (solve : solver) : Prop := sound solve /\ forall fs, solve fs <> TimedOut.

(** The definition in the comment of [isNullable]: provably null in reachable
    code, or from a nullable source and possibly null. *)
Definition nullable_here (C : ctx) (t : nat) (s : state) (extra : option formula) : Prop :=
  (reachable C t /\ exists n, is_null s = Some n /\
     forall v, reaches C t v -> meets extra v -> eval v n = true) \/
  (exists v, reaches C t v /\ meets extra v /\ can_be (from_nullable s) v /\ can_be (is_null s) v).

(** Known not to be null. *)
Definition nonnull_here (C : ctx) (t : nat) (s : state) (extra : option formula) : Prop :=
  exists n, is_null s = Some n /\ forall v, reaches C t v -> meets extra v -> eval v n = false.

(** All atoms of a formula, a context, a state have been made. *)
Fixpoint below (n : nat) (f : formula) : Prop :=
  match f with
  | FLit _ => True
  | FAtom a => a < n
  | FNot f => below n f
  | FAnd f g | FOr f g | FImp f g | FEq f g => below n f /\ below n g
  end.
Definition below_opt (n : nat) (f : option formula) : Prop := match f with Some f => below n f | None => True end.
Definition ctx_ok (C : ctx) : Prop :=
  (forall p, In p (c_toks C) -> fst p < c_next C /\ below (c_next C) (snd p)) /\
  (forall f, In f (c_invs C) -> below (c_next C) f).
Definition state_ok (C : ctx) (s : state) : Prop :=
  below_opt (c_next C) (from_nullable s) /\ below_opt (c_next C) (is_null s).

(** Two executions that agree on everything that existed in [C]. *)
Definition same_so_far (C : ctx) (v w : nat -> bool) : Prop := forall a, a < c_next C -> v a = w a.

(** The merged property is the one of the branch in the execution [v], unless
    nothing is known about it any more. *)
Definition stands_for (merged branch : option formula) (v : nat -> bool) : Prop :=
  match merged, branch with
  | Some f, Some g => eval v f = eval v g
  | Some _, None => False
  | None, _ => True
  end.
Definition state_for (merged branch : state) (v : nat -> bool) : Prop :=
  stands_for (from_nullable merged) (from_nullable branch) v /\ stands_for (is_null merged) (is_null branch) v.

Definition known (s : state) : Prop := from_nullable s <> None /\ is_null s <> None.

(** A property of the new state covers one of an old state: it is unknown or the
    same formula. *)
Definition covers (new old : option formula) : Prop := new = None \/ new = old.

(** A complete solver, by truth tables: shows that [exact] solvers exist. *)
Fixpoint top_atom (f : formula) : nat :=
  match f with
  | FLit _ => 0
  | FAtom a => S a
  | FNot f => top_atom f
  | FAnd f g | FOr f g | FImp f g | FEq f g => Nat.max (top_atom f) (top_atom g)
  end.
Fixpoint rows (n : nat) : list (list bool) :=
  match n with 0 => [[]] | S n => flat_map (fun r => [true :: r; false :: r]) (rows n) end.
Definition row_val (r : list bool) (a : nat) : bool := nth a r false.
Definition table_solver : solver := fun fs =>
  let n := fold_right (fun f m => Nat.max (top_atom f) m) 0 fs in
  if existsb (fun r => forallb (eval (row_val r)) fs) (rows n) then Sat else Unsat.
