(** Independent specification for memoized queries: the unmemoized meaning. *)
From Coq Require Import List Arith.
From Verif.Memoized Require Import Model.
Import ListNotations.

Section Spec.
  Context {K V : Type}.
  Variable body : K -> prog K V.

  (** Plain recursive evaluation of a body without any table.  [evals p v] has a
      (finite) derivation exactly when evaluation of [p] terminates, i.e. when no
      query reaches itself. *)
  Inductive evals : prog K V -> V -> Prop :=
  | E_ret v : evals (Ret v) v
  | E_ask k cont v w : evals (body k) v -> evals (cont v) w -> evals (Ask k cont) w.

  Definition query_value (k : K) (v : V) : Prop := evals (body k) v.
End Spec.

(** States in which a call can start: after any history of calls, possibly inside
    the body of any number of queries that have not returned yet.  (A superset of
    the real ones: the enclosing bodies may be at any point.) *)
Section Reachable.
  Context {K V : Type}.
  Variable eq_dec : forall x y : K, {x = y} + {x <> y}.
  Variable body : K -> prog K V.
  Variable cycle_default : K -> option V.
  Inductive reachable : @state K V -> Prop :=
  | R_new : reachable new_db
  | R_call fuel s k v s' : reachable s ->
      call eq_dec body cycle_default fuel s k = RVal v s' -> reachable s'
  | R_enter s k : reachable s ->
      lookup eq_dec (memo s) k = None -> lookup eq_dec (active s) k = None ->
      reachable (St (memo s) ((k, false) :: active s) (unwinding s)).
End Reachable.

(** The number of queries in progress that have been found to be on a cycle. *)
Definition on_cycle {K} (active : list (K * bool)) : nat := length (filter snd active).

(** Number of databases created by a history. *)
Definition databases_created {I A} (os : list (@op I A)) : nat :=
  length (filter (fun o => match o with NewDb _ => true | NewDbElsewhere => true | CallOn _ _ => false end) os).
