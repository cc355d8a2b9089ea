(** Specification for futures and wakers. *)
From Coq Require Import List Bool Arith.
From Verif.Async Require Import Model.
Import ListNotations.

(** ** Lives of futures *)
Definition ends (i : nat) (e : event) : bool :=
  match e with EvDropFut x | EvToRust x => Nat.eqb x i | _ => false end.
Definition touches (i : nat) (e : event) : bool :=
  match e with EvPoll x => Nat.eqb x i | _ => ends i e end.

(** ** Wakers: only tasks matter *)
Definition wakes (l : list event) : list nat :=
  flat_map (fun e => match e with EvWake t => [t] | _ => [] end) l.

Definition frees (x : nat) (l : list event) : nat :=
  length (filter (fun e => match e with EvFree y => Nat.eqb y x | _ => false end) l).

Definition is_waker_event (e : event) : bool :=
  match e with EvWake _ | EvFree _ => true | _ => false end.

(** The tasks of the Wakers that Rust code owns, and of those C++ code owns. *)
Definition rust_tasks (w : world) : list nat := map (w_task w) (w_rust w).
Definition cpp_tasks (w : world) : list nat := map (w_task w) (w_cpp w).

(** The meaning of std::task::Waker on a list of owned wakers: (tasks woken,
    wakers owned afterwards). *)
Definition hop_spec (h : hop) (ts : list nat) : list nat * list nat :=
  match h with
  | HWake k => match nth_error ts k with Some t => ([t], remove_nth k ts) | None => ([], ts) end
  | HWakeByRef k => match nth_error ts k with Some t => ([t], ts) | None => ([], ts) end
  | HDrop k => match nth_error ts k with Some _ => ([], remove_nth k ts) | None => ([], ts) end
  | HClone k => match nth_error ts k with Some t => ([], ts ++ [t]) | None => ([], ts) end
  end.

(** The same inside a poll whose context wakes task [t]. *)
Definition action_spec (t : nat) (a : action) (ts : list nat) : list nat * list nat :=
  match a with
  | BClone => ([], ts ++ [t])
  | BWake => ([t], ts)
  | BHeld h => hop_spec h ts
  end.

Fixpoint actions_spec (t : nat) (acts : list action) (ts : list nat) : list nat * list nat :=
  match acts with
  | [] => ([], ts)
  | a :: r => let '(w1, ts1) := action_spec t a ts in
              let '(w2, ts2) := actions_spec t r ts1 in (w1 ++ w2, ts2)
  end.
