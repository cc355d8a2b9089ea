(** What reference counting promises. *)
From Coq Require Import List Arith ZArith Permutation.
Import ListNotations.
From Verif.CcShared Require Import Model.

Fixpoint sum {A} (f : A -> nat) (l : list A) : nat :=
  match l with [] => 0 | x :: l' => f x + sum f l' end.

(** ** Who holds a control block *)

(** [h] is one strong (or, for a weak_ptr, one weak) reference to [c]. *)
Definition refers (c : nat) (h : handle) : nat :=
  match cntrl h with Some c' => if Nat.eqb c c' then 1 else 0 | None => 0 end.

(** References held by a value that has not been destroyed. *)
Definition held_by_value (c : nat) (e : nat * block) : nat :=
  match value (snd e) with Some owned => sum (refers c) owned | None => 0 end.

Definition about_to_unref (c : nat) (t : task) : nat :=
  match t with TUnref c' => if Nat.eqb c c' then 1 else 0 | _ => 0 end.

(** Owners: variables, raw parts, lost parts, pointers inside live values, and drops that have not yet decremented. *)
Definition owners (c : nat) (s : state) : nat :=
  sum (refers c) (vars s) + sum (refers c) (raws s) + sum (refers c) (lost s) +
  sum (held_by_value c) (mem s) + sum (about_to_unref c) (tasks s).

Definition weak_refs (c : nat) (s : state) : nat := sum (refers c) (weaks s).

Definition alive (m : heap) (c : nat) : Prop := exists b owned, get m c = Some b /\ value b = Some owned.

(** ** Values created by a program *)

Definition created1 (l : label) : list nat :=
  match l with LNew _ p _ | LFromBox _ p _ | LFromPtrAndDeleter _ p _ => [p] | _ => [] end.
Definition created (ls : list label) : list nat := flat_map created1 ls.

Definition destroyed_in (l : list event) : list nat :=
  flat_map (fun e => match e with Destroyed p => [p] | _ => [] end) l.
Definition freed_in (l : list event) : list nat :=
  flat_map (fun e => match e with Freed p => [p] | _ => [] end) l.

(** The caller keeps [from_ptr_and_deleter]'s contract, and the pointer is not null. *)
Definition no_null_deleter (ls : list label) : Prop := forall a p, ~ In (LFromPtrAndDeleter a p true) ls.

Definition quiet (s : state) : Prop := tasks s = [].
Definition all_gone (s : state) : Prop := vars s = [] /\ raws s = [] /\ weaks s = [] /\ tasks s = [] /\ lost s = [].

(** The address [c] is given to a new control block. *)
Definition allocates (c : nat) (l : label) : Prop :=
  match l with LNew a _ _ | LFromBox a _ _ | LFromPtrAndDeleter a _ _ => a = c | _ => False end.

Definition val (m : heap) (c : nat) : option (list handle) := match get m c with Some b => value b | None => None end.

(** The control block [c] keeps [x] alive: itself, or through the pointers its value owns. *)
Inductive keeps (m : heap) : nat -> nat -> Prop :=
| keeps_refl c : keeps m c c
| keeps_step c ow h c' x : val m c = Some ow -> In h ow -> cntrl h = Some c' -> keeps m c' x -> keeps m c x.

