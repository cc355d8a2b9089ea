(** Specification: which bytes two ranges share. *)
From Coq Require Import List Arith Bool Lia Sorting.Sorted Sorting.Permutation.
From Verif.Aliasing Require Import Model.
Import ListNotations.

(** A byte of memory belongs to a range. *)
Definition covers (p : ptr) (a : nat) : Prop := start p <= a < stop p.
Definition share_memory (p q : ptr) : Prop := exists a, covers p a /\ covers q a.
(** Two different arguments, at least one of them mutable, share memory. *)
Definition aliased (muts consts : list ptr) : Prop :=
  (exists i j p q, i <> j /\ nth_error muts i = Some p /\ nth_error muts j = Some q /\ share_memory p q) \/
  (exists p q, In p muts /\ In q consts /\ share_memory p q).
(** The ranges of live objects: some bytes at a non-null address; or of an empty slice. *)
Definition proper (p : ptr) : Prop := (0 < start p /\ start p < stop p) \/ (start p = 0 /\ stop p = 0).
Definition sorts (sort : list ptr -> list ptr) : Prop :=
  forall l, Permutation l (sort l) /\ StronglySorted (fun a b => start a <= start b) (sort l).
