(** Independent specification of topological sorting.  Mentions only lists,
    relations and [comparison]; nothing from the model. *)
From Coq Require Import List Arith Relations Permutation.
Import ListNotations.

(** The two library contracts the code relies on. *)

(** A comparator is lawful when it is a total preorder. *)
Definition lawful {A} (cmp : A -> A -> comparison) : Prop :=
  (forall x y, cmp y x = CompOpp (cmp x y)) /\
  (forall x y z, cmp x y <> Gt -> cmp y z <> Gt -> cmp x z <> Gt).

(** [p] precedes [s] in [l]. *)
Definition before {A} (l : list A) (p s : A) : Prop :=
  exists l1 l2 l3, l = l1 ++ p :: l2 ++ s :: l3.

(** The edge relation of a dependency list (pairs (predecessor, successor)). *)
Definition edge {A} (deps : list (A * A)) (p s : A) : Prop := In (p, s) deps.

(** [x] is on a cycle, or depends (transitively) on a node of a cycle. *)
Definition stuck_behind_cycle {A} (deps : list (A * A)) (x : A) : Prop :=
  exists c, clos_trans A (edge deps) c c /\ clos_refl_trans A (edge deps) c x.

(** Last position of [x] in the input list. *)
Definition last_position {A} (nodes : list A) (x : A) (i : nat) : Prop :=
  nth_error nodes i = Some x /\ forall j, nth_error nodes j = Some x -> j <= i.

(** [x] comes strictly before [y] in the preferred order, ties by input position. *)
Definition preferred {A} (cmp : A -> A -> comparison) (nodes : list A) (x y : A) : Prop :=
  cmp x y = Lt \/
  (cmp x y = Eq /\ exists i j, last_position nodes x i /\ last_position nodes y j /\ i < j).

(** A node that may be emitted next, once the nodes in [emitted] are out. *)
Definition available {A} (nodes : list A) (deps : list (A * A)) (emitted : list A) (y : A) : Prop :=
  In y nodes /\ ~ In y emitted /\ forall p, In (p, y) deps -> In p emitted.

(** Greedy: each emitted node was available, and preferred to all other available
    nodes; at the end nothing is available. *)
Definition greedy {A} (cmp : A -> A -> comparison) (nodes : list A) (deps : list (A * A))
    (out : list A) : Prop :=
  (forall l1 x l2, out = l1 ++ x :: l2 ->
     available nodes deps l1 x /\
     forall y, available nodes deps l1 y -> y = x \/ preferred cmp nodes x y) /\
  (forall y, ~ available nodes deps out y).

(** [l] is sorted by [cmp]. *)
Definition sorted_by {A} (cmp : A -> A -> comparison) (l : list A) : Prop :=
  forall l1 x l2 y l3, l = l1 ++ x :: l2 ++ y :: l3 -> cmp x y <> Gt.
