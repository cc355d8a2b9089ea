(** What a user of the generated crate relies on, for overloads and comparisons. *)
From Coq Require Import List Bool Arith.
From Verif Require Import Overloads.Model.
Import ListNotations.

(** Function [f] asks for the Rust name [k] (its binding would be reached under [k]). *)
Definition wants (F : list cfunc) (f : cfunc) (k : fnid) : Prop :=
  exists neg ok, generate F f = GSome k neg ok.

(** [f] outranks [g]: only [g] is deprecated. *)
Definition outranks (f g : cfunc) : Prop := f_depr f = false /\ f_depr g = true.

(** [f] is the one function a caller of [k] can mean: every other function asking for the
    same name is deprecated and [f] is not, or there is no other. *)
Definition unique_choice (F : list cfunc) (f : cfunc) (k : fnid) : Prop :=
  In f F /\ wants F f k /\
  forall g, In g F -> wants F g k -> f_id g <> f_id f -> outranks f g.

(** The IR gives every function its own id. *)
Definition ids_distinct (F : list cfunc) : Prop := NoDup (List.map f_id F).

(** The trait impls in the generated crate. *)
Definition has_eq_impl (F : list cfunc) (l r : nat) (i : item) : Prop :=
  In i (emitted F) /\ i_key i = IdEq l r.
Definition has_ord_impl (F : list cfunc) (l r : nat) (i : item) : Prop :=
  In i (emitted F) /\ i_key i = IdOrd l r.

(** rustc accepts [impl PartialOrd<R> for L] only if [L: PartialEq<R>] holds, that is, if
    there is an impl without an unsatisfiable where clause (core::cmp::PartialOrd has
    PartialEq as supertrait). *)
Definition supertraits_hold (F : list cfunc) : Prop :=
  forall l r i, has_ord_impl F l r i -> exists j, has_eq_impl F l r j /\ i_ok j = true.

(** The C++ operators a class offers are sound for a partial order: nothing is less than
    an equal value and [<] is asymmetric. *)
Definition partial_order_ok (eq lt : nat -> nat -> bool) : Prop :=
  (forall a b, eq a b = true -> lt a b = false /\ lt b a = false) /\
  (forall a b, lt a b = true -> lt b a = false).

(** The contract of core::cmp::PartialOrd (the documented requirements that relate its
    methods to [partial_cmp] and [==]). *)
Definition partial_ord_contract
  (pc : nat -> nat -> option ordering) (eq lt gt le ge : nat -> nat -> bool) : Prop :=
  forall a b,
    (eq a b = true <-> pc a b = Some Equal) /\
    (lt a b = true <-> pc a b = Some Less) /\
    (gt a b = true <-> pc a b = Some Greater) /\
    (le a b = true <-> (lt a b = true \/ eq a b = true)) /\
    (ge a b = true <-> (gt a b = true \/ eq a b = true)) /\
    (lt a b = true <-> gt b a = true).
