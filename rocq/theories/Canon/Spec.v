(** Specification for C182 and C183: the declaration that stands for an entity. *)
From Coq Require Import List ZArith NArith Bool.
From Verif.Canon Require Import Model.
Import ListNotations.

(** Within one target, the declaration that stands for a class or enumeration is its definition, or its first declaration if it is not
    defined there. *)
Definition of_target (chain : list redecl) (target : Z) (r : redecl) : Prop := In r chain /\ r_injected r = false /\ r_target r = target.
Definition stands_for (chain : list redecl) (target : Z) (c : redecl) : Prop :=
  of_target chain target c /\
  (r_def c = true \/
   (forall r, of_target chain target r -> r_def r = false) /\ (forall r, of_target chain target r -> (r_begin c <= r_begin r)%N)).
(** What C++ and Clang guarantee: declarations have addresses and places of their own, and one definition. *)
Definition chain_ok (chain : list redecl) : Prop :=
  NoDup (map r_id chain) /\
  (forall a b, In a chain -> In b chain -> r_injected a = false -> r_injected b = false -> r_begin a = r_begin b -> a = b) /\
  (forall t a b, of_target chain t a -> of_target chain t b -> r_def a = true -> r_def b = true -> a = b).
