(** What users of the generated classes rely on, in terms of values only: every Rust value has exactly one owner until it is
    dropped, exactly once. *)
From Coq Require Import List Arith ZArith Bool.
Import ListNotations.
From Verif.CppClass Require Import Model.

(** What rustc guarantees about a type: [Copy] types are [Clone] and have no destructor. *)
Definition rustc_ok (t : traits) : Prop :=
  is_copy t = true -> is_clone t = true /\ needs_drop t = false.

(** The C++ object [x] holds value [i]. *)
Definition holds (st : state) (x i : nat) : Prop := alive st x = true /\ exists d, mem st x = Val i d.
Definition rust_owns (st : state) (i : nat) : Prop := In i (map fst (rust st)).
Definition is_dropped (st : state) (i : nat) : Prop := In i (dropped st).

(** Everything is in order: every object holds a value; every value ever made is held by exactly one object, or owned exactly
    once by Rust, or was dropped exactly once; and only one of these. *)
Record ownership (st : state) : Prop := {
  no_ub : ub st = false;
  every_object_holds : forall x, alive st x = true -> exists i, holds st x i;
  one_holder : forall x y i, holds st x i -> holds st y i -> x = y;
  owned_once : NoDup (map fst (rust st));
  dropped_once : NoDup (dropped st);
  held_not_owned : forall x i, holds st x i -> ~ rust_owns st i;
  held_not_dropped : forall x i, holds st x i -> ~ is_dropped st i;
  owned_not_dropped : forall i, rust_owns st i -> ~ is_dropped st i;
  accounted : forall i, i < next st <-> ((exists x, holds st x i) \/ rust_owns st i \/ is_dropped st i) }.

(** The data a C++ object shows. *)
Definition data (st : state) (x : nat) : option N :=
  if alive st x then match mem st x with Val _ d => Some d | Garbage => None end else None.

(** Programs that do not pass arrays by value. *)
Definition no_arrays (ops : list op) : Prop := forall xs, ~ In (OTakeArray xs) ops.

(** * What C++ code sees of the data *)

(** Three kinds of types: no destructor; movable by exchanging bytes with a default value; and movable only by cloning. *)
Definition swapped (t : traits) : bool := needs_drop t && has_default t && is_unpin t.

(** The data a move brings over, given the data of the source. *)
Definition arrives (t : traits) (cln : N -> N) (d : N) : N :=
  if negb (needs_drop t) || swapped t then d else cln d.
(** The data a copy brings over. *)
Definition copied (t : traits) (cln : N -> N) (d : N) : N := if is_copy t then d else cln d.

Definition put (f : nat -> option N) (x : nat) (v : option N) : nat -> option N := fun z => if z =? x then v else f z.

(** The data seen in every object after an operation, from the data seen before; [given] is what Rust code held as value i. *)
Definition data_after (t : traits) (dflt : N) (cln : N -> N) (given : nat -> option N) (o : op) (f : nat -> option N) : nat -> option N :=
  match o with
  | ODefault x => put f x (Some dflt)
  | OFrom x d | OReturn x d | OSet x d => put f x (Some d)
  | OCopyCtor x y => put f x (option_map (copied t cln) (f y))
  | OMoveCtor x y =>
      let moved := put f x (option_map (arrives t cln) (f y)) in
      if swapped t then put moved y (Some dflt) else moved
  | OCopyAssign x y => if x =? y then f else put f x (option_map (copied t cln) (f y))
  | OMoveAssign x y =>
      if x =? y then f
      else let moved := put f x (option_map (arrives t cln) (f y)) in
           if swapped t then put moved y (f x) else moved
  | ODestroy x => put f x None
  | OGive x i => put f x (given i)
  | OTake x => if swapped t then put f x (Some dflt) else f
  | OTakeArray _ | ORelease _ => f
  end.

(** The data Rust receives for a parameter. *)
Definition received (t : traits) (cln : N -> N) (d : N) : N :=
  if by_value t then copied t cln d else arrives t cln d.
