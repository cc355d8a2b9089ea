(** Model of rs::IteratorAdapter (support/rs_std/iterator_adapter.h:30-150): a
    Rust iterator presented as a C++ input iterator.

    The adapted Rust iterator is arbitrary: a state and `Iterator::next`, which
    need not be fused (it may produce items again after None).  The state is
    either inside the adapter (TAdaptedIterator is the bound Rust struct) or
    elsewhere, when TAdaptedIterator is a pointer
    (iterator_adapter.h:152-164, `impl<T*, Iterator>`): the world holds the
    iterators that C++ variables own, and a source is a value or a pointer to
    one of these variables. *)
From Coq Require Import List Bool Arith.
Import ListNotations.

Section Iter.
Variables St A : Type.
Variable next : St -> option A * St.

(** iterator_adapter.h:139-142; [SPtr v]: TAdaptedIterator is `T*`. *)
Inductive source := SVal (s : St) | SPtr (v : nat).
Record adapter := mkA { a_src : source; a_cur : option A }.

(** The C++ variables that hold Rust iterators; and a log of the calls of
    `Iterator::next`, with their results. *)
Record world := mkW { w_vars : nat -> St; w_calls : list (option A) }.

Definition vupd (f : nat -> St) (n : nat) (x : St) : nat -> St :=
  fun m => if Nat.eqb m n then x else f m.

(** `impl::next(source_)`: iterator_adapter.h:137 for a value, 160-162 for a pointer. *)
Definition src_next (w : world) (s : source) : world * source * option A :=
  match s with
  | SVal s => let '(o, s') := next s in (mkW (w_vars w) (w_calls w ++ [o]), SVal s', o)
  | SPtr v => let '(o, s') := next (w_vars w v) in
              (mkW (vupd (w_vars w) v s') (w_calls w ++ [o]), SPtr v, o)
  end.

(** iterator_adapter.h:137 `next()`, which is also both `operator++` (127-131). *)
Definition adv (w : world) (a : adapter) : world * adapter :=
  let '(w', s', o) := src_next w (a_src a) in (w', mkA s' o).

(** iterator_adapter.h:74-78, the constructor: calls next(). *)
Definition make (w : world) (s : source) : world * adapter := adv w (mkA s None).

(** iterator_adapter.h:132 `operator==(IteratorEnd)`. *)
Definition at_end (a : adapter) : bool := match a_cur a with None => true | Some _ => false end.

(** iterator_adapter.h:122 `operator*`: [None] is std::bad_optional_access. *)
Definition deref (a : adapter) : option A := a_cur a.

(** A C++ range-based for over a range with begin() = [a] and end() =
    IteratorEnd (the standard's definition: compare, dereference, body,
    increment).  The body is arbitrary, may break (true), and is run with its
    own state [B]. [for_cpp] is big-step: it holds of terminating loops. *)
Variable B : Type.
Variable body : A -> B -> B * bool.

Inductive for_cpp : world -> adapter -> B -> world -> adapter -> B -> Prop :=
  | FC_end w a b : at_end a = true -> for_cpp w a b w a b
  | FC_break w a b x b' : at_end a = false -> deref a = Some x -> body x b = (b', true) ->
      for_cpp w a b w a b'
  | FC_next w a b x b' w' a' w2 a2 b2 : at_end a = false -> deref a = Some x -> body x b = (b', false) ->
      adv w a = (w', a') -> for_cpp w' a' b' w2 a2 b2 -> for_cpp w a b w2 a2 b2.

End Iter.
