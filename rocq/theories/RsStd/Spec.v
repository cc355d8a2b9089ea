(** Specification: Unicode's definition of UTF-8, and what slices mean. *)
From Coq Require Import List NArith Bool Arith Lia.
Import ListNotations.
Local Open Scope N_scope.
Local Open Scope list_scope.

(** Unicode 15, D76: scalar values. *)
Definition scalar (v : N) : Prop := v <= 0xD7FF \/ 0xE000 <= v <= 0x10FFFF.
(** Unicode 15, table 3-6: the code point a sequence of bytes stands for. *)
Definition denotes (s : list N) (v : N) : Prop :=
  match s with
  | [a] => a <= 0x7F /\ v = a
  | [a; b] => exists y x, y < 32 /\ x < 64 /\ a = 0xC0 + y /\ b = 0x80 + x /\ v = y * 64 + x
  | [a; b; c] => exists z y x, z < 16 /\ y < 64 /\ x < 64 /\ a = 0xE0 + z /\ b = 0x80 + y /\ c = 0x80 + x /\ v = z * 4096 + y * 64 + x
  | [a; b; c; d] => exists u z y x, u < 8 /\ z < 64 /\ y < 64 /\ x < 64 /\ a = 0xF0 + u /\ b = 0x80 + z /\ c = 0x80 + y /\ d = 0x80 + x /\ v = u * 262144 + z * 4096 + y * 64 + x
  | _ => False
  end.
(** D92: the UTF-8 encoding of a scalar value is its shortest such sequence. *)
Definition encodes (s : list N) (v : N) : Prop := scalar v /\ denotes s v /\ forall s', denotes s' v -> (List.length s <= List.length s')%nat.
(** Well-formed text: the encodings of some scalar values, one after the other. *)
Inductive utf8 : list N -> list N -> Prop :=
| utf8_nil : utf8 [] []
| utf8_cons c v s vs : encodes c v -> utf8 s vs -> utf8 (c ++ s) (v :: vs).
Definition well_formed (s : list N) : Prop := exists vs, utf8 s vs.
(** Lexicographic comparison of texts by code points. *)
Fixpoint compare_text (a b : list N) : comparison :=
  match a, b with
  | [], [] => Eq
  | [], _ => Lt
  | _, [] => Gt
  | x :: a', y :: b' => match x ?= y with Eq => compare_text a' b' | r => r end
  end.
