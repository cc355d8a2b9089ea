(** Model of support/rs_std: is_utf8.h, str_ref.h, char.h, char.cc and slice_ref.h.  Bytes, code points and addresses are
    natural numbers. *)
From Coq Require Import List NArith Bool Arith.
Import ListNotations.
Local Open Scope N_scope.
Local Open Scope list_scope.
Definition bytes := list N.

(** * internal/is_utf8.h *)
(** lines 52-57 [IsAscii(char)]. *)
Definition is_ascii_char (c : N) : bool := c <=? 0x7f.
(** lines 60-67 [IsAscii(string_view)]. *)
Fixpoint is_ascii (s : bytes) : bool := match s with [] => true | c :: s' => if negb (is_ascii_char c) then false else is_ascii s' end.
(** lines 75-93 [kFirstByteToUtf8CharSize], verbatim. *)
Definition kFirstByteToUtf8CharSize : list nat := [
    1; 1; 1; 1; 1; 1; 1; 1; 1; 1; 1; 1; 1; 1; 1; 1;
    1; 1; 1; 1; 1; 1; 1; 1; 1; 1; 1; 1; 1; 1; 1; 1;
    1; 1; 1; 1; 1; 1; 1; 1; 1; 1; 1; 1; 1; 1; 1; 1;
    1; 1; 1; 1; 1; 1; 1; 1; 1; 1; 1; 1; 1; 1; 1; 1;
    1; 1; 1; 1; 1; 1; 1; 1; 1; 1; 1; 1; 1; 1; 1; 1;
    1; 1; 1; 1; 1; 1; 1; 1; 1; 1; 1; 1; 1; 1; 1; 1;
    1; 1; 1; 1; 1; 1; 1; 1; 1; 1; 1; 1; 1; 1; 1; 1;
    1; 1; 1; 1; 1; 1; 1; 1; 1; 1; 1; 1; 1; 1; 1; 1;
    0; 0; 0; 0; 0; 0; 0; 0; 0; 0; 0; 0; 0; 0; 0; 0;
    0; 0; 0; 0; 0; 0; 0; 0; 0; 0; 0; 0; 0; 0; 0; 0;
    0; 0; 0; 0; 0; 0; 0; 0; 0; 0; 0; 0; 0; 0; 0; 0;
    0; 0; 0; 0; 0; 0; 0; 0; 0; 0; 0; 0; 0; 0; 0; 0;
    0; 0; 2; 2; 2; 2; 2; 2; 2; 2; 2; 2; 2; 2; 2; 2;
    2; 2; 2; 2; 2; 2; 2; 2; 2; 2; 2; 2; 2; 2; 2; 2;
    3; 3; 3; 3; 3; 3; 3; 3; 3; 3; 3; 3; 3; 3; 3; 3;
    4; 4; 4; 4; 4; 0; 0; 0; 0; 0; 0; 0; 0; 0; 0; 0 ]%nat.
(** Indexed with an 8-bit integer. *)
Definition char_size (b : N) : nat := nth (N.to_nat b) kFirstByteToUtf8CharSize 0%nat.
Definition tail_bad (b : N) : bool := (b <? 0x80) || (0xBF <? b).
(** lines 187-195, the case for 1 byte. *)
Definition first_ok (first : N) : bool :=
  if (0x80 <=? first) && (first <? 0xC2) then false else if 0xF4 <? first then false else true.
(** lines 149-186: the case for 2 bytes, falling through to that for 1. *)
Definition second_ok (first second : N) : bool :=
  if tail_bad second then false
  else if (if first =? 0xE0 then second <? 0xA0 else if first =? 0xED then 0x9F <? second else if first =? 0xF0 then second <? 0x90
           else if first =? 0xF4 then 0x8F <? second else second <? 0x80) then false
  else first_ok first.
(** lines 100-198 [IsUtf8Char]. *)
Definition is_utf8_char (s : bytes) : bool :=
  match s with
  | [a] => first_ok a
  | [a; b] => second_ok a b
  | [a; b; c] => if tail_bad c then false else second_ok a b
  | [a; b; c; d] => if tail_bad d then false else if tail_bad c then false else second_ok a b
  | _ => false
  end.
(** lines 206-218: the loop.  Each round removes at least one byte (a size of 0 ends it), so [fuel] never runs out. *)
Fixpoint utf8_loop (fuel : nat) (s : bytes) : bool :=
  match s with
  | [] => true
  | b :: _ =>
      match fuel with
      | O => false
      | S fuel' =>
          let n := char_size b in
          if (List.length s <? n)%nat then false
          else if negb (is_utf8_char (firstn n s)) then false
          else utf8_loop fuel' (skipn n s)
      end
  end.
(** lines 201-220 [IsUtf8]. *)
Definition is_utf8 (s : bytes) : bool := if is_ascii s then true else utf8_loop (List.length s) s.

(** * str_ref.h: a [StrRef] is identified with its contents *)
(** lines 53-59 [FromUtf8]. *)
Definition from_utf8 (s : bytes) : option bytes := if is_utf8 s then Some s else None.
(** lines 151-169 [operator==], lines 171-192 [operator<=>]: those of [std::string_view] (characters compare as unsigned
    bytes). *)
Fixpoint view_eq (a b : bytes) : bool := match a, b with [], [] => true | x :: a', y :: b' => (x =? y) && view_eq a' b' | _, _ => false end.
Fixpoint view_compare (a b : bytes) : comparison :=
  match a, b with
  | [], [] => Eq
  | [], _ => Lt
  | _, [] => Gt
  | x :: a', y :: b' => match x ?= y with Eq => view_compare a' b' | r => r end
  end.

(** * char.h *)
(** lines 140-153 [IsValidCodePoint]. *)
Definition is_valid_code_point (c : N) : bool :=
  if 0x10ffff <? c then false else if (0xd800 <=? c) && (c <=? 0xdfff) then false else true.
(** lines 83-89 [from_u32]. *)
Definition from_u32 (c : N) : option N := if negb (is_valid_code_point c) then None else Some c.
(** lines 119-129 [len_utf8]. *)
Definition len_utf8 (v : N) : nat := if v <? 0x80 then 1 else if v <? 0x800 then 2 else if v <? 0x10000 then 3 else 4.
(** char.cc lines 22-60 [encode_utf8]: the buffer afterwards and the length of the result, or [None] if the check fails. *)
Definition u8 (x : N) : N := x mod 256.
Definition cont (x : N) : N := N.lor (u8 (N.land x 0x3f)) 0x80.
Definition written (v : N) : bytes :=
  match len_utf8 v with
  | 1%nat => [u8 v]
  | 2%nat => [N.lor (u8 (N.land (N.shiftr v 6) 0x1f)) 0xC0; cont v]
  | 3%nat => [N.lor (u8 (N.land (N.shiftr v 12) 0x0f)) 0xE0; cont (N.shiftr v 6); cont v]
  | _ => [N.lor (u8 (N.land (N.shiftr v 18) 0x07)) 0xF0; cont (N.shiftr v 12); cont (N.shiftr v 6); cont v]
  end.
Definition encode_utf8 (v : N) (buf : bytes) : option (bytes * nat) :=
  let len := len_utf8 v in
  if (len <=? List.length buf)%nat then Some (written v ++ skipn len buf, len) else None.

(** * slice_ref.h *)
(** lines 158-170: the pointer or the dangling value, and the number of elements. *)
Record slice := Slice { word : N; size : N }.
(** line 41 [SliceRef()]; [align] is [alignof(T)]. *)
Definition slice_empty (align : N) : slice := Slice align 0.
(** lines 45-50 [SliceRef(T*, size_t)]; the null pointer is 0. *)
Definition slice_of (align ptr n : N) : slice :=
  let sz := if ptr =? 0 then 0 else n in
  if 0 <? sz then Slice ptr sz else Slice align sz.
(** lines 151-152 [data], [size]; lines 154-156 [to_span]. *)
Definition slice_data (s : slice) : N := if 0 <? size s then word s else 0.
Definition to_span (s : slice) : N * N := (slice_data s, size s).
(** lines 54-55: from a span. *)
Definition slice_of_span (align : N) (sp : N * N) : slice := slice_of align (fst sp) (snd sp).
(** Elements of [n] from address [p], each [width] bytes; [mem] reads an element. *)
Fixpoint elements {A} (mem : N -> A) (width p : N) (n : nat) : list A := match n with O => [] | S n' => mem p :: elements mem width (p + width) n' end.
(** [std::equal] *)
Fixpoint equal_from {A} (eqb : A -> A -> bool) (mem : N -> A) (width p q : N) (n : nat) : bool :=
  match n with O => true | S n' => if eqb (mem p) (mem q) then equal_from eqb mem width (p + width) (q + width) n' else false end.
(** lines 174-178 [EqualImpl]. *)
Definition slice_equal {A} (eqb : A -> A -> bool) (mem : N -> A) (width : N) (a b : slice) : bool :=
  if negb (size a =? size b) then false else equal_from eqb mem width (slice_data a) (slice_data b) (N.to_nat (size a)).
(** lines 231-241 [PtrLike::AsPtrData]: the bytes a slice covers, for the aliasing check. *)
Definition as_ptr_data (width : N) (s : slice) : N * N := (slice_data s, slice_data s + size s * width).
