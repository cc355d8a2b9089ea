(** Model of support/internal/check_no_mutable_aliasing.{h,cc} and of the pointer ranges made for
    pointers, references and slices.  Addresses are natural numbers: that [start + size] does not wrap
    around is assumed (no object straddles the end of the address space). *)
From Coq Require Import List Arith Bool Lia.
Import ListNotations.

(** support/internal/check_no_mutable_aliasing.h:18-21 [PtrData]. *)
Record ptr := Ptr { start : nat; stop : nat }.
(** support/internal/check_no_mutable_aliasing.h:34-57 [PtrLike<T*>], [PtrLike<T&>]. *)
Definition of_object (address size : nat) : ptr := Ptr address (address + size).
(** support/rs_std/slice_ref.h:151 [SliceRef::data], 231-241 [PtrLike<SliceRef<T>>]; support/rs_std/str_ref.h:201-211 is
    the same with size 1: an empty slice has a null [data()]. *)
Definition of_slice (address len size : nat) : ptr :=
  let data := if 0 <? len then address else 0 in Ptr data (data + len * size).
(** support/internal/check_no_mutable_aliasing.h:86-88 [Overlaps]. *)
Definition overlaps (a b : ptr) : bool := (start a <? stop b) && (start b <? stop a).

(** support/internal/check_no_mutable_aliasing.cc:37-41: some range ends after the next one starts. *)
Fixpoint adjacent_alias (muts : list ptr) : bool :=
  match muts with
  | a :: rest =>
      match rest with
      | b :: _ => (start b <? stop a) || adjacent_alias rest
      | [] => false
      end
  | [] => false
  end.
(** support/internal/check_no_mutable_aliasing.cc:45-50: ranges that end before the const range are skipped. *)
Fixpoint skip (muts : list ptr) (c : ptr) : list ptr :=
  match muts with
  | m :: muts' => if stop m <=? start c then skip muts' c else muts
  | [] => []
  end.
(** support/internal/check_no_mutable_aliasing.cc:43-55. *)
Fixpoint sweep (muts consts : list ptr) : bool :=
  match consts with
  | [] => false
  | c :: consts' =>
      match skip muts c with
      | [] => false
      | (m :: _) as rest => if start m <? stop c then true else sweep rest consts'
      end
  end.
Section Sort.
  (** [std::sort] by [start]: any function that sorts (ties in any order). *)
  Variable sort : list ptr -> list ptr.
  (** support/internal/check_no_mutable_aliasing.cc:29-56 [HasMutableAliasingSpans]. *)
  Definition has_aliasing_spans (muts consts : list ptr) : bool :=
    match muts with
    | [] => false
    | _ :: _ =>
        let muts := sort muts in
        let consts := sort consts in
        if adjacent_alias muts then true else sweep muts consts
    end.
  (** support/internal/check_no_mutable_aliasing.h:127-144: the loops for small inputs. *)
  Fixpoint pairs_alias (muts : list ptr) : bool :=
    match muts with
    | [] => false
    | a :: rest => existsb (overlaps a) rest || pairs_alias rest
    end.
  Definition small_alias (muts consts : list ptr) : bool :=
    pairs_alias muts || existsb (fun m => existsb (overlaps m) consts) muts.
  (** support/internal/check_no_mutable_aliasing.h:116-148 [HasMutableAliasing]. *)
  Definition has_aliasing (muts consts : list ptr) : bool :=
    let m := length muts in
    let n := length consts in
    if (m =? 0) || ((m =? 1) && (n =? 0)) then false
    else if (m <=? 3) && (n <=? 3) then small_alias muts consts
    else has_aliasing_spans muts consts.
  (** support/internal/check_no_mutable_aliasing.h:96-107 [CheckNoMutableAliasing]: [false] means the
      process is stopped by [CRUBIT_CHECK]. *)
  Definition check_no_mutable_aliasing (muts consts : list ptr) : bool :=
    let m := length muts in
    let n := length consts in
    if (m =? 0) || ((m =? 1) && (n =? 0)) then true
    else if (m <=? 3) && (n <=? 3) then negb (has_aliasing muts consts)
    else negb (has_aliasing_spans muts consts).
End Sort.
