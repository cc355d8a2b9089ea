(** Model of the members generated for [rs_std::Vec] and [rs_std::Tuple]
    (cc_bindings_from_rs/generate_bindings/generate_template_specialization.rs, cited as gts.rs). *)
From Coq Require Import List Arith Bool.
Import ListNotations.
Local Open Scope list_scope.

(** * Where a [Vec] keeps its pointer and length *)
(** Types, as far as gts.rs looks at them: raw pointers, [usize], pattern types, structs (fields in order of declaration, with
    offsets), enums, and all others.  Normalization and layout computation are assumed to succeed. *)
Inductive ty := RawPtr | Usize | Pat (t : ty) | Struct (fields : list (nat * ty)) | Enum | Opaque.
(** gts.rs lines 824-857 [find_pointer_field_offset_impl]. *)
Fixpoint find_pointer (t : ty) (current : nat) : option nat :=
  match t with
  | RawPtr => Some current
  | Pat t' => find_pointer t' current
  | Struct fields =>
      (fix go (fs : list (nat * ty)) : option nat :=
         match fs with
         | [] => None
         | (off, ft) :: fs' => match find_pointer ft (current + off) with Some o => Some o | None => go fs' end
         end) fields
  | Usize | Enum | Opaque => None
  end.
(** lines 883-913 [compute_vec_layout_offsets]: (pointer, length), before the [expect]s. *)
Definition vec_offsets_step (acc : option nat * option nat) (f : nat * ty) : option nat * option nat :=
  match snd f with
  | Usize => (fst acc, Some (fst f))
  | t => match find_pointer t 0 with Some o => (Some (fst f + o), snd acc) | None => acc end
  end.
Definition vec_offsets (fields : list (nat * ty)) : option (nat * nat) :=
  match fold_left vec_offsets_step fields (None, None) with (Some p, Some l) => Some (p, l) | _ => None end.

(** * The accessors of [Vec] (lines 1013-1044).  [word off] reads a machine word of the storage; an element takes [width] bytes *)
Section Accessors.
Context (word : nat -> nat) (ptr_off len_off width : nat).
Definition data : nat := word ptr_off.
Definition size : nat := word len_off.
(** [CRUBIT_CHECK(index < size())] *)
Definition at_index (i : nat) : option nat := if i <? size then Some (data + i * width) else None.
Definition begin_ : nat := data.
Definition end_ : nat := data + size * width.
(** A C++ loop [for (p = begin(); p != end(); ++p)] *)
Fixpoint loop (fuel p : nat) : list nat := if p =? end_ then [] else match fuel with O => [] | S fuel' => p :: loop fuel' (p + width) end.
End Accessors.

(** * Tuples (lines 625-721) *)
Definition memory := nat -> nat.
Definition put (m : memory) (off : nat) (bs : list nat) : memory := fun a => if (off <=? a) && (a <? off + length bs) then nth (a - off) bs 0 else m a.
Definition get (m : memory) (off n : nat) : list nat := map (fun i => m (off + i)) (seq 0 n).
(** Elements: offset and size, in order.  [alive] says which elements have a live object. *)
Record tuple := Tuple { mem : memory; alive : list bool }.
Fixpoint set_nth (n : nat) (b : bool) (l : list bool) : list bool := match l, n with [], _ => [] | _ :: l', O => b :: l' | x :: l', S n' => x :: set_nth n' b l' end.
(** lines 645-649, 692-694: [construct_at] each element from the corresponding one of the [std::tuple]. *)
Fixpoint construct (i : nat) (elems : list (nat * nat)) (vals : list (list nat)) (t : tuple) : option tuple :=
  match elems, vals with
  | (off, _) :: es, v :: vs => if nth i (alive t) true then None else construct (S i) es vs (Tuple (put (mem t) off v) (set_nth i true (alive t)))
  | _, _ => Some t
  end.
(** lines 650-652, 695-697: the conversion moves every element out; [moved] is what stays behind. *)
Fixpoint convert (moved : list nat -> list nat) (i : nat) (elems : list (nat * nat)) (t : tuple) : option (list (list nat) * tuple) :=
  match elems with
  | [] => Some ([], t)
  | (off, n) :: es =>
      if nth i (alive t) false then
        let v := get (mem t) off n in
        match convert moved (S i) es (Tuple (put (mem t) off (moved v)) (alive t)) with Some (vs, t') => Some (v :: vs, t') | None => None end
      else None
  end.
(** lines 660-676: the destructor. *)
Fixpoint destroy (i : nat) (elems : list (nat * nat)) (t : tuple) : option tuple :=
  match elems with [] => Some t | _ :: es => if nth i (alive t) false then destroy (S i) es (Tuple (mem t) (set_nth i false (alive t))) else None end.
