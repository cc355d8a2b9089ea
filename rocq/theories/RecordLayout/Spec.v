(** What C++ does: the layout of classes and unions by the Itanium C++ ABI (section 2.4), and what the importer makes of it. *)
From Coq Require Import List Arith Bool.
From Verif Require Import RecordLayout.Model.
Import ListNotations.
Local Open Scope nat_scope.
Local Open Scope list_scope.

(** Non-static data members.  Sizes and alignments in bytes, widths in bits.
    - [Plain size type_align align]: [align] is more than [type_align] if alignas is used on the member;
    - [Overlapping size dsize align]: [[no_unique_address]], class not empty, others may be put into its tail padding;
    - [Empty size align]: [[no_unique_address]], empty class;
    - [Bits width align]: bit-field; [align] is what it contributes to the alignment of the class;
    - [ZeroBits]: bit-field of width 0. *)
Inductive member :=
| Plain (size type_align align : nat)
| Overlapping (size dsize align : nat)
| Empty (size align : nat)
| Bits (width align : nat)
| ZeroBits (align : nat).

(** A data member at an offset in bits; the Rust type for its type if there is one; whether it has an unknown attribute. *)
Record data := Data { d_id : nat; d_member : member; d_offset : nat; d_type : option rs_type; d_attr : bool }.

(** [head]: end (without tail padding that may be reused) of virtual table pointer and non-virtual bases, [base_align] their
    alignment; [extent]: end of all of the object that is not a data member, virtual bases included; [aligned_attr]: an
    alignas on the class, 1 if none; [derived]: there are bases or a virtual table pointer. *)
Record class := Class { c_data : list data; head : nat; base_align : nat; extent : nat; aligned_attr : nat;
                        derived : bool; aggregate : bool; c_experimental : bool; c_drop : bool }.

Definition pow2 (a : nat) : Prop := exists k, a = 2 ^ k.

Definition m_align (m : member) : nat :=
  match m with Plain _ ta a => Nat.max ta a | Overlapping _ _ a => a | Empty _ a => a | Bits _ a => a | ZeroBits a => a end.
(** Where a member ends, in bytes. *)
Definition m_end (d : data) : nat :=
  match d_member d with
  | Plain s _ _ | Overlapping s _ _ | Empty s _ => d_offset d / 8 + s
  | Bits w _ => ceil8 (d_offset d + w)
  | ZeroBits _ => d_offset d / 8
  end.

(** Members are placed in order.  [pos] is the first free bit, [in_bits] whether it follows a bit-field.  The rules for
    bit-fields differ by platform: all that is said is that one starts at or after [pos], on a byte boundary if it does not
    follow another one. *)
Inductive placed : nat -> bool -> list data -> nat -> Prop :=
| p_nil pos b : placed pos b [] pos
| p_plain pos b d ds pos' s ta a : d_member d = Plain s ta a -> 0 < s ->
    d_offset d = 8 * round_up (ceil8 pos) (Nat.max ta a) -> placed (d_offset d + 8 * s) false ds pos' -> placed pos b (d :: ds) pos'
| p_overlapping pos b d ds pos' s n a : d_member d = Overlapping s n a -> 0 < n <= s ->
    d_offset d = 8 * round_up (ceil8 pos) a -> placed (d_offset d + 8 * n) false ds pos' -> placed pos b (d :: ds) pos'
| p_empty pos b d ds pos' s a : d_member d = Empty s a -> d_offset d mod (8 * a) = 0 -> placed pos b ds pos' -> placed pos b (d :: ds) pos'
| p_bits pos b d ds pos' w a : d_member d = Bits w a -> 0 < w -> pos <= d_offset d -> (b = false -> d_offset d mod 8 = 0) ->
    placed (d_offset d + w) true ds pos' -> placed pos b (d :: ds) pos'
| p_zero pos b d ds pos' a : d_member d = ZeroBits a -> pos <= d_offset d -> d_offset d mod 8 = 0 ->
    placed (d_offset d) false ds pos' -> placed pos b (d :: ds) pos'.

Definition class_align (c : class) : nat :=
  Nat.max (Nat.max (base_align c) (aligned_attr c)) (max_list (map (fun d => m_align (d_member d)) (c_data c))).
Definition class_size (c : class) : nat :=
  round_up (fold_right Nat.max (Nat.max 1 (extent c)) (map m_end (c_data c))) (class_align c).

(** Rust types have the size and the alignment of the C++ type they stand for. *)
Definition types_match (d : data) : Prop :=
  match d_type d with
  | None => True
  | Some t => match d_member d with Plain s ta _ => rt_size t = s /\ rt_align t = ta | _ => True end
  end.

(** A class that a compiler can lay out this way. *)
Record valid (c : class) : Prop := Valid {
  v_placed : exists last, placed (8 * head c) false (c_data c) last;
  v_aligns : Forall (fun d => pow2 (m_align (d_member d)) /\ match d_member d with Plain _ ta a => pow2 ta /\ pow2 a | _ => True end) (c_data c);
  v_base : pow2 (base_align c) /\ pow2 (aligned_attr c);
  v_derived : derived c = false -> base_align c = 1 /\ head c = 0;
  v_types : Forall types_match (c_data c) }.

(** importers/cxx_record.cc:1536-1620 [ImportFields], 1299-1301 and 1434-1439. *)
Definition import_field (d : data) : field :=
  match d_member d with
  | Plain s _ _ => Field (d_id d) (d_offset d) (8 * s) false false (d_attr d) (d_type d)
  | Overlapping s _ _ => Field (d_id d) (d_offset d) (8 * s) false true (d_attr d) (d_type d)
  | Empty _ _ => Field (d_id d) (d_offset d) 0 false true (d_attr d) (d_type d)
  | Bits w _ => Field (d_id d) (d_offset d) w true false (d_attr d) (d_type d)
  | ZeroBits _ => Field (d_id d) (d_offset d) 0 true false (d_attr d) (d_type d)
  end.
Definition import (c : class) : record :=
  Rec (map import_field (c_data c)) false (class_size c) (class_align c)
      (negb (aligned_attr c =? 1) || derived c) (c_experimental c) (c_drop c) (aggregate c) false.

(** * What has to be excluded *)

(** The member occupies no space. *)
Definition zero_size (d : data) : bool := match d_member d with Empty _ _ | ZeroBits _ => true | _ => false end.
(** The Rust type has a field of the member's type (not a blob of bytes). *)
Definition known (c : class) (d : data) : bool := match type_for_layout (import c) (import_field d) with Some _ => true | None => false end.
Definition known_plain (c : class) (d : data) : bool := match d_member d with Plain _ _ _ => known c d | _ => false end.
Definition is_bits (d : data) : bool := match d_member d with Bits _ _ => true | _ => false end.

(** The first of these that occupies space. *)
Definition first_sized (ds : list data) : option data := find (fun d => negb (zero_size d)) ds.
Definition last_sized (ds : list data) : option data := first_sized (rev ds).

(** - a member that begins the class and has no size is where the first sized one is, and there is a sized one if there is any;
    - a bit-field of width 0 is not followed by a field with a Rust type;
    - alignas is not used on members with a Rust type (they have no unknown attribute or experimental features are on);
    - members of no size need no alignment;
    - nothing comes after the last member, unless that is a blob of bytes. *)
Record supported (c : class) : Prop := Supported {
  s_first : match c_data c with
            | [] => True
            | d :: _ => match first_sized (c_data c) with Some e => d_offset d / 8 = d_offset e / 8 | None => False end
            end;
  s_zero : forall ds1 d ds2, c_data c = ds1 ++ d :: ds2 -> (exists a, d_member d = ZeroBits a) ->
           match first_sized ds2 with Some e => known_plain c e = false | None => True end;
  s_alignas : Forall (fun d => match d_member d with Plain _ ta a => known c d = true -> a <= ta | _ => True end) (c_data c);
  s_zero_align : Forall (fun d => zero_size d = true -> m_align (d_member d) = 1) (c_data c);
  s_tail : match last_sized (c_data c) with
           | Some d => known c d = false \/ class_size c = round_up (m_end d) (class_align c)
           | None => True
           end }.

(** The fields of a class that Rust has to see, with their offsets in bytes. *)
Definition visible_offsets (ds : list data) : list (nat * nat) :=
  flat_map (fun d => if zero_size d || is_bits d then [] else [(d_id d, d_offset d / 8)]) ds.

(** * Unions *)

(** All members are at the beginning; only [c_data], [aligned_attr], [c_experimental], [c_drop] and [aggregate] are used. *)
Definition union_align (c : class) : nat := Nat.max (aligned_attr c) (max_list (map (fun d => m_align (d_member d)) (c_data c))).
Definition union_size (c : class) : nat := round_up (fold_right Nat.max 1 (map m_end (c_data c))) (union_align c).
Definition import_union (c : class) : record :=
  Rec (map import_field (c_data c)) true (union_size c) (union_align c) (negb (aligned_attr c =? 1))
      (c_experimental c) (c_drop c) (aggregate c) false.
Record valid_union (c : class) : Prop := ValidUnion {
  u_placed : Forall (fun d => d_offset d = 0 /\
     match d_member d with Plain s _ _ => 0 < s | Overlapping s n _ => 0 < n <= s | Bits w _ => 0 < w | _ => True end) (c_data c);
  u_aligns : Forall (fun d => pow2 (m_align (d_member d)) /\ match d_member d with Plain _ ta a => pow2 ta /\ pow2 a | _ => True end) (c_data c);
  u_attr : pow2 (aligned_attr c);
  u_types : Forall types_match (c_data c) }.
Definition known_in_union (c : class) (d : data) : bool :=
  match type_for_layout (import_union c) (import_field d) with Some _ => true | None => false end.
(** - there is a member of some size if there is any member;
    - bit-fields are not wider than the union is aligned;
    - alignas and members of no size as before. *)
Record supported_union (c : class) : Prop := SupportedUnion {
  su_sized : c_data c = [] \/ exists d, In d (c_data c) /\ zero_size d = false;
  su_bits : Forall (fun d => match d_member d with Bits w _ => w <= 8 * union_align c | _ => True end) (c_data c);
  su_alignas : Forall (fun d => match d_member d with Plain _ ta a => known_in_union c d = true -> a <= ta | _ => True end) (c_data c);
  su_zero : Forall (fun d => zero_size d = true -> m_align (d_member d) = 1 /\ m_end d <= union_align c) (c_data c) }.

(** A class annotated as thread-safe. *)
Definition import_thread_safe (c : class) : record :=
  Rec (map import_field (c_data c)) false (class_size c) (class_align c)
      (negb (aligned_attr c =? 1) || derived c) (c_experimental c) (c_drop c) (aggregate c) true.

(** Members have different names. *)
Definition distinct (c : class) : Prop := NoDup (map d_id (c_data c)).
(** In these offsets of fields, [d] is there once and in its place. *)
Definition in_place (offs : list (nat * nat)) (d : data) : Prop := forall o, In (d_id d, o) offs <-> o = d_offset d / 8.
Definition addressable (d : data) : Prop := zero_size d = false /\ is_bits d = false.
(** What an object of the member's type needs: size and alignment. *)
Definition object_of (d : data) : option (nat * nat) :=
  match d_member d with Plain s ta _ => Some (s, ta) | Overlapping s _ a | Empty s a => Some (s, a) | _ => None end.
