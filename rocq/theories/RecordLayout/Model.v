(** Model of the layout of the Rust struct or union generated for a C++ record.  Files, all in /repo/rs_bindings_from_cc:
    importers/cxx_record.cc, generate_bindings/generate_struct_and_union.rs (gsu.rs),
    generate_bindings/database/code_snippet.rs (cs.rs); and how rustc lays out [repr(C)] types.

    Offsets and sizes of fields are in bits, those of records and Rust types in bytes, as in the code.  [None] as the result of
    a generator function is a panic (failed assertion, [expect] or, in a checked build, underflow).

    Simplifications: numbers have no upper bound; a field's attributes, features of targets and conversion errors are reduced
    to whether there is a Rust type for it; visibility, comments and names are left out (a field is known by [f_id]). *)
From Coq Require Import List Arith Bool.
Import ListNotations.
Local Open Scope nat_scope.
Local Open Scope list_scope.

(** Least multiple of [a] that is not less than [x]; Rust's [div_ceil(8)]. *)
Definition round_up (x a : nat) : nat := (x + a - 1) / a * a.
Definition ceil8 (bits : nat) : nat := (bits + 7) / 8.

(** * The IR *)

(** A Rust type: size, alignment, and whether it is Copy (gsu.rs:51-53). *)
Record rs_type := RsType { rt_size : nat; rt_align : nat; rt_copy : bool }.

(** [f_type]: the Rust type, if the C++ type can be represented (cxx_record.cc:1541-1571 gives an error for non-public fields;
    gsu.rs:148-168 excludes errors, bridge types and missing features). *)
Record field := Field { f_id : nat; f_offset : nat; f_size : nat; f_bitfield : bool; f_no_unique_address : bool;
                        f_unknown_attr : bool; f_type : option rs_type }.

(** [experimental]: the feature is enabled for all targets involved; [implement_drop] is ir.rs:2537-2557; [direct_init]: the
    record is an aggregate. *)
Record record := Rec { fields : list field; is_union : bool; r_size : nat; r_align : nat; override_align : bool;
                       experimental : bool; implement_drop : bool; direct_init : bool; thread_safe : bool }.

(** gsu.rs:121-185 [get_field_rs_type_kind_for_layout]. *)
Definition type_for_layout (r : record) (f : field) : option rs_type :=
  if f_no_unique_address f then None
  else if f_unknown_attr f && negb (experimental r) then None
  else match f_type f with
       | None => None
       | Some t =>
           if implement_drop r && negb (is_union r) && negb (rt_copy t) && negb (experimental r) then None else Some t
       end.

(** * The generator *)

(** gsu.rs:438-446 [FieldWithLayout]. *)
Record item := Item { i_ir : option field; i_offset : nat; i_end : option nat }.

(** gsu.rs:448-479. *)
Definition to_item (r : record) (f : field) : option item :=
  if f_size f =? 0 then None
  else Some (Item (if f_bitfield f then None else Some f) (f_offset f)
               (match type_for_layout r f with
                | Some _ => Some (f_offset f + f_size f)
                | None => if is_union r then Some (f_size f) else None
                end)).

Fixpoint to_items (r : record) (fs : list field) : list item :=
  match fs with [] => [] | f :: fs1 => match to_item r f with Some i => i :: to_items r fs1 | None => to_items r fs1 end end.

(** gsu.rs:480-494: itertools' [coalesce]. *)
Fixpoint coalesce_from (cur : item) (rest : list item) : list item :=
  match rest with
  | [] => [cur]
  | next :: rest1 =>
      match i_ir cur, i_ir next with
      | None, None => coalesce_from (Item None (i_offset cur) (i_end next)) rest1
      | _, _ => cur :: coalesce_from next rest1
      end
  end.
Definition coalesce (l : list item) : list item := match l with [] => [] | i :: l1 => coalesce_from i l1 end.

(** A field of the Rust type: which C++ field it stands for, size and alignment in bytes. *)
Record rs_field := RsField { rf_id : option nat; rf_size : nat; rf_align : nat }.
(** cs.rs:1260-1286 [BitPadding]: an array of bytes.  A size of 0 is no field, or an [expect] that fails. *)
Definition blob (id : option nat) (bits : nat) : rs_field := RsField id (ceil8 bits) 1.

Definition subtract (a b : nat) : option nat := if b <=? a then Some (a - b) else None.

(** gsu.rs:266-390 [field_definition]: the Rust fields, and whether the alignment is overridden. *)
Definition field_definition (r : record) (cur : item) (prev_end finish : nat) : option (list rs_field * bool) :=
  let known := match i_ir cur with Some f => type_for_layout r f | None => None end in
  match (if is_union r then Some 0
         else match known with
              | Some _ => Some 0
              | None => subtract (i_offset cur) (ceil8 prev_end * 8)                     (* :293-300 *)
              end) with
  | None => None
  | Some padding =>
      let pad := if padding =? 0 then [] else [blob None padding] in                     (* :302-303 *)
      match i_ir cur with
      | None =>                                                                          (* :307-319 *)
          match subtract finish (i_offset cur) with
          | Some (S n) => Some (pad ++ [blob None (S n)], true)
          | _ => None
          end
      | Some f =>
          match known with
          | None =>                                                                      (* :357-364 *)
              match subtract finish (f_offset f) with
              | Some (S n) => Some (pad ++ [blob (Some (f_id f)) (S n)], true)
              | _ => None
              end
          | Some t => Some (pad ++ [RsField (Some (f_id f)) (rt_size t) (rt_align t)], false)   (* :365-384; Cell and ManuallyDrop keep the layout *)
          end
      end
  end.

(** gsu.rs:507-539: each item with the one before and the one after it. *)
Fixpoint definitions (r : record) (prev : option item) (l : list item) : option (list rs_field * bool) :=
  match l with
  | [] => Some ([], false)
  | cur :: l1 =>
      let prev_end := match prev with Some p => match i_end p with Some e => e | None => i_offset cur end | None => i_offset cur end in
      let finish := match i_end cur with
                    | Some e => e
                    | None => match l1 with next :: _ => i_offset next | [] => r_size r * 8 end
                    end in
      (* :518-525 *)
      if match prev with
         | Some p => match i_ir p, i_end p with Some _, Some e => is_union r || (e <=? i_offset cur) | _, _ => true end
         | None => true
         end
      then match field_definition r cur prev_end finish, definitions r (Some cur) l1 with
           | Some (fs, o), Some (fs', o') => Some (fs ++ fs', o || o')
           | _, _ => None
           end
      else None
  end.

(** gsu.rs:554: non-bit-fields are at byte boundaries. *)
Definition byte_offsets (l : list item) : bool :=
  forallb (fun i => match i_ir i with Some f => f_offset f mod 8 =? 0 | None => true end) l.

(** gsu.rs:571-595. *)
Definition head_padding (r : record) : list rs_field :=
  let n := match fields r with f :: _ => f_offset f / 8 | [] => r_size r end in
  if (0 <? n) || negb (direct_init r || is_union r) then [RsField None n 1] else [].

(** The fields of the generated type and its align(..) attribute: gsu.rs:448-595, 815-821 and cs.rs:565-600. *)
Definition generate (r : record) : option (list rs_field * option nat) :=
  let items := coalesce (to_items r (fields r)) in
  match definitions r None items with
  | Some (fs, o) =>
      if byte_offsets items then
        let align := if (override_align r || o || thread_safe r) && (1 <? r_align r) then Some (r_align r) else None in
        Some (if thread_safe r then [RsField None (r_size r) 1] else head_padding r ++ fs, align)
      else None
  | None => None
  end.

(** * rustc *)

(** The Rust reference, "The C representation": fields of a struct in order, each at the next multiple of its alignment. *)
Fixpoint place (pos : nat) (fs : list rs_field) : list (nat * nat) * nat :=
  match fs with
  | [] => ([], pos)
  | f :: fs1 =>
      let o := round_up pos (rf_align f) in
      let '(offs, e) := place (o + rf_size f) fs1 in
      (match rf_id f with Some id => (id, o) :: offs | None => offs end, e)
  end.
Definition max_list (l : list nat) : nat := fold_right Nat.max 1 l.
Definition rs_align (fs : list rs_field) (attr : option nat) : nat :=
  Nat.max (max_list (map rf_align fs)) (match attr with Some a => a | None => 1 end).

(** Size, alignment and the offsets of the fields. *)
Definition rs_struct (fs : list rs_field) (attr : option nat) : nat * nat * list (nat * nat) :=
  let '(offs, e) := place 0 fs in
  let a := rs_align fs attr in (round_up e a, a, offs).
(** A union: all fields at 0.  A union without fields is an error. *)
Definition rs_union (fs : list rs_field) (attr : option nat) : option (nat * nat * list (nat * nat)) :=
  match fs with
  | [] => None
  | _ =>
      let a := rs_align fs attr in
      Some (round_up (fold_right Nat.max 0 (map rf_size fs)) a, a,
            flat_map (fun f => match rf_id f with Some id => [(id, 0)] | None => [] end) fs)
  end.

(** The layout of the type rustc makes of the generated code. *)
Definition layout (r : record) : option (nat * nat * list (nat * nat)) :=
  match generate r with
  | Some (fs, attr) => if is_union r then rs_union fs attr else Some (rs_struct fs attr)
  | None => None
  end.

(** * The static assertions in the generated Rust code *)

(** gsu.rs:541-562, 897-902 ([rs_size_align_assertions], [Assertion::FieldOffsets]): size, alignment and, unless the record is
    thread-safe, the offset of every field that is no bit-field and has a size. *)
Definition asserted_offsets (r : record) : list (nat * nat) :=
  if thread_safe r then []
  else flat_map (fun i => match i_ir i with Some f => [(f_id f, f_offset f / 8)] | None => [] end) (coalesce (to_items r (fields r))).
Definition accepted (r : record) (l : nat * nat * list (nat * nat)) : Prop :=
  let '(size, align, offs) := l in
  layout r = Some l /\ size = r_size r /\ align = r_align r /\ forall p, In p (asserted_offsets r) -> In p offs.

(** * Accessors of [[no_unique_address]] fields *)

(** gsu.rs:1022-1069, cs.rs:1395-1429: a reference to a [rt_size]-byte object at [byte_offset] of the record.  [None] for a failed
    assertion; [Some None] for an error (no bindings for the record).  Non-public fields have no accessor; here they have no type
    in [f_type] and are told apart by [public]. *)
Fixpoint accessors (public : field -> bool) (fs : list field) : option (option (list (nat * rs_type))) :=
  match fs with
  | [] => Some (Some [])
  | f :: fs1 =>
      if negb (public f) || negb (f_no_unique_address f) then accessors public fs1
      else if f_offset f mod 8 =? 0 then
        match f_type f with
        | None => Some None
        | Some t =>
            match accessors public fs1 with
            | Some (Some l) => Some (Some ((f_offset f / 8, t) :: l))
            | x => x
            end
        end
      else None
  end.
