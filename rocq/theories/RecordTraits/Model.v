(** Model of the traits of generated records and of the types of their fields.  Files in /repo:
    rs_bindings_from_cc/ast_convert.cc (ac.cc); rs_bindings_from_cc/ir.rs;
    rs_bindings_from_cc/generate_bindings/generate_struct_and_union.rs (gsu.rs), generate_function.rs (gf.rs),
    database/rs_snippet.rs (rs.rs), database/code_snippet.rs (cs.rs).

    Simplified: bit-fields and paddings are members of type [Plain] that are not [known] (they too become blobs); the diagnostics run
    over defaulted constructors (ac.cc:98-124) are part of [copy_ok]; NontrivialMembers and NontrivialUserDefined are told apart
    by [user_dtor] of the class only (nothing below depends on which of the two it is). *)
From Coq Require Import List Bool Arith.
From Verif Require Import RecordTraits.Cpp.
Import ListNotations.

(** ** ac.cc:72-138 *)
Inductive smf := Trivial | NontrivialMembers | NontrivialUserDefined | Unavailable.
Definition special_member (ok trivial user : bool) : smf :=
  if negb ok then Unavailable else if trivial then Trivial else if user then NontrivialUserDefined else NontrivialMembers.
Definition destructor (i : info) bs fs : smf := special_member (dtor_ok i) (trivial_dtor (Rec i bs fs)) (user_dtor i).
Definition copy_constructor (i : info) bs fs : smf := special_member (copy_ok i) (trivial_copy (Rec i bs fs)) (user_copy i).
Definition is_trivial (s : smf) : bool := match s with Trivial => true | _ => false end.

(** ** ir.rs *)
(** ir.rs:2473-2475. *)
Definition is_unpin (i : info) : bool := can_pass_in_registers i.
(** ir.rs:2537-2557. *)
Definition should_implement_drop (i : info) bs fs : bool :=
  match destructor i bs fs with Trivial => false | NontrivialMembers => true | NontrivialUserDefined => true | Unavailable => false end.
(** ir.rs:2584-2596. *)
Definition by_value_ok (i : info) bs fs : bool :=
  negb (match destructor i bs fs with Unavailable => true | _ => false end) && negb (is_abstract i).
(** ir.rs:2559-2579. *)
Definition should_derive_copy (i : info) bs fs : bool :=
  if thread_safe i then false
  else match derive_copy i with
       | Positive => true
       | Negative => false
       | Unset => is_unpin i && is_trivial (copy_constructor i bs fs) && is_trivial (destructor i bs fs) && by_value_ok i bs fs
                  && negb (match derive_clone i with Negative => true | _ => false end)
                  && forallb (fun f : attr * ty => negb (is_mutable (fst f))) fs
       end.
(** rs.rs:239-259. *)
Definition should_derive_clone (i : info) bs fs : bool :=
  if thread_safe i then false
  else match derive_clone i with
       | Positive => true
       | Negative => false
       | Unset => if is_union i then should_derive_copy i bs fs
                  else is_unpin i && is_trivial (copy_constructor i bs fs) && by_value_ok i bs fs
       end.

(** ** The types of the fields *)
(** rs.rs:1656-1690. *)
Definition implements_copy (t : ty) : bool :=
  match t with Plain => true | MutRef => false | Existing _ _ _ _ => true | Rec i bs fs => should_derive_copy i bs fs end.
(** gsu.rs:51-53. *)
Definition needs_manually_drop (t : ty) : bool := negb (implements_copy t).

(** cs.rs:1363-1382: a blob, [\[MaybeUninit<u8>; n\]] or [\[Cell<MaybeUninit<u8>>; n\]]; or [T], [ManuallyDrop<T>], [Cell<T>], [Cell<ManuallyDrop<T>>]. *)
Inductive field_type := Erased (internally_mutable : bool) | Typed (manually_drop cell : bool) (t : ty).

(** gsu.rs:120-185 [get_field_rs_type_kind_for_layout]. *)
Definition layout_type (i : info) bs fs (f : attr * ty) : option ty :=
  if negb (known (fst f)) then None
  else if should_implement_drop i bs fs && negb (is_union i) && needs_manually_drop (snd f) && negb (experimental i) then None
  else Some (snd f).
(** gsu.rs:266-392 [field_definition]. *)
Definition field_definition (i : info) bs fs (f : attr * ty) : field_type :=
  match layout_type i bs fs f with
  | None => Erased (negb (should_derive_copy i bs fs))
  | Some t => Typed ((should_implement_drop i bs fs || is_union i) && needs_manually_drop t) (is_mutable (fst f)) t
  end.
(** gsu.rs:365-377: the types asserted to be Copy. *)
Definition must_be_copy (i : info) bs fs : list ty :=
  flat_map (fun f => match layout_type i bs fs f with
                     | Some t => if (should_implement_drop i bs fs || is_union i) && negb (needs_manually_drop t) then [t] else []
                     | None => []
                     end) fs.
(** gsu.rs:571-594, cs.rs:576-585. *)
Definition head_padding (i : info) (bs : list ty) (fs : list (attr * ty)) : list field_type :=
  if head i || (match fs with [] => true | _ => false end) || negb (is_aggregate i || is_union i)
  then [Erased (negb (should_derive_copy i bs fs))] else [].
(** The fields of the generated struct or union; [None] is the [UnsafeCell] of a thread-safe type (cs.rs:568-575). *)
Definition generated_fields (i : info) bs fs : option (list field_type) :=
  if thread_safe i then None else Some (head_padding i bs fs ++ map (field_definition i bs fs) fs).

(** ** What rustc makes of it *)
(** Traits of a Rust type: derived, or implemented by the bindings of the copy constructor (gf.rs:1105-1119; the constructor
    is not bound if [check_by_value] fails, gf.rs:1020-1022). *)
Definition rust_copy (t : ty) : bool :=
  match t with Plain => true | MutRef => false | Existing _ copy _ _ => copy | Rec i bs fs => should_derive_copy i bs fs end.
Definition rust_clone (t : ty) : bool :=
  match t with
  | Plain => true | MutRef => false | Existing _ _ clone _ => clone
  | Rec i bs fs => should_derive_clone i bs fs
                   || is_unpin i && by_value_ok i bs fs && match copy_constructor i bs fs with Unavailable => false | _ => true end
  end.
Definition field_copy (f : field_type) : bool :=
  match f with Erased cell => negb cell | Typed _ cell t => negb cell && rust_copy t end.
Definition field_clone (f : field_type) : bool :=
  match f with Erased _ => true | Typed _ cell t => if cell then rust_copy t else rust_clone t end.
(** [derive(Copy)]: all fields are Copy (E0204), no Drop impl (E0184). *)
Definition derive_copy_accepted (i : info) bs fs : bool :=
  match generated_fields i bs fs with
  | Some l => forallb field_copy l && negb (should_implement_drop i bs fs)
  | None => false
  end.
(** [derive(Clone)]: all fields are Clone; for a union, the type is Copy. *)
Definition derive_clone_accepted (i : info) bs fs : bool :=
  match generated_fields i bs fs with
  | Some l => if is_union i then rust_copy (Rec i bs fs) else forallb field_clone l
  | None => false
  end.
(** Fields of unions (E0740): Copy, or ManuallyDrop, or an array of such. *)
Definition union_field_accepted (f : field_type) : bool :=
  match f with Erased cell => negb cell | Typed md cell t => if cell then false else md || rust_copy t end.
Definition union_accepted (i : info) bs fs : bool :=
  match generated_fields i bs fs with Some l => negb (is_union i) || forallb union_field_accepted l | None => negb (is_union i) end.

(** The definition of one record passes: derives (gsu.rs:943-970), union fields, and the assertions (gsu.rs:903-910). *)
Definition accepted_here (i : info) bs fs : bool :=
  (negb (should_derive_copy i bs fs) || derive_copy_accepted i bs fs)
  && (negb (should_derive_clone i bs fs) || derive_clone_accepted i bs fs)
  && union_accepted i bs fs
  && (thread_safe i || forallb rust_copy (must_be_copy i bs fs)).
(** So do the records it has fields of. *)
Fixpoint accepted (t : ty) : bool :=
  match t with
  | Rec i bs fs => accepted_here i bs fs && forallb (fun f => negb (known (fst f)) || accepted (snd f)) fs
  | _ => true
  end.

(** Dropping a Rust value: its [Drop] impl, if any, which calls the destructor of the C++ object (gf.rs:908-962), then the fields in
    order.  Blobs, [ManuallyDrop], unions and [UnsafeCell] of bytes drop nothing. *)
Fixpoint drop (p : list nat) (t : ty) : list event :=
  match t with
  | Plain | MutRef => []
  | Existing n _ _ drops => if drops then [(p, n)] else []
  | Rec i bs fs =>
      (if should_implement_drop i bs fs then destroy p t else [])
      ++ (if thread_safe i || is_union i then []
          else (fix go k l := match l with
                              | [] => []
                              | f :: r => match field_definition i bs fs f with
                                          | Typed false _ _ => drop (p ++ [k]) (snd f)
                                          | _ => []
                                          end ++ go (S k) r
                              end) (length bs) fs)
  end.

(** ** Assignment (gf.rs:600-650): what [a = b] through [Assign]/[UnpinAssign] does. *)
Inductive assignment := Memcpy | Call_operator.
Definition assign (i : info) (bs : list ty) (fs : list (attr * ty)) : assignment :=
  if is_unpin i && should_derive_copy i bs fs then Memcpy   (* derive(MoveAndAssignViaCopy) *)
  else Call_operator.

(** ** Lifetime parameters (cs.rs:588-599): tokens of the body after the fields *)
Inductive token := Field (name : nat) | Comma.
Definition lifetime_markers (l : list nat) : list token := map Field l.
(** rustc's grammar of a struct body: fields separated by commas, a trailing one allowed. *)
Fixpoint body_ok (expect_comma : bool) (l : list token) : bool :=
  match l with
  | [] => true
  | Field _ :: r => negb expect_comma && body_ok true r
  | Comma :: r => expect_comma && body_ok false r
  end.
(** The fields of the struct are each followed by a comma (cs.rs:1323-1352). *)
Definition struct_body (fields : list nat) (lifetimes : list nat) : list token :=
  flat_map (fun f => [Field f; Comma]) fields ++ lifetime_markers lifetimes.
