(** Conditions the theorems range over. *)
From Coq Require Import List Bool Arith.
From Verif Require Import RecordTraits.Cpp RecordTraits.Model.
Import ListNotations.

(** Rust's rule for the Rust types that C++ uses: a Copy type is Clone and has no destructor. *)
Fixpoint rust_law (t : ty) : bool :=
  match t with
  | Existing _ copy clone drops => negb copy || (clone && negb drops)
  | Rec i bs fs => forallb rust_law bs && forallb (fun f => rust_law (snd f)) fs
  | _ => true
  end.

(** Ordinary members: those a class can have without the generator being confused about their traits.  A class used as a member:
    no annotations, destructor and copy constructor accessible, movable like it is copied, without mutable members; and, as the ABI
    has it, a class all of whose special members are trivial can be passed in registers. *)
Definition ordinary_member (t : ty) : Prop :=
  match t with
  | Plain => True
  | MutRef => False
  | Existing _ copy clone _ => copy = true /\ clone = true
  | Rec i bs fs =>
      thread_safe i = false /\ derive_copy i = Unset /\ derive_clone i = Unset /\ dtor_ok i = true /\ copy_ok i = true
      /\ is_abstract i = false /\ Forall (fun f : attr * ty => is_mutable (fst f) = false) fs
      /\ (trivial_copy t = true -> trivial_dtor t = true -> can_pass_in_registers i = true)
  end.
(** The Itanium ABI, with clang's trivial_abi: a class passed in registers has no member that is not. *)
Definition abi_law (i : info) (fs : list (attr * ty)) : Prop :=
  can_pass_in_registers i = true ->
  forall a j bs' fs', In (a, Rec j bs' fs') fs -> trivial_dtor (Rec j bs' fs') = false -> can_pass_in_registers j = true.

Definition no_annotations (i : info) : Prop := derive_copy i = Unset /\ derive_clone i = Unset.
(** Everything inside an object. *)
Inductive part : ty -> ty -> Prop :=
| part_self t : part t t
| part_base i bs fs b t : In b bs -> part b t -> part (Rec i bs fs) t
| part_field i bs fs f t : In f fs -> part (snd f) t -> part (Rec i bs fs) t.
