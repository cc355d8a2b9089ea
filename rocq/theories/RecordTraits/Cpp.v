(** C++ classes as far as copying and destroying them is concerned: the source side, independent of the generator.

    A member of pointer type is [Plain], so the by-value containment is a tree.  Virtual bases are treated like bases. *)
From Coq Require Import List Bool Arith.
Import ListNotations.

Inductive polarity := Positive | Negative | Unset.

(** What a class declares. *)
Record info := Info {
  id : nat;
  is_union : bool;
  is_abstract : bool;
  is_aggregate : bool;
  head : bool;            (* there is space before the first member: a base, a vtable pointer *)
  user_dtor : bool;       (* the destructor is user-provided or virtual *)
  dtor_ok : bool;         (* the destructor is public and not deleted *)
  user_copy : bool;       (* the copy constructor is user-provided, or the class has a vtable *)
  copy_ok : bool;         (* the copy constructor is public and not deleted *)
  user_assign : bool;     (* the copy assignment operator is user-provided *)
  user_move : bool;       (* the move constructor is user-provided *)
  can_pass_in_registers : bool;
  thread_safe : bool;     (* annotation *)
  derive_copy : polarity; (* annotation *)
  derive_clone : polarity;(* annotation *)
  experimental : bool;    (* feature of the target *)
}.
(** What a member is declared as; [known]: its type has bindings that can be used for a field. *)
Record attr := Attr { known : bool; is_mutable : bool }.

Inductive ty :=
| Plain                                                    (* scalars, enums, pointers, const references *)
| MutRef                                                   (* a reference with a known lifetime to something mutable, or && *)
| Existing (n : nat) (copy clone drops : bool)             (* a Rust type, with what is true of it in Rust *)
| Rec (i : info) (bases : list ty) (fields : list (attr * ty)).

Section Ind.
  Variable P : ty -> Prop.
  Hypothesis HP : P Plain.
  Hypothesis HM : P MutRef.
  Hypothesis HE : forall n c k d, P (Existing n c k d).
  Hypothesis HR : forall i bs fs, Forall P bs -> Forall (fun f => P (snd f)) fs -> P (Rec i bs fs).
  Fixpoint ty_induction (t : ty) : P t :=
    match t with
    | Plain => HP | MutRef => HM | Existing n c k d => HE n c k d
    | Rec i bs fs =>
        HR i bs fs
          ((fix go l : Forall P l := match l with [] => Forall_nil _ | x :: r => Forall_cons _ (ty_induction x) (go r) end) bs)
          ((fix go l : Forall (fun f => P (snd f)) l := match l with [] => Forall_nil _ | x :: r => Forall_cons _ (ty_induction (snd x)) (go r) end) fs)
    end.
End Ind.

(** [class.dtor]: trivial destructors; [class.copy.ctor]: trivial copy constructors. *)
Fixpoint trivial_dtor (t : ty) : bool :=
  match t with
  | Plain | MutRef => true
  | Existing _ _ _ drops => negb drops
  | Rec i bs fs => negb (user_dtor i) && forallb trivial_dtor bs && forallb (fun f => trivial_dtor (snd f)) fs
  end.
Fixpoint trivial_copy (t : ty) : bool :=
  match t with
  | Plain | MutRef => true
  | Existing _ copy _ _ => copy
  | Rec i bs fs => negb (user_copy i) && forallb trivial_copy bs && forallb (fun f => trivial_copy (snd f)) fs
  end.

(** Destroying an object: which destructor bodies run, on which subobjects, in which order ([class.dtor]/14: the body, the members
    in reverse order of declaration, the bases in reverse order).  A subobject is given by the path to it: bases are
    numbered before members.  A union destroys none of its members. *)
Notation event := (list nat * nat)%type.
Fixpoint destroy (p : list nat) (t : ty) : list event :=
  match t with
  | Plain | MutRef => []
  | Existing n _ _ drops => if drops then [(p, n)] else []
  | Rec i bs fs =>
      (if user_dtor i then [(p, id i)] else [])
      ++ (if is_union i then []
          else (fix go k l := match l with [] => [] | f :: r => go (S k) r ++ destroy (p ++ [k]) (snd f) end) (length bs) fs)
      ++ (fix go k l := match l with [] => [] | b :: r => go (S k) r ++ destroy (p ++ [k]) b end) 0 bs
  end.
