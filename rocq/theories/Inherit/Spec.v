(** C++ subobjects and name lookup, independently of clang's algorithm. *)
From Coq Require Import List Bool Arith ZArith.
From Verif Require Import Inherit.Model.
Import ListNotations.

(** Well-formed C++: a class derives only from classes defined before it, and names no
    direct base twice. *)
Definition wf (H : hier) : Prop :=
  (forall c b, In b (bases H c) -> b_cls b < c) /\
  (forall c, NoDup (List.map b_cls (bases H c))).

(** [p] leads from class [c] to class [x], one base specifier after the other. *)
Inductive leads (H : hier) : nat -> path -> nat -> Prop :=
| leads_nil c : leads H c [] c
| leads_snoc c p y b : leads H c p y -> In b (bases H y) -> leads H c (p ++ [(y, b)]) (b_cls b).

(** [x] is a (proper) base class of [c]. *)
Definition base_path (H : hier) (c x : nat) (p : path) : Prop := leads H c p x /\ p <> [].

(** The base class subobject that a path denotes ([intro.object], [class.mi]): there is one
    subobject of each virtual base class, so everything before the last virtual edge is
    irrelevant.  [None] stands for the complete object. *)
Notation subobject := (option nat * path)%type.

Definition extend (s : subobject) (e : step) : subobject :=
  if b_virt (snd e) then (Some (b_cls (snd e)), []) else (fst s, snd s ++ [e]).

Definition subobject_of (p : path) : subobject := fold_left extend p (None, []).

(** The conversion from [c] to [x] is unambiguous: there is one [x] subobject. *)
Definition unambiguous (H : hier) (c x : nat) : Prop :=
  forall p q, base_path H c x p -> base_path H c x q -> subobject_of p = subobject_of q.

Definition public_path (p : path) : Prop := Forall (fun e => b_acc (snd e) = APublic) p.

(** The conversion is accessible to everyone: the subobject can be reached by public
    inheritance only. *)
Definition public_base (H : hier) (c x : nat) : Prop :=
  exists p, base_path H c x p /\ public_path p.

(** The address of a subobject of a complete object at address [a]; [vaddr v] is where the
    object keeps its virtual base [v]. *)
Fixpoint offset_sum (H : hier) (p : path) : Z :=
  match p with [] => 0%Z | (c, b) :: p' => (boff H c (b_cls b) + offset_sum H p')%Z end.

Definition subobject_addr (H : hier) (a : Z) (vaddr : nat -> Z) (s : subobject) : Z :=
  match fst s with
  | None => a + offset_sum H (snd s)
  | Some v => vaddr v + offset_sum H (snd s)
  end%Z.

(** A C++ derived-to-base pointer conversion: null to null, otherwise to the subobject. *)
Definition cpp_upcast (H : hier) (vaddr : nat -> Z) (p : path) (d : ptr) : ptr :=
  match d with
  | Null => Null
  | Addr a => ptr_of (subobject_addr H a vaddr (subobject_of p))
  end.

(** C++ member name lookup ([class.member.lookup]), for an object of class [c]: class [x]
    is found for the name [n] if [x] declares it, and every declaration of [n] in the
    hierarchy (including [c] itself) is in the found subobject or in a base class subobject
    of it. *)
Definition cpp_finds (H : hier) (decl : nat -> nat -> Prop) (c n x : nat) : Prop :=
  exists p, leads H c p x /\ decl x n /\
    forall y q, leads H c q y -> decl y n ->
      exists r, subobject_of q = subobject_of (p ++ r) /\ leads H c (p ++ r) y.
