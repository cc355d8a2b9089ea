(** Specification. *)
From Coq Require Import List Arith.
From Verif.RsVec Require Import Model.
Import ListNotations.
(** A raw pointer lies at an offset within a value of the type (not looking into enums). *)
Inductive pointer_at : ty -> nat -> Prop :=
| pa_raw : pointer_at RawPtr 0
| pa_pat t o : pointer_at t o -> pointer_at (Pat t) o
| pa_field fs off t o : In (off, t) fs -> pointer_at t o -> pointer_at (Struct fs) (off + o).
(** [Vec]'s fields: one [usize] and, in the others, one raw pointer. *)
Definition vec_like (fields : list (nat * ty)) (p l : nat) : Prop :=
  (forall off, In (off, Usize) fields <-> off = l) /\ (forall o, pointer_at (Struct fields) o <-> o = p).
(** Elements do not overlap. *)
Definition apart (e e' : nat * nat) : Prop := fst e + snd e <= fst e' \/ fst e' + snd e' <= fst e.
Definition tuple_layout (elems : list (nat * nat)) : Prop := ForallOrdPairs apart elems.
Definition tuple_holds (elems : list (nat * nat)) (t : tuple) (vals : list (list nat)) : Prop :=
  Forall2 (fun e v => get (mem t) (fst e) (snd e) = v) elems vals /\ alive t = map (fun _ => true) elems.
