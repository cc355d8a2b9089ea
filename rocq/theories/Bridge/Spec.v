(** Independent specification of the bridge: which values belong to a schema, and
    the documented size. *)
From Coq Require Import List Arith.
From Verif.Bridge Require Import Model.
Import ListNotations.

(** [belongs a v]: [v] is a value of the type described by [a]. *)
Inductive belongs : abi -> value -> Prop :=
| B_transmute n bs : length bs = n -> belongs (Transmute n) (VBytes bs)
| B_tuple l vs : Forall2 belongs l vs -> belongs (Tuple l) (VTuple vs)
| B_none a : belongs (Opt a) VNone
| B_some a v : belongs a v -> belongs (Opt a) (VSome v).

(** Documented size of a schema: the number of bytes, a bool in front of options. *)
Fixpoint documented_size (a : abi) : nat :=
  match a with
  | Transmute n => n
  | Tuple l => list_sum (map documented_size l)
  | Opt a => 1 + documented_size a
  end.

(** No option inside is [None]. *)
Inductive complete : value -> Prop :=
| C_bytes bs : complete (VBytes bs)
| C_tuple vs : Forall complete vs -> complete (VTuple vs)
| C_some v : complete v -> complete (VSome v).
