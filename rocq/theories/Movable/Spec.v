(** Specification of Movable and Slot: values only.  A Movable<T> is an
    optional value; moving takes the value and leaves the source empty; a call
    passes a value to Rust or brings one back. *)
From Coq Require Import List Bool Arith.
From Verif.Movable Require Import Model.
From Verif.Own Require Import Own.
Import ListNotations.

(** ** Lives of objects *)
Definition ends (b : nat) (e : event) : bool :=
  match e with EvDel x | EvToRust x _ => Nat.eqb x b | _ => false end.
Definition touches (b : nat) (e : event) : bool :=
  match e with EvUse x | EvRead _ x _ => Nat.eqb x b | _ => ends b e end.

(** ** Observations *)
Inductive obs := ObRead (n p : nat) | ObFlag (n : nat) (b : bool) | ObToRust (p : nat).

Definition observe (e : event) : list obs :=
  match e with
  | EvRead n _ p => [ObRead n p]
  | EvFlag n b => [ObFlag n b]
  | EvToRust _ p => [ObToRust p]
  | _ => []
  end.

Inductive acell := AMov (x : option nat) | APlain (p : nat).

Record aworld := mkA { a_cells : nat -> option acell; a_obs : list obs }.

Definition ainit : aworld := mkA (fun _ => None) [].

Definition aset (a : aworld) (n : nat) (c : option acell) : aworld :=
  mkA (fun x => if Nat.eqb x n then c else a_cells a x) (a_obs a).
Definition aobs (a : aworld) (x : obs) : aworld := mkA (a_cells a) (a_obs a ++ [x]).

(** [None]: reading a Movable that has no value. *)
Definition astep (a : aworld) (o : op) : option aworld :=
  match o with
  | ONew n p | OTake n p =>
      match a_cells a n with None => Some (aset a n (Some (AMov (Some p)))) | _ => Some a end
  | OMoveCtor n s =>
      match a_cells a n, a_cells a s with
      | None, Some (AMov x) => Some (aset (aset a n (Some (AMov x))) s (Some (AMov None)))
      | _, _ => Some a
      end
  | OMoveAssign n s =>
      match a_cells a n, a_cells a s with
      | Some (AMov _), Some (AMov x) =>
          Some (if Nat.eqb n s then a
                else aset (aset a n (Some (AMov x))) s (Some (AMov None)))
      | _, _ => Some a
      end
  | OCopyCtor n s thr =>
      match a_cells a n, a_cells a s with
      | None, Some (AMov None) => Some (aset a n (Some (AMov None)))
      | None, Some (AMov (Some p)) => Some (if thr then a else aset a n (Some (AMov (Some p))))
      | _, _ => Some a
      end
  | OCopyAssign n s thr =>
      match a_cells a n, a_cells a s with
      | Some (AMov _), Some (AMov None) => Some (aset a n (Some (AMov None)))
      | Some (AMov _), Some (AMov (Some p)) => Some (if thr then a else aset a n (Some (AMov (Some p))))
      | _, _ => Some a
      end
  | OFlag n =>
      match a_cells a n with
      | Some (AMov x) => Some (aobs a (ObFlag n (match x with None => true | _ => false end)))
      | _ => Some a
      end
  | PNew n p | PReturn n p =>
      match a_cells a n with None => Some (aset a n (Some (APlain p))) | _ => Some a end
  | PPass n =>
      match a_cells a n with
      | Some (APlain p) => Some (aset (aobs a (ObToRust p)) n (Some (APlain hollow)))
      | _ => Some a
      end
  | ORead n =>
      match a_cells a n with
      | None => Some a
      | Some (AMov None) => None
      | Some (AMov (Some p)) | Some (APlain p) => Some (aobs a (ObRead n p))
      end
  | ODestroy n => Some (aset a n None)
  end.

Fixpoint arun_from (a : aworld) (ops : list op) : option aworld :=
  match ops with
  | [] => Some a
  | o :: r => match astep a o with Some a' => arun_from a' r | None => None end
  end.

Definition arun (ops : list op) : option aworld := arun_from ainit ops.
