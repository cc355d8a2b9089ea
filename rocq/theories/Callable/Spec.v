(** Specification of DynCallable, as its header documents it: a handle is
    empty, owns one Rust closure, or has given its FnOnce away by calling it.
    Nothing of the representation appears here. *)
From Coq Require Import List Bool Arith.
From Verif.Callable Require Import Model.
Import ListNotations.

(** An event that ends the life of closure [b] on the C++ side. *)
Definition ends (b : nat) (e : event) : bool :=
  match e with
  | EvConsume x | EvDrop x | EvToRust x | EvToAny x => Nat.eqb x b
  | _ => false
  end.

(** An event that involves closure [b]. *)
Definition touches (b : nat) (e : event) : bool :=
  match e with
  | EvCall x => Nat.eqb x b
  | _ => ends b e
  end.

Definition count_ends (b : nat) (l : list event) : nat := length (filter (ends b) l).

(** Once [b] ended, nothing happens to it any more. *)
Definition no_use_after_end (b : nat) (l : list event) : Prop :=
  forall l1 e l2, l = l1 ++ e :: l2 -> ends b e = true ->
  forall e', In e' l2 -> touches b e' = false.

(** ** The documented behaviour *)
Inductive astate := AEmpty | AHolds (b : nat) | ASpent.

Record aworld := mkA {
  a_next : nat;
  a_cells : nat -> option astate;
  a_log : list event;
  a_done : bool }.

Definition ainit : aworld := mkA 0 (fun _ => None) [] false.

Definition aset (w : aworld) (n : nat) (s : option astate) : aworld :=
  mkA (a_next w) (fun x => if Nat.eqb x n then s else a_cells w x) (a_log w) (a_done w).

Definition aemit (w : aworld) (l : list event) : aworld :=
  mkA (a_next w) (a_cells w) (a_log w ++ l) (a_done w).

Definition aterminate (w : aworld) : aworld :=
  mkA (a_next w) (a_cells w) (a_log w) true.

Definition drop_ev (s : astate) : list event :=
  match s with AHolds b => [EvDrop b] | _ => [] end.

(** [None]: the operation is a misuse. *)
Definition astep (k : kind) (w : aworld) (o : op) : option aworld :=
  if a_done w then Some w else
  match o with
  | ODefault n =>
      match a_cells w n with Some _ => Some w | None => Some (aset w n (Some AEmpty)) end
  | OReceive n =>
      match a_cells w n with
      | Some _ => Some w
      | None => Some (mkA (S (a_next w)) (a_cells (aset w n (Some (AHolds (a_next w)))))
                          (a_log w) (a_done w))
      end
  | OMoveCtor n s =>
      match a_cells w n, a_cells w s with
      | None, Some x => Some (aset (aset w n (Some x)) s (Some AEmpty))
      | _, _ => Some w
      end
  | OMoveAssign n s =>
      match a_cells w n, a_cells w s with
      | Some y, Some x =>
          if Nat.eqb n s
          then match x with
               | AHolds _ => None                       (* misuse: self move of a full handle *)
               | _ => Some (aset w n (Some AEmpty))
               end
          else Some (aset (aset (aemit w (drop_ev y)) n (Some x)) s (Some AEmpty))
      | _, _ => Some w
      end
  | OSwap n s =>
      match a_cells w n, a_cells w s with
      | Some y, Some x => Some (aset (aset w n (Some x)) s (Some y))
      | _, _ => Some w
      end
  | OCall n pan =>
      match a_cells w n with
      | None => Some w
      | Some AEmpty => None                             (* misuse: calling an empty handle *)
      | Some ASpent => Some (aterminate w)
      | Some (AHolds b) =>
          let w' := match k with
                    | KFnOnce => aset (aemit w [EvConsume b]) n (Some ASpent)
                    | _ => aemit w [EvCall b]
                    end in
          Some (if pan then aterminate w' else w')
      end
  | OBool n =>
      match a_cells w n with
      | None => Some w
      | Some s => Some (aemit w [EvBool n (match s with AEmpty => false | _ => true end)])
      end
  | OToRust n =>
      match a_cells w n with
      | None => Some w
      | Some (AHolds b) => Some (aset (aemit w [EvToRust b]) n (Some AEmpty))
      | Some AEmpty => Some (aset (aemit w [EvToRustPanicking]) n (Some AEmpty))
      | Some ASpent => None                             (* see C119_..._refuted *)
      end
  | OToAny n =>
      match a_cells w n with
      | None => Some w
      | Some (AHolds b) => Some (aset (aemit w [EvToAny b]) n (Some AEmpty))
      | Some _ => Some (aset w n (Some AEmpty))
      end
  | ODestroy n =>
      match a_cells w n with
      | None => Some w
      | Some s => Some (aset (aemit w (drop_ev s)) n None)
      end
  end.

Fixpoint arun_from (k : kind) (w : aworld) (ops : list op) : option aworld :=
  match ops with
  | [] => Some w
  | o :: r => match astep k w o with Some w' => arun_from k w' r | None => None end
  end.

Definition arun (k : kind) (ops : list op) : option aworld := arun_from k ainit ops.
