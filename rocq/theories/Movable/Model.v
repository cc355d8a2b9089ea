(** Model of rs::Movable (support/movable.h), and of crubit::Slot
    (support/internal/slot.h) as generated functions use it to pass values to
    Rust and to return values from Rust
    (cc_bindings_from_rs/generate_bindings/generate_function.rs:271-286,
    :430-460).

    Objects of type T have an identity (in order of construction) and a value;
    a union member holds the bits of some object, or nothing yet.  The bits of
    an object that was relocated or destroyed stay where they were. *)
From Coq Require Import List Bool Arith.
Import ListNotations.

(** A C++ variable: a Movable<T> (the bits of its union, and the flag
    valueless_after_move_), or a plain T. *)
Inductive cell := CMov (v : option nat) (vl : bool) | CPlain (o : nat).

(** [EvNew o]: object [o] is constructed.  [EvDel o]: it is destroyed.
    [EvUse o]: it is read, assigned to or moved from.  [EvToRust o p]: Rust
    takes it over, with value [p].  [EvRead n p]: the program reads [p] from
    variable [n].  [EvFlag n b]: valueless_after_move of [n] returns [b]. *)
Inductive event :=
  | EvNew (o : nat) | EvDel (o : nat) | EvUse (o : nat)
  | EvToRust (o p : nat) | EvRead (n o p : nat) | EvFlag (n : nat) (b : bool).

Record world := mkW {
  w_next : nat;
  w_pay : nat -> nat;               (* the value of each object *)
  w_cells : nat -> option cell;
  w_log : list event;
  w_fault : bool }.                 (* uninitialised bytes were used as a T *)

Definition init : world := mkW 0 (fun _ => 0) (fun _ => None) [] false.

Definition set_cell (w : world) (n : nat) (c : option cell) : world :=
  mkW (w_next w) (w_pay w) (fun x => if Nat.eqb x n then c else w_cells w x) (w_log w) (w_fault w).

Definition emit (w : world) (e : event) : world :=
  mkW (w_next w) (w_pay w) (w_cells w) (w_log w ++ [e]) (w_fault w).

Definition fault (w : world) : world :=
  mkW (w_next w) (w_pay w) (w_cells w) (w_log w) true.

Definition set_pay (w : world) (o p : nat) : world :=
  mkW (w_next w) (fun x => if Nat.eqb x o then p else w_pay w x) (w_cells w) (w_log w) (w_fault w).

(** A new object with value [p]; its identity is the old [w_next]. *)
Definition construct (w : world) (p : nat) : world :=
  set_pay (emit (mkW (S (w_next w)) (w_pay w) (w_cells w) (w_log w) (w_fault w)) (EvNew (w_next w)))
          (w_next w) p.

(** The value a C++ move leaves behind. *)
Definition hollow : nat := 0.

(** T(std::move(x)): a new object with the value of [o], which is left hollow. *)
Definition cpp_move (w : world) (o : nat) : world :=
  set_pay (emit (construct w (w_pay w o)) (EvUse o)) o hollow.

(** movable.h:17-28, internal::Relocate<T>(dest, src), on the bits of the
    source: with an UnsafeRelocateTag constructor ([reloc]) the bits are moved,
    otherwise T is move-constructed and the source destroyed.  Returns the new
    world and the bits at the destination. *)
Definition relocate (reloc : bool) (w : world) (src : option nat) : world * option nat :=
  match src with
  | None => (fault w, None)
  | Some o => if reloc then (w, Some o)
              else (emit (cpp_move w o) (EvDel o), Some (w_next w))
  end.

(** value_.~T() *)
Definition destroy_value (w : world) (v : option nat) : world :=
  match v with None => fault w | Some o => emit w (EvDel o) end.

(** movable.h:36-41, :53-57: construction in place.
    movable.h:43-51 is the same with T's move constructor. *)
Definition m_new (w : world) (n p : nat) : world :=
  set_cell (construct w p) n (Some (CMov (Some (w_next w)) false)).

(** movable.h:60-62, :156-159: TakeFromSlot, of a slot in which Rust has
    constructed an object of value [p]; ~Slot does nothing (slot.h:113-116). *)
Definition m_take (reloc : bool) (w : world) (n p : nat) : world :=
  let o := w_next w in
  let w := construct w p in
  let '(w, v) := relocate reloc w (Some o) in
  set_cell w n (Some (CMov v false)).

(** movable.h:64-68. *)
Definition m_destroy (w : world) (n : nat) (v : option nat) (vl : bool) : world :=
  set_cell (if negb vl then destroy_value w v else w) n None.

(** movable.h:70-78, the move constructor of [n] from [s]. *)
Definition m_move_ctor (reloc : bool) (w : world) (n s : nat) (v : option nat) (vl : bool) : world :=
  if negb vl then
    let '(w, v') := relocate reloc w v in
    set_cell (set_cell w n (Some (CMov v' false))) s (Some (CMov v true))
  else set_cell w n (Some (CMov None true)).

(** movable.h:80-92, move assignment. *)
Definition m_move_assign (reloc : bool) (w : world) (n : nat) (v : option nat) (vl : bool)
  (s : nat) (v2 : option nat) (vl2 : bool) : world :=
  if Nat.eqb n s then w
  else
    let w := if negb vl then destroy_value w v else w in
    if negb vl2 then
      let '(w, v') := relocate reloc w v2 in
      set_cell (set_cell w n (Some (CMov v' false))) s (Some (CMov v2 true))
    else set_cell w n (Some (CMov v true)).

(** Copy construction of a T from the bits [v] of the source; [thr]: T's copy
    constructor throws. *)
Definition copy_value (w : world) (v : option nat) (thr : bool) : world * option (option nat) :=
  match v with
  | None => (fault w, None)
  | Some o => let w := emit w (EvUse o) in
              if thr then (w, None)
              else (construct w (w_pay w o), Some (Some (w_next w)))
  end.

(** movable.h:95-104, the copy constructor. *)
Definition m_copy_ctor (w : world) (n : nat) (v : option nat) (vl thr : bool) : world :=
  if negb vl then
    match copy_value w v thr with
    | (w, Some v') => set_cell w n (Some (CMov v' false))
    | (w, None) => w                            (* exception: n is not constructed *)
    end
  else set_cell w n (Some (CMov None true)).

(** movable.h:112-126, copy assignment. *)
Definition m_copy_assign (w : world) (n : nat) (v : option nat) (vl : bool)
  (s : nat) (v2 : option nat) (vl2 thr : bool) : world :=
  if Nat.eqb n s then w
  else if negb vl && negb vl2 then
    match v, v2 with                            (* value_ = other.value_; *)
    | Some o, Some o2 =>
        let w := emit (emit w (EvUse o)) (EvUse o2) in
        if thr then w else set_pay w o (w_pay w o2)
    | _, _ => fault w
    end
  else if negb vl && vl2 then set_cell (destroy_value w v) n (Some (CMov v true))
  else if vl && negb vl2 then
    match copy_value w v2 thr with
    | (w, Some v') => set_cell w n (Some (CMov v' false))
    | (w, None) => w
    end
  else w.

(** movable.h:132-137, operator* and operator->. *)
Definition m_read (w : world) (n : nat) (v : option nat) : world :=
  match v with None => fault w | Some o => emit w (EvRead n o (w_pay w o)) end.

(** generate_function.rs:271-286 with slot.h:77: `crubit::Slot s((std::move(x)))`
    move-constructs the slot's T; the thunk receives its address and reads it
    bitwise; ~Slot does not destroy it. *)
Definition p_pass (w : world) (o : nat) : world :=
  let p := w_pay w o in
  emit (cpp_move w o) (EvToRust (w_next w) p).

(** generate_function.rs:430-460 with slot.h:92-106, AssumeInitAndTakeValue: Rust
    constructs the return value in the slot; the result is relocated, or
    move-constructed and the slot's T destroyed. *)
Definition p_return (reloc : bool) (w : world) (n p : nat) : world :=
  let o := w_next w in
  let w := construct w p in
  if reloc then set_cell w n (Some (CPlain o))
  else let r := w_next w in
       set_cell (emit (cpp_move w o) (EvDel o)) n (Some (CPlain r)).

Inductive op :=
  | ONew (n p : nat) | OTake (n p : nat)
  | OMoveCtor (n s : nat) | OMoveAssign (n s : nat)
  | OCopyCtor (n s : nat) (thr : bool) | OCopyAssign (n s : nat) (thr : bool)
  | OFlag (n : nat)
  | PNew (n p : nat) | PPass (n : nat) | PReturn (n p : nat)
  | ORead (n : nat) | ODestroy (n : nat).

Definition step (reloc : bool) (w : world) (o : op) : world :=
  match o with
  | ONew n p => match w_cells w n with None => m_new w n p | _ => w end
  | OTake n p => match w_cells w n with None => m_take reloc w n p | _ => w end
  | OMoveCtor n s =>
      match w_cells w n, w_cells w s with
      | None, Some (CMov v vl) => m_move_ctor reloc w n s v vl
      | _, _ => w
      end
  | OMoveAssign n s =>
      match w_cells w n, w_cells w s with
      | Some (CMov v vl), Some (CMov v2 vl2) => m_move_assign reloc w n v vl s v2 vl2
      | _, _ => w
      end
  | OCopyCtor n s thr =>
      match w_cells w n, w_cells w s with
      | None, Some (CMov v vl) => m_copy_ctor w n v vl thr
      | _, _ => w
      end
  | OCopyAssign n s thr =>
      match w_cells w n, w_cells w s with
      | Some (CMov v vl), Some (CMov v2 vl2) => m_copy_assign w n v vl s v2 vl2 thr
      | _, _ => w
      end
  | OFlag n => match w_cells w n with Some (CMov _ vl) => emit w (EvFlag n vl) | _ => w end
  | PNew n p => match w_cells w n with
                | None => set_cell (construct w p) n (Some (CPlain (w_next w)))
                | _ => w end
  | PPass n => match w_cells w n with Some (CPlain o) => p_pass w o | _ => w end
  | PReturn n p => match w_cells w n with None => p_return reloc w n p | _ => w end
  | ORead n =>
      match w_cells w n with
      | Some (CMov v _) => m_read w n v
      | Some (CPlain o) => emit w (EvRead n o (w_pay w o))
      | None => w
      end
  | ODestroy n =>
      match w_cells w n with
      | Some (CMov v vl) => m_destroy w n v vl
      | Some (CPlain o) => set_cell (emit w (EvDel o)) n None
      | None => w
      end
  end.

Definition run (reloc : bool) (ops : list op) : world := fold_left (step reloc) ops init.
