(** Model of rs_std::DynCallable (support/rs_std/dyn_callable.h), of the Rust
    side of its ABI (support/rs_std/dyn_callable.rs) and of the invoker that
    rs_bindings_from_cc generates for it
    (rs_bindings_from_cc/generate_bindings/lib.rs:1490-1600).

    A DynCallable owns a `Box<dyn Fn..>`.  We follow the three words of its
    representation literally: the type erased storage, the manager function
    pointer and the invoker function pointer, through every operation a C++
    program can perform on a set of handles of one signature. *)
From Coq Require Import List Bool Arith.
Import ListNotations.

(** dyn_callable.h:146-148: the qualifier of the signature, `const` for Fn,
    none for FnMut, `&&` for FnOnce. *)
Inductive kind := KFn | KFnMut | KFnOnce.

(** What the two words of TypeErasedState hold: uninitialised bytes, the
    `Box` of the [b]-th closure that came from Rust, or the zero sized
    closure that generated code leaves behind when it takes the FnOnce out of
    the box (rs_bindings_from_cc/generate_bindings/lib.rs:1502-1519). *)
Inductive storage := SJunk | SBox (b : nat) | SSpent.

(** manager_: absl's EmptyManager (does nothing for either operation) or the
    generated Rust manager. *)
Inductive mgr := MEmpty | MRust.

(** invoker_: null, the generated invoker, or InvokedAfterMove. *)
Inductive invk := INull | IRust | IAfterMove.

Record cell := mkCell { c_st : storage; c_mg : mgr; c_iv : invk }.

(** The handles: variables of the program, and the temporary that std::swap
    and by-value parameters use. *)
Inductive ref := Var (n : nat) | Tmp.

Definition ref_eqb (a b : ref) : bool :=
  match a, b with
  | Var x, Var y => Nat.eqb x y
  | Tmp, Tmp => true
  | _, _ => false
  end.

(** Observable events.  [EvCall b]: closure [b] is called by reference.
    [EvConsume b]: it is called by value.  [EvDrop b]: its destructor runs.
    [EvToRust b]: Rust receives the box of [b] as an owned value.
    [EvToRustPanicking]: Rust receives a box whose call panics.
    [EvToAny b]: an absl::AnyInvocable takes [b] over.
    [EvBool n v]: operator bool of handle [n] returned [v]. *)
Inductive event :=
  | EvCall (b : nat) | EvConsume (b : nat) | EvDrop (b : nat) | EvToRust (b : nat)
  | EvToRustPanicking | EvToAny (b : nat) | EvBool (n : nat) (v : bool).

Inductive reason := NullCall | GarbageBox | OverlappingCopy | UninitRead.

Inductive status := Running | Terminated | Undefined (r : reason).

Record world := mkWorld {
  w_next : nat;                       (* closures received from Rust so far *)
  w_cells : ref -> option cell;       (* live handles *)
  w_log : list event;                 (* oldest first *)
  w_stat : status }.

Definition init : world := mkWorld 0 (fun _ => None) [] Running.

Definition set_cell (w : world) (r : ref) (c : option cell) : world :=
  mkWorld (w_next w) (fun x => if ref_eqb x r then c else w_cells w x) (w_log w) (w_stat w).

Definition emit (w : world) (e : event) : world :=
  mkWorld (w_next w) (w_cells w) (w_log w ++ [e]) (w_stat w).

Definition stop (w : world) (s : status) : world :=
  mkWorld (w_next w) (w_cells w) (w_log w) s.

(** Sequencing: nothing happens once the process has stopped. *)
Definition andthen (w : world) (f : world -> world) : world :=
  match w_stat w with Running => f w | _ => w end.

(** With the cell of a live handle; operations on names that are not live are
    not C++ programs, and do nothing. *)
Definition with_cell (w : world) (r : ref) (f : cell -> world) : world :=
  match w_cells w r with Some c => f c | None => w end.

(** manager_(FunctionToCall::dispose, &storage_, &storage_):
    dyn_callable.rs:84-89 drops the box in place, EmptyManager does nothing. *)
Definition dispose (w : world) (r : ref) : world :=
  with_cell w r (fun c =>
    match c_mg c with
    | MEmpty => w
    | MRust => match c_st c with
               | SBox b => emit w (EvDrop b)
               | SSpent => w
               | SJunk => stop w (Undefined UninitRead)
               end
    end).

(** manager_(FunctionToCall::relocate_from_to, from, to): dyn_callable.rs:90-94
    copies the box bitwise with ptr::copy_nonoverlapping, so the two places
    must be distinct; EmptyManager does nothing.  The source keeps its bits. *)
Definition relocate (w : world) (from to : ref) : world :=
  with_cell w from (fun cf => with_cell w to (fun ct =>
    match c_mg cf with
    | MEmpty => w
    | MRust => if ref_eqb from to then stop w (Undefined OverlappingCopy)
               else set_cell w to (Some (mkCell (c_st cf) (c_mg ct) (c_iv ct)))
    end)).

Definition set_mgr (w : world) (r : ref) (m : mgr) : world :=
  with_cell w r (fun c => set_cell w r (Some (mkCell (c_st c) m (c_iv c)))).

Definition set_inv (w : world) (r : ref) (i : invk) : world :=
  with_cell w r (fun c => set_cell w r (Some (mkCell (c_st c) (c_mg c) i))).

(** manager_ = other.manager_; *)
Definition copy_mgr (w : world) (to from : ref) : world :=
  with_cell w from (fun c => set_mgr w to (c_mg c)).

(** invoker_ = other.invoker_; *)
Definition copy_inv (w : world) (to from : ref) : world :=
  with_cell w from (fun c => set_inv w to (c_iv c)).

(** dyn_callable.h:62-76, ManagedCallable::operator=(ManagedCallable&&). *)
Definition managed_assign (w : world) (this other : ref) : world :=
  andthen (dispose w this) (fun w =>
  andthen (relocate w other this) (fun w =>
  set_mgr (copy_mgr w this other) other MEmpty)).

(** dyn_callable.h:115-120, Impl::operator=(Impl&&). *)
Definition move_assign (w : world) (this other : ref) : world :=
  andthen (managed_assign w this other) (fun w =>
  set_inv (copy_inv w this other) other INull).

(** dyn_callable.h:47, :138 and :205-206: the default constructor leaves the
    storage uninitialised, with EmptyManager and a null invoker. *)
Definition default_cell : cell := mkCell SJunk MEmpty INull.

(** dyn_callable.h:114: the move constructor default-initialises the base
    and the invoker, then move-assigns. *)
Definition move_ctor (w : world) (this other : ref) : world :=
  move_assign (set_cell w this (Some default_cell)) this other.

(** dyn_callable.h:55-57: the destructor disposes through the manager. *)
Definition destroy (w : world) (r : ref) : world :=
  andthen (dispose w r) (fun w => set_cell w r None).

(** The generated invoker, lib.rs:1500-1523: `(&*f)(..)`, `(&mut *f)(..)` or,
    for FnOnce, `ptr::replace(f, Box::new(|..| unreachable!()))(..)`.  It is
    `extern "C"`, so a panic ([pan]) of the closure aborts the process. *)
Definition invoke_rust (k : kind) (w : world) (r : ref) (pan : bool) : world :=
  with_cell w r (fun c =>
    match c_st c with
    | SJunk => stop w (Undefined UninitRead)
    | SSpent => stop w Terminated
    | SBox b =>
        let w' := match k with
                  | KFn | KFnMut => emit w (EvCall b)
                  | KFnOnce => emit (set_cell w r (Some (mkCell SSpent (c_mg c) (c_iv c)))) (EvConsume b)
                  end in
        if pan then stop w' Terminated else w'
    end).

(** dyn_callable.h:122-136, Impl::operator(): the invoker is copied first; for
    `&&` the handle is switched to InvokedAfterMove and EmptyManager before
    the call. *)
Definition call (k : kind) (w : world) (r : ref) (pan : bool) : world :=
  with_cell w r (fun c =>
    let invoker_copy := c_iv c in
    let w := match k with
             | KFnOnce => set_mgr (set_inv w r IAfterMove) r MEmpty
             | _ => w
             end in
    match invoker_copy with
    | INull => stop w (Undefined NullCall)
    | IAfterMove => stop w Terminated          (* dyn_callable.h:92-97 *)
    | IRust => invoke_rust k w r pan
    end).

(** dyn_callable.h:138, HasValue / operator bool. *)
Definition has_value (c : cell) : bool :=
  match c_iv c with INull => false | _ => true end.

(** dyn_callable.h:165-176 (Encode takes its argument by value, here [Tmp])
    followed by the Rust decoding, dyn_callable.rs:43-54. *)
Definition encode_tmp (w : world) : world :=
  with_cell w Tmp (fun c =>
    let w := if has_value c
             then match c_st c with
                  | SBox b => emit w (EvToRust b)
                  | SSpent => emit w EvToRustPanicking
                  | SJunk => stop w (Undefined GarbageBox)
                  end
             else emit w EvToRustPanicking in
    andthen w (fun w => destroy (set_mgr w Tmp MEmpty) Tmp)).

(** Passing [std::move(h)] to a by-value parameter that is then encoded. *)
Definition to_rust (w : world) (r : ref) : world :=
  with_cell w r (fun _ => andthen (move_ctor w Tmp r) encode_tmp).

(** dyn_callable.h:268-275: the conversion to absl::AnyInvocable empties the
    handle; AnyInvocable relocates the storage with the manager it is given. *)
Definition to_any (w : world) (r : ref) : world :=
  with_cell w r (fun c =>
    let w := set_inv (set_mgr w r MEmpty) r INull in
    match c_mg c with
    | MEmpty => w
    | MRust => match c_st c with
               | SBox b => emit w (EvToAny b)
               | SSpent => w
               | SJunk => stop w (Undefined UninitRead)
               end
    end).

(** dyn_callable.h:254: std::swap, i.e. move construction of a temporary, two
    move assignments, and the destruction of the temporary. *)
Definition swap (w : world) (a b : ref) : world :=
  andthen (move_ctor w Tmp a) (fun w =>
  andthen (move_assign w a b) (fun w =>
  andthen (move_assign w b Tmp) (fun w => destroy w Tmp))).

(** dyn_callable.h:178-181: Decode builds a handle from the box sent by Rust. *)
Definition decode (w : world) (r : ref) : world :=
  mkWorld (S (w_next w))
          (w_cells (set_cell w r (Some (mkCell (SBox (w_next w)) MRust IRust))))
          (w_log w) (w_stat w).

(** The operations of a C++ program. *)
Inductive op :=
  | ODefault (n : nat)              (* DynCallable n; *)
  | OReceive (n : nat)              (* n is received from Rust *)
  | OMoveCtor (n src : nat)         (* DynCallable n(std::move(src)); *)
  | OMoveAssign (n src : nat)       (* n = std::move(src); *)
  | OSwap (a b : nat)
  | OCall (n : nat) (pan : bool)
  | OBool (n : nat)
  | OToRust (n : nat)               (* std::move(n) is passed to Rust *)
  | OToAny (n : nat)
  | ODestroy (n : nat).

Definition live (w : world) (n : nat) : bool :=
  match w_cells w (Var n) with Some _ => true | None => false end.

Definition step (k : kind) (w : world) (o : op) : world :=
  andthen w (fun w =>
  match o with
  | ODefault n => if live w n then w else set_cell w (Var n) (Some default_cell)
  | OReceive n => if live w n then w else decode w (Var n)
  | OMoveCtor n s => if live w n then w else if live w s then move_ctor w (Var n) (Var s) else w
  | OMoveAssign n s => if live w n && live w s then move_assign w (Var n) (Var s) else w
  | OSwap a b => if live w a && live w b then swap w (Var a) (Var b) else w
  | OCall n pan => if live w n then call k w (Var n) pan else w
  | OBool n => with_cell w (Var n) (fun c => emit w (EvBool n (has_value c)))
  | OToRust n => to_rust w (Var n)
  | OToAny n => to_any w (Var n)
  | ODestroy n => if live w n then destroy w (Var n) else w
  end).

Definition run (k : kind) (ops : list op) : world := fold_left (step k) ops init.
