(** Model of futures and wakers across the language boundary:
    support/rs_std/dyn_erased_future.{h,rs}, erased_future.rs, dyn_future.rs,
    waker.{h,cc}, cpp_waker.{h,cc} (the last two are the same code under two
    names), and of the generated code that returns a future to C++
    (cc_bindings_from_rs/generate_bindings/generate_function.rs:709-727).

    Rust futures are arbitrary: what the k-th poll of the i-th future does with
    its waker and returns is given by a script.  C++ code creates handles,
    moves, polls and destroys them; Rust code (any thread) uses the wakers it
    cloned, in any order, at any time. *)
From Coq Require Import List Bool Arith.
Import ListNotations.

(** What Rust code can do with one of the wakers it owns (the [k]-th). *)
Inductive hop := HWake (k : nat) | HWakeByRef (k : nat) | HDrop (k : nat) | HClone (k : nat).

(** What a future can do inside poll: clone the waker of its context, wake it
    by reference (both only need `&Waker`), or use a waker Rust owns. *)
Inductive action := BClone | BWake | BHeld (h : hop).

(** [s_acts i k], [s_res i k]: what the [k]-th poll of future [i] does and
    returns ([Some v]: Ready with output [v]); [s_zst i]: its output type has
    size zero; [s_fresh w]: Clone of waker object [w] returns a new object for
    the same task, instead of incrementing a reference count (waker.h:55-60
    allows both). *)
Record scripts := mkScripts {
  s_acts : nat -> nat -> list action;
  s_res : nat -> nat -> option nat;
  s_zst : nat -> bool;
  s_fresh : nat -> bool }.

(** The box in a DynErasedFuture: a future made by Rust code, or the
    `future::pending` that a move leaves behind. *)
Inductive box := FUser (i : nat) | FPending.

Inductive event :=
  | EvPoll (i : nat)                 (* future i is polled *)
  | EvDropFut (i : nat)              (* future i is dropped *)
  | EvToRust (i : nat)               (* future i is given back to Rust code *)
  | EvRes (n : nat) (b : bool)       (* Poll of handle n returned b *)
  | EvOut (out v : nat)              (* v is written to out *)
  | EvDynRes (n : nat) (b : bool)    (* DynFuture::poll returned b *)
  | EvDone (n : nat) (b : bool)      (* is_completed_or_discarded returned b *)
  | EvWake (t : nat)                 (* the C++ executor is told to wake task t *)
  | EvFree (w : nat).                (* waker object w is destroyed *)

Inductive status := Running | Aborted | UseAfterFree.

Record world := mkW {
  w_nf : nat;                        (* futures created *)
  w_polls : nat -> nat;              (* how often each was polled *)
  w_futs : nat -> option box;        (* DynErasedFuture handles *)
  w_dyns : nat -> option (option nat);   (* DynFuture handles: Option<Pin<Box<..>>> *)
  w_nw : nat;                        (* waker objects created *)
  w_task : nat -> nat;
  w_rc : nat -> nat;                 (* reference count, 0 when destroyed *)
  w_cpp : list nat;                  (* references held by C++ *)
  w_rust : list nat;                 (* Wakers owned by Rust code *)
  w_log : list event;
  w_stat : status }.

Definition init : world :=
  mkW 0 (fun _ => 0) (fun _ => None) (fun _ => None) 0 (fun _ => 0) (fun _ => 0) [] [] [] Running.

Definition fupd {A} (f : nat -> A) (n : nat) (x : A) : nat -> A :=
  fun m => if Nat.eqb m n then x else f m.

Definition emit (w : world) (e : event) : world :=
  mkW (w_nf w) (w_polls w) (w_futs w) (w_dyns w) (w_nw w) (w_task w) (w_rc w) (w_cpp w) (w_rust w)
      (w_log w ++ [e]) (w_stat w).
Definition stop (w : world) (s : status) : world :=
  mkW (w_nf w) (w_polls w) (w_futs w) (w_dyns w) (w_nw w) (w_task w) (w_rc w) (w_cpp w) (w_rust w)
      (w_log w) s.
Definition set_fut (w : world) (n : nat) (b : option box) : world :=
  mkW (w_nf w) (w_polls w) (fupd (w_futs w) n b) (w_dyns w) (w_nw w) (w_task w) (w_rc w) (w_cpp w) (w_rust w)
      (w_log w) (w_stat w).
Definition set_dyn (w : world) (n : nat) (b : option (option nat)) : world :=
  mkW (w_nf w) (w_polls w) (w_futs w) (fupd (w_dyns w) n b) (w_nw w) (w_task w) (w_rc w) (w_cpp w) (w_rust w)
      (w_log w) (w_stat w).
Definition set_rc (w : world) (x r : nat) : world :=
  mkW (w_nf w) (w_polls w) (w_futs w) (w_dyns w) (w_nw w) (w_task w) (fupd (w_rc w) x r) (w_cpp w) (w_rust w)
      (w_log w) (w_stat w).
Definition set_cpp (w : world) (l : list nat) : world :=
  mkW (w_nf w) (w_polls w) (w_futs w) (w_dyns w) (w_nw w) (w_task w) (w_rc w) l (w_rust w)
      (w_log w) (w_stat w).
Definition set_rust (w : world) (l : list nat) : world :=
  mkW (w_nf w) (w_polls w) (w_futs w) (w_dyns w) (w_nw w) (w_task w) (w_rc w) (w_cpp w) l
      (w_log w) (w_stat w).
Definition new_fut (w : world) : world :=
  mkW (S (w_nf w)) (w_polls w) (w_futs w) (w_dyns w) (w_nw w) (w_task w) (w_rc w) (w_cpp w) (w_rust w)
      (w_log w) (w_stat w).
Definition count_poll (w : world) (i : nat) : world :=
  mkW (w_nf w) (fupd (w_polls w) i (S (w_polls w i))) (w_futs w) (w_dyns w) (w_nw w) (w_task w) (w_rc w)
      (w_cpp w) (w_rust w) (w_log w) (w_stat w).
(** A new waker object for task [t], with one reference. *)
Definition new_waker (w : world) (t : nat) : world :=
  mkW (w_nf w) (w_polls w) (w_futs w) (w_dyns w) (S (w_nw w)) (fupd (w_task w) (w_nw w) t)
      (fupd (w_rc w) (w_nw w) 1) (w_cpp w) (w_rust w) (w_log w) (w_stat w).

Definition andthen (w : world) (f : world -> world) : world :=
  match w_stat w with Running => f w | _ => w end.

(** ** Wakers: a C++ implementation of rs_std::Waker as its header asks for *)

(** Any call on a destroyed waker is a use after free. *)
Definition alive (w : world) (x : nat) (f : world -> world) : world :=
  match w_rc w x with 0 => stop w UseAfterFree | _ => f w end.

(** waker.h:66-69 Destroy: drops one reference. *)
Definition waker_destroy (w : world) (x : nat) : world :=
  alive w x (fun w =>
    let r := w_rc w x - 1 in
    let w := set_rc w x r in
    match r with 0 => emit w (EvFree x) | _ => w end).

(** waker.h:41-45 WakeByRef. *)
Definition waker_wake_by_ref (w : world) (x : nat) : world :=
  alive w x (fun w => emit w (EvWake (w_task w x))).

(** waker.h:47-53 WakeAndDestroy: wakes, and drops one reference. *)
Definition waker_wake_and_destroy (w : world) (x : nat) : world :=
  andthen (waker_wake_by_ref w x) (fun w => waker_destroy w x).

(** waker.h:55-60 Clone: the pointer that the clone uses. *)
Definition waker_clone (S : scripts) (w : world) (x : nat) : world * nat :=
  match w_rc w x with
  | 0 => (stop w UseAfterFree, x)
  | r => if s_fresh S x then (new_waker w (w_task w x), w_nw w)
         else (set_rc w x (r + 1), x)
  end.

(** ** Rust's Waker on top of it *)

(** The vtable: dyn_erased_future.rs:131-157 and waker.cc:9-21 (dyn_future.rs:81-107
    and cpp_waker.cc:9-21 are the same).  `Waker::clone` calls the first entry,
    `Waker::wake` the second (consuming self without dropping it), `wake_by_ref`
    the third, and dropping a Waker the fourth. *)
Definition vt_clone (S : scripts) (w : world) (x : nat) : world :=
  let '(w, y) := waker_clone S w x in
  andthen w (fun w => set_rust w (w_rust w ++ [y])).

Definition remove_nth (k : nat) (l : list nat) : list nat := firstn k l ++ skipn (S k) l.

Definition run_hop (S : scripts) (w : world) (h : hop) : world :=
  match h with
  | HWake k => match nth_error (w_rust w) k with
               | None => w
               | Some x => waker_wake_and_destroy (set_rust w (remove_nth k (w_rust w))) x
               end
  | HWakeByRef k => match nth_error (w_rust w) k with
                    | None => w
                    | Some x => waker_wake_by_ref w x
                    end
  | HDrop k => match nth_error (w_rust w) k with
               | None => w
               | Some x => waker_destroy (set_rust w (remove_nth k (w_rust w))) x
               end
  | HClone k => match nth_error (w_rust w) k with
                | None => w
                | Some x => vt_clone S w x
                end
  end.

(** What the future does with `cx.waker()`, a reference to the Waker made from
    the C++ pointer [x], and with others. *)
Definition run_action (S : scripts) (x : nat) (w : world) (a : action) : world :=
  andthen w (fun w =>
  match a with
  | BClone => vt_clone S w x
  | BWake => waker_wake_by_ref w x
  | BHeld h => run_hop S w h
  end).

(** One poll of the future [i] with the waker [x]; returns what it returned. *)
Definition poll_future (S : scripts) (w : world) (i x : nat) : world * option nat :=
  let k := w_polls w i in
  let w := count_poll (emit w (EvPoll i)) i in
  (fold_left (run_action S x) (s_acts S i k) w, s_res S i k).

(** dyn_erased_future.rs:109-124 makes a Waker from the pointer and wraps it in
    ManuallyDrop, so leaving the function does not run the fourth entry of the
    vtable (dyn_future.rs:47-52 is the same). *)
Definition with_borrowed_waker (w : world) (x : nat) (f : world -> world) : world := f w.

(** ** DynErasedFuture *)

(** dyn_erased_future.h:55-58, the move constructor of [n] from [s]: memcpy of
    the box, then a new pending future is written over the source
    (dyn_erased_future.rs:64-68). *)
Definition erased_move (w : world) (n s : nat) (b : box) : world :=
  set_fut (set_fut w n (Some b)) s (Some FPending).

(** dyn_erased_future.h:63-65 and dyn_erased_future.rs:82-86: drop in place. *)
Definition drop_box (w : world) (b : box) : world :=
  match b with FUser i => emit w (EvDropFut i) | FPending => w end.

Definition erased_destroy (w : world) (n : nat) (b : box) : world :=
  set_fut (drop_box w b) n None.

(** generate_function.rs:709-727: the thunk writes the new DynErasedFuture in a
    Slot, and AssumeInitAndTakeValue (slot.h:92-106; no UnsafeRelocateTag
    constructor) moves it to the result and destroys the one in the slot. *)
Definition erased_create (w : world) (n : nat) : world :=
  let slot := FUser (w_nf w) in
  let w := new_fut w in
  let w := set_fut w n (Some slot) in
  drop_box w FPending.

(** dyn_erased_future.h:82-85, dyn_erased_future.rs:109-124, erased_future.rs:44-55. *)
Definition erased_poll (S : scripts) (w : world) (n : nat) (b : box) (x out : nat) : world :=
  match b with
  | FPending => emit w (EvRes n false)
  | FUser i =>
      let '(w, r) := poll_future S w i x in
      with_borrowed_waker w x (fun w =>
      andthen w (fun w =>
      match r with
      | None => emit w (EvRes n false)
      | Some v => emit (if s_zst S i then w else emit w (EvOut out v)) (EvRes n true)
      end))
  end.

(** ** DynFuture *)

(** dropping an Option<Pin<Box<dyn Future>>> *)
Definition drop_opt (w : world) (o : option nat) : world :=
  match o with Some i => emit w (EvDropFut i) | None => w end.

(** dyn_future.rs:30-32, `self.0 = None`. *)
Definition dyn_discard (w : world) (n : nat) (o : option nat) : world :=
  set_dyn (drop_opt w o) n (Some None).

(** dyn_future.rs:46-63; the panic of `expect` cannot unwind out of the thunk. *)
Definition dyn_poll (S : scripts) (w : world) (n : nat) (o : option nat) (x : nat) : world :=
  match o with
  | None => stop w Aborted
  | Some i =>
      let '(w, r) := poll_future S w i x in
      with_borrowed_waker w x (fun w =>
      andthen w (fun w =>
      match r with
      | None => emit w (EvDynRes n false)
      | Some _ => emit (dyn_discard w n (Some i)) (EvDynRes n true)
      end))
  end.

(** cc_bindings_from_rs/generate_bindings/lib.rs:1662-1680: DynFuture is Default
    and Unpin, so its C++ move operations swap. *)
Definition dyn_move_assign (w : world) (n : nat) (a : option nat) (s : nat) (b : option nat) : world :=
  set_dyn (set_dyn w n (Some b)) s (Some a).

Inductive op :=
  | ECreate (n : nat) | EMove (n s : nat) | EPoll (n j out : nat) | EDestroy (n : nat)
  | DDefault (n : nat) | DFrom (n : nat) | DMove (n s : nat) | DAssign (n s : nat)
  | DPoll (n j : nat) | DDiscard (n : nat) | DDone (n : nat) | DInto (n : nat) | DDestroy (n : nat)
  | WNew (t : nat) | WRelease (j : nat) | WRust (h : hop).

Definition step (S : scripts) (w : world) (o : op) : world :=
  andthen w (fun w =>
  match o with
  | ECreate n => match w_futs w n with None => erased_create w n | _ => w end
  | EMove n s => match w_futs w n, w_futs w s with
                 | None, Some b => erased_move w n s b
                 | _, _ => w end
  | EPoll n j out => match w_futs w n, nth_error (w_cpp w) j with
                     | Some b, Some x => erased_poll S w n b x out
                     | _, _ => w end
  | EDestroy n => match w_futs w n with Some b => erased_destroy w n b | None => w end
  | DDefault n => match w_dyns w n with None => set_dyn w n (Some None) | _ => w end
  | DFrom n => match w_dyns w n with
               | None => set_dyn (new_fut w) n (Some (Some (w_nf w)))
               | _ => w end
  | DMove n s => match w_dyns w n, w_dyns w s with
                 | None, Some b => dyn_move_assign w n None s b
                 | _, _ => w end
  | DAssign n s => match w_dyns w n, w_dyns w s with
                   | Some a, Some b => dyn_move_assign w n a s b
                   | _, _ => w end
  | DPoll n j => match w_dyns w n, nth_error (w_cpp w) j with
                 | Some b, Some x => dyn_poll S w n b x
                 | _, _ => w end
  | DDiscard n => match w_dyns w n with Some b => dyn_discard w n b | None => w end
  | DDone n => match w_dyns w n with
               | Some b => emit w (EvDone n (match b with None => true | _ => false end))
               | None => w end
  | DInto n => match w_dyns w n with            (* dyn_future.rs:68-72, consumes the DynFuture *)
               | Some (Some i) => set_dyn (emit w (EvToRust i)) n None
               | Some None => set_dyn w n None
               | None => w end
  | DDestroy n => match w_dyns w n with Some b => set_dyn (drop_opt w b) n None | None => w end
  | WNew t => let x := w_nw w in let w := new_waker w t in set_cpp w (w_cpp w ++ [x])
  | WRelease j => match nth_error (w_cpp w) j with
                  | Some x => waker_destroy (set_cpp w (remove_nth j (w_cpp w))) x
                  | None => w end
  | WRust h => run_hop S w h
  end).

Definition run (S : scripts) (ops : list op) : world := fold_left (step S) ops init.
