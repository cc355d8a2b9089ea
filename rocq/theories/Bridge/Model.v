(** Model of [support/crubit_bridge_rust/src/bridge.rs] and its C++ twin
    [support/bridge.h]. *)
From Coq Require Import List Arith Bool.
From Coq Require Import Strings.Byte.
Import ListNotations.

(** Schemas.  [Pair] exists on the C++ side only (bridge.h:287-307); Rust writes it as
    a 2-tuple.  [BoxedAbi] (bridge.h:331-347, heap allocation) is not modelled. *)
Inductive abi :=
| Transmute (size : nat)        (* TransmuteAbi<T>, size_of::<T>() = size *)
| Tuple (fields : list abi)
| Opt (inner : abi).

(** Values: a transmuted value is its object representation. *)
Inductive value :=
| VBytes (bs : list byte)
| VTuple (vs : list value)
| VNone
| VSome (v : value).

(** Memory and the operations on it. *)
Definition memory := nat -> byte.
Definition store (m : memory) (a : nat) (bs : list byte) : memory :=
  fun x => if (a <=? x) && (x <? a + length bs) then nth (x - a) bs x00 else m x.
Definition load (m : memory) (a n : nat) : list byte := map (fun i => m (a + i)) (seq 0 n).

Inductive err :=
| Underflow      (* remaining_bytes -= SIZE below zero: panic in debug, wrap in release *)
| BadBool        (* a byte other than 0/1 read as bool: undefined behaviour *)
| IllTyped.      (* value does not belong to the schema: excluded by the type checker *)
Inductive res (T : Type) := Ok (x : T) | Err (e : err).
Arguments Ok {T} x.
Arguments Err {T} e.

Definition true_byte := x01.
Definition false_byte := x00.

(** ** Rust *)

(** bridge.rs:247 (transmute), 278 (tuples), 337 (Option). *)
Fixpoint rs_size (a : abi) : nat :=
  match a with
  | Transmute n => n
  | Tuple l => fold_left (fun acc x => acc + x) (map rs_size l) 0
  | Opt a => 1 + rs_size a
  end.

(** bridge.rs:249-258 [TransmuteAbi::encode]; encoder = (remaining_bytes, memory),
    buffer at address [buf]. *)
Definition rs_put (buf n : nat) (bs : list byte) (e : nat * memory) : res (nat * memory) :=
  let '(rem, m) := e in
  if rem <? n then Err Underflow
  else let rem' := rem - n in Ok (rem', store m (buf + rem') bs).
(** bridge.rs:260-267 [TransmuteAbi::decode]. *)
Definition rs_get (buf n : nat) (rem : nat) (m : memory) : res (list byte * nat) :=
  if rem <? n then Err Underflow
  else let rem' := rem - n in Ok (load m (buf + rem') n, rem').

(** bridge.rs:249-258, 280-287, 339-346 [encode]. *)
Fixpoint rs_enc (buf : nat) (a : abi) (v : value) (e : nat * memory) {struct a} : res (nat * memory) :=
  match a, v with
  | Transmute n, VBytes bs => if length bs =? n then rs_put buf n bs e else Err IllTyped
  | Tuple l, VTuple vs =>
      (fix go (l : list abi) (vs : list value) (e : nat * memory) : res (nat * memory) :=
         match l, vs with
         | [], [] => Ok e
         | a :: l', v :: vs' => match rs_enc buf a v e with Ok e' => go l' vs' e' | Err x => Err x end
         | _, _ => Err IllTyped
         end) l vs e
  | Opt a, VSome v => match rs_put buf 1 [true_byte] e with Ok e' => rs_enc buf a v e' | Err x => Err x end
  | Opt _, VNone => rs_put buf 1 [false_byte] e
  | _, _ => Err IllTyped
  end.

(** bridge.rs:260-267, 289-302, 348-358 [decode]. *)
Fixpoint rs_dec (buf : nat) (a : abi) (m : memory) (rem : nat) {struct a} : res (value * nat) :=
  match a with
  | Transmute n => match rs_get buf n rem m with Ok (bs, rem') => Ok (VBytes bs, rem') | Err x => Err x end
  | Tuple l =>
      match (fix go (l : list abi) (rem : nat) : res (list value * nat) :=
         match l with
         | [] => Ok ([], rem)
         | a :: l' =>
             match rs_dec buf a m rem with
             | Ok (v, rem1) => match go l' rem1 with Ok (vs, rem2) => Ok (v :: vs, rem2) | Err x => Err x end
             | Err x => Err x
             end
         end) l rem with
      | Ok (vs, rem') => Ok (VTuple vs, rem')
      | Err x => Err x
      end
  | Opt a =>
      match rs_get buf 1 rem m with
      | Ok ([b], rem1) =>
          if Byte.eqb b true_byte then
            match rs_dec buf a m rem1 with Ok (v, rem2) => Ok (VSome v, rem2) | Err x => Err x end
          else if Byte.eqb b false_byte then Ok (VNone, rem1)
          else Err BadBool
      | Ok _ => Err IllTyped
      | Err x => Err x
      end
  end.

(** bridge.rs:374-376 and 386-389: [internal::encode] / [internal::decode]. *)
Definition rs_encode (a : abi) (buf : nat) (m : memory) (v : value) : res (nat * memory) :=
  rs_enc buf a v (rs_size a, m).
Definition rs_decode (a : abi) (buf : nat) (m : memory) : res (value * nat) :=
  rs_dec buf a m (rs_size a).

(** ** C++ *)

(** bridge.h:241, 264, 293, 312 [kSize]: left fold [(0 + ... + kSize)]. *)
Fixpoint cc_size (a : abi) : nat :=
  match a with
  | Transmute n => n
  | Tuple l => fold_left Nat.add (map cc_size l) 0
  | Opt a => 1 + cc_size a
  end.

(** bridge.h:198-201 and 220-223 [Next]: returns the new position.  (size_t
    arithmetic wraps silently in C++; the model flags it.) *)
Definition cc_next (rem n : nat) : res nat := if n <=? rem then Ok (rem - n) else Err Underflow.

(** bridge.h:242-250, 265-275, 313-320 [Encode].  The comma fold at 271 evaluates
    left to right. *)
Fixpoint cc_enc (buf : nat) (a : abi) (v : value) (e : nat * memory) {struct a} : res (nat * memory) :=
  match a, v with
  | Transmute n, VBytes bs =>
      if length bs =? n then
        match cc_next (fst e) n with
        | Ok r => Ok (r, store (snd e) (buf + r) bs)
        | Err x => Err x
        end
      else Err IllTyped
  | Tuple l, VTuple vs =>
      (fix go (l : list abi) (vs : list value) (e : nat * memory) : res (nat * memory) :=
         match l, vs with
         | [], [] => Ok e
         | a :: l', v :: vs' => match cc_enc buf a v e with Ok e' => go l' vs' e' | Err x => Err x end
         | _, _ => Err IllTyped
         end) l vs e
  | Opt a, VSome v =>
      match cc_next (fst e) 1 with
      | Ok r => cc_enc buf a v (r, store (snd e) (buf + r) [true_byte])
      | Err x => Err x
      end
  | Opt _, VNone =>
      match cc_next (fst e) 1 with
      | Ok r => Ok (r, store (snd e) (buf + r) [false_byte])
      | Err x => Err x
      end
  | _, _ => Err IllTyped
  end.

(** bridge.h:251-257, 276-282, 321-326 [Decode].  The tuple elements are arguments
    of one call of [std::make_tuple] (line 279), whose evaluation order C++ leaves
    unspecified: [ltr = true] left to right (Clang on Itanium ABIs), [false] right to
    left. *)
Fixpoint cc_dec (ltr : bool) (buf : nat) (a : abi) (m : memory) (rem : nat) {struct a} : res (value * nat) :=
  match a with
  | Transmute n => match cc_next rem n with Ok r => Ok (VBytes (load m (buf + r) n), r) | Err x => Err x end
  | Tuple l =>
      match (fix go (l : list abi) (rem : nat) : res (list value * nat) :=
         match l with
         | [] => Ok ([], rem)
         | a :: l' =>
             if ltr then
               match cc_dec ltr buf a m rem with
               | Ok (v, rem1) => match go l' rem1 with Ok (vs, rem2) => Ok (v :: vs, rem2) | Err x => Err x end
               | Err x => Err x
               end
             else
               match go l' rem with
               | Ok (vs, rem1) => match cc_dec ltr buf a m rem1 with Ok (v, rem2) => Ok (v :: vs, rem2) | Err x => Err x end
               | Err x => Err x
               end
         end) l rem with
      | Ok (vs, rem') => Ok (VTuple vs, rem')
      | Err x => Err x
      end
  | Opt a =>
      match cc_next rem 1 with
      | Ok r =>
          if Byte.eqb (m (buf + r)) true_byte then
            match cc_dec ltr buf a m r with Ok (v, rem2) => Ok (VSome v, rem2) | Err x => Err x end
          else if Byte.eqb (m (buf + r)) false_byte then Ok (VNone, r)
          else Err BadBool
      | Err x => Err x
      end
  end.

(** bridge.h:351-363 [internal::Encode] / [internal::Decode]. *)
Definition cc_encode (a : abi) (buf : nat) (m : memory) (v : value) : res (nat * memory) :=
  cc_enc buf a v (cc_size a, m).
Definition cc_decode (ltr : bool) (a : abi) (buf : nat) (m : memory) : res (value * nat) :=
  cc_dec ltr buf a m (cc_size a).
