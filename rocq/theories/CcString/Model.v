(** * support/cc_std_impl/{string,string_view,unique_ptr,slice_ptr}.rs,
      conversion_function_helpers.h, support/bridge.h (BoxedAbi): Rust's owned and borrowed
      C++ strings and [std::unique_ptr]. *)
From Coq Require Import List Arith Bool.
Import ListNotations.

Notation bytes := (list nat).
Notation addr := nat.

Definition up {A : Type} (f : nat -> option A) (n : nat) (v : option A) : nat -> option A :=
  fun m => if Nat.eqb m n then v else f m.

(** ** Owned strings *)

(** The heap of [std::string] objects made with [new std::string] ([None]: not allocated
    or deleted), the Rust variables of type [string_wrapper] (string.rs:40-42: a non-null
    pointer), the [std::string] objects that are not on this heap (C++ variables,
    parameters, results, and Rust's [new_string] places, string.rs:378-387), and the
    buffers of the bridge that hold an encoded string. *)
Record world := World {
  heap : addr -> option bytes;
  next : addr;
  rs : nat -> option addr;
  cc : nat -> option bytes;
  wire : nat -> option addr }.

Definition start : world :=
  World (fun _ => None) 0 (fun _ => None) (fun _ => None) (fun _ => None).

Section Moved.
  (** What [std::string(std::move(s))] leaves in [s]: unspecified by C++. *)
  Variable leftover : bytes -> bytes.

  (** conversion_function_helpers.h:36-38: [new std::string(buffer, size)]. *)
  Definition string_create (w : world) (b : bytes) : addr * world :=
    (next w, World (up (heap w) (next w) (Some b)) (S (next w)) (rs w) (cc w) (wire w)).

  (** h:12-22 [StringGetSize]/[StringGetData]: reading a deleted string is undefined. *)
  Definition string_read (w : world) (a : addr) : option bytes := heap w a.

  (** h:61 [StringDelete]: [delete]; deleting twice is undefined. *)
  Definition string_delete (w : world) (a : addr) : option world :=
    match heap w a with
    | Some _ => Some (World (up (heap w) a None) (next w) (rs w) (cc w) (wire w))
    | None => None
    end.

  Definition set_rs (w : world) (v : nat) (o : option addr) : world :=
    World (heap w) (next w) (up (rs w) v o) (cc w) (wire w).
  Definition set_cc (w : world) (c : nat) (o : option bytes) : world :=
    World (heap w) (next w) (rs w) (up (cc w) c o) (wire w).
  Definition set_wire (w : world) (s : nat) (o : option addr) : world :=
    World (heap w) (next w) (rs w) (cc w) (up (wire w) s o).
  Definition set_heap (w : world) (a : addr) (o : option bytes) : world :=
    World (up (heap w) a o) (next w) (rs w) (cc w) (wire w).

  (** What Rust and C++ do with strings.  Variables are numbers. *)
  Inductive op :=
  | RFrom (v : nat) (b : bytes)      (* From<&[u8]> and the From impls that call it, Default *)
  | RClone (v w : nat)               (* w = v.clone() *)
  | RMove (v w : nat)                (* w = v *)
  | RDrop (v : nat)
  | RBytes (v : nat)                 (* as_slice, to_vec, deref: an output *)
  | REq (v w : nat)                  (* v == w: an output *)
  | RWrite (v : nat) (b : bytes)     (* C++ assigns through as_mut_void_ptr *)
  | REncode (v s : nat)              (* BoxedCppStringAbi::encode *)
  | RDecode (s v : nat)              (* BoxedCppStringAbi::decode *)
  | CEncode (c s : nat)              (* crubit::BoxedAbi<std::string>::Encode *)
  | CDecode (s c : nat)              (* crubit::BoxedAbi<std::string>::Decode *)
  | RReturn (v c : nat)              (* thunk result: rust_string_to_cpp_string, then v is dropped *)
  | CPass (c v : nat)                (* thunk parameter: cpp_string_to_rust_string *)
  | CNew (c : nat) (b : bytes)       (* std::string c(b); new_string::ctor_new(bytes) *)
  | CCopy (c d : nat)                (* std::string d(c); ctor_new(&c) *)
  | CMove (c d : nat)                (* std::string d(std::move(c)); ctor_new(RvalueReference) *)
  | CDestroy (c : nat)               (* end of scope; PinnedDrop *)
  | CBytes (c : nat)                 (* reading: an output *)
  | CWrite (c : nat) (b : bytes).    (* assignment; through as_mut_slice when lengths agree *)

  Inductive output := Nothing | Bytes (b : bytes) | Bool (b : bool).

  Fixpoint bytes_eqb (a b : bytes) : bool :=
    match a, b with
    | [], [] => true
    | x :: a', y :: b' => Nat.eqb x y && bytes_eqb a' b'
    | _, _ => false
    end.

  (** A step.  [None]: undefined behaviour, or a program that does not compile. *)
  Definition step (w : world) (o : op) : option (world * output) :=
    match o with
    | RFrom v b =>                                             (* string.rs:188-200 *)
        match rs w v with
        | Some _ => None
        | None => let (a, w1) := string_create w b in Some (set_rs w1 v (Some a), Nothing)
        end
    | RClone v u =>                                            (* string.rs:140-153, h:55-57 *)
        match rs w v, rs w u with
        | Some a, None =>
            match string_read w a with
            | Some b => let (a', w1) := string_create w b in Some (set_rs w1 u (Some a'), Nothing)
            | None => None
            end
        | _, _ => None
        end
    | RMove v u =>
        match rs w v, rs w u with
        | Some a, None => Some (set_rs (set_rs w v None) u (Some a), Nothing)
        | _, _ => None
        end
    | RDrop v =>                                               (* string.rs:155-163 *)
        match rs w v with
        | Some a =>
            match string_delete w a with
            | Some w1 => Some (set_rs w1 v None, Nothing)
            | None => None
            end
        | None => None
        end
    | RBytes v =>                                              (* string.rs:202-224 *)
        match rs w v with
        | Some a => match string_read w a with Some b => Some (w, Bytes b) | None => None end
        | None => None
        end
    | REq v u =>                                               (* string.rs:119-130, h:61-64 *)
        match rs w v, rs w u with
        | Some a, Some a' =>
            match string_read w a, string_read w a' with
            | Some b, Some b' => Some (w, Bool (bytes_eqb b b'))
            | _, _ => None
            end
        | _, _ => None
        end
    | RWrite v b =>                                            (* string.rs:106-109 *)
        match rs w v with
        | Some a =>
            match heap w a with Some _ => Some (set_heap w a (Some b), Nothing) | None => None end
        | None => None
        end
    | REncode v s =>                                           (* string.rs:279-281 *)
        match rs w v, wire w s with
        | Some a, None => Some (set_wire (set_rs w v None) s (Some a), Nothing)
        | _, _ => None
        end
    | RDecode s v =>                                           (* string.rs:283-291 *)
        match wire w s, rs w v with
        | Some a, None => Some (set_rs (set_wire w s None) v (Some a), Nothing)
        | _, _ => None
        end
    | CEncode c s =>                                           (* bridge.h:336-339 *)
        match cc w c, wire w s with
        | Some b, None =>
            let (a, w1) := string_create w b in
            (* the by-value parameter [value] was moved from, and is destroyed *)
            Some (set_wire (set_cc w1 c None) s (Some a), Nothing)
        | _, _ => None
        end
    | CDecode s c =>                                           (* bridge.h:340-346 *)
        match wire w s, cc w c with
        | Some a, None =>
            match string_read w a with
            | Some b =>
                match string_delete (set_heap w a (Some (leftover b))) a with
                | Some w1 => Some (set_cc (set_wire w1 s None) c (Some b), Nothing)
                | None => None
                end
            | None => None
            end
        | _, _ => None
        end
    | RReturn v c =>                (* string.rs:296-308, h:31-34, generate_function_thunk.rs:454-466 *)
        match rs w v, cc w c with
        | Some a, None =>
            match string_read w a with
            | Some b =>
                let w1 := set_cc (set_heap w a (Some (leftover b))) c (Some b) in
                match string_delete w1 a with
                | Some w2 => Some (set_rs w2 v None, Nothing)
                | None => None
                end
            | None => None
            end
        | _, _ => None
        end
    | CPass c v =>                  (* string.rs:310-323, h:47-49, generate_function_thunk.rs:275-294 *)
        match cc w c, rs w v with
        | Some b, None =>
            let (a, w1) := string_create w b in
            Some (set_rs (set_cc w1 c (Some (leftover b))) v (Some a), Nothing)
        | _, _ => None
        end
    | CNew c b =>                                              (* string.rs:400-431, h:66-71 *)
        match cc w c with Some _ => None | None => Some (set_cc w c (Some b), Nothing) end
    | CCopy c d =>                                             (* string.rs:442-457, h:73-75 *)
        match cc w c, cc w d with
        | Some b, None => Some (set_cc w d (Some b), Nothing)
        | _, _ => None
        end
    | CMove c d =>                                             (* string.rs:459-475, h:31-34 *)
        match cc w c, cc w d with
        | Some b, None => Some (set_cc (set_cc w d (Some b)) c (Some (leftover b)), Nothing)
        | _, _ => None
        end
    | CDestroy c =>                                            (* string.rs:389-398, h:77-79 *)
        match cc w c with Some _ => Some (set_cc w c None, Nothing) | None => None end
    | CBytes c =>                                              (* string.rs:533-543 *)
        match cc w c with Some b => Some (w, Bytes b) | None => None end
    | CWrite c b =>
        match cc w c with Some _ => Some (set_cc w c (Some b), Nothing) | None => None end
    end.

  Fixpoint run (w : world) (l : list op) : option (world * list output) :=
    match l with
    | [] => Some (w, [])
    | o :: r =>
        match step w o with
        | Some (w1, x) => match run w1 r with Some (w2, xs) => Some (w2, x :: xs) | None => None end
        | None => None
        end
    end.
End Moved.

(** ** string_view *)

(** A [raw_string_view]: [__data_] (0 is null) and [__size_]; a Rust slice pointer. *)
Record raw_view := Raw { v_data : nat; v_size : nat }.
Record slice := SlicePtr { s_ptr : nat; s_len : nat }.

(** slice_ptr.rs:11-24 [get_raw_parts]. *)
Definition get_raw_parts (s : slice) : nat * nat := (s_ptr s, s_len s).

(** [NonNull::<u8>::dangling()]. *)
Definition dangling : nat := 1.

(** string_view.rs:381-414 [From<*const [u8]> for raw_string_view]. *)
Definition raw_of_slice (s : slice) : raw_view :=
  let '(p, size) := get_raw_parts s in
  Raw (if Nat.eqb size 0 then 0 else p) size.

(** string_view.rs:290-304 [raw_string_view::len]: [end() - begin()]. *)
Definition raw_len (v : raw_view) : nat := (v_data v + v_size v) - v_data v.

(** string_view.rs:331-347 [From<raw_string_view> for *const [u8]].
    [None]: the debug assertion fails. *)
Definition slice_of_raw (v : raw_view) : option slice :=
  if Nat.eqb (v_data v) 0
  then if Nat.eqb (raw_len v) 0 then Some (SlicePtr dangling (raw_len v)) else None
  else Some (SlicePtr (v_data v) (raw_len v)).

(** ** unique_ptr *)

(** C++ objects created by [new T]: size and alignment they were allocated with, and
    whether the object is still alive (the memory may outlive it). *)
Record cell := Cell { c_size : nat; c_align : nat; c_alive : bool }.

Inductive uevent := Destroyed (a : addr) | Freed (a : addr) (size align : nat).

(** [ptrs] are Rust variables of type [unique_ptr<T>] ([Some None]: null), [raws] are
    owning raw pointers (results of [release], or of C++'s [new]). *)
Record uworld := UWorld {
  cells : addr -> option cell;
  unext : addr;
  ptrs : nat -> option (option addr);
  raws : nat -> option (option addr);
  ulog : list uevent }.

Definition ustart : uworld := UWorld (fun _ => None) 0 (fun _ => None) (fun _ => None) [].

Inductive uop :=
| UNewObject (r : nat)            (* C++: T* r = new T *)
| UNull (r : nat)                 (* T* r = nullptr *)
| UAdopt (r p : nat)              (* p = unique_ptr::new(r), unsafe *)
| URelease (p r : nat)            (* r = p.release() *)
| UMove (p q : nat)
| UGet (p : nat)                  (* p.get(): an output *)
| UUse (p : nat)                  (* as_ref/as_mut/as_pin, and use: an output *)
| UDrop (p : nat)
| UDropPanics (p : nat).          (* the same when T's destructor panics *)

Inductive uoutput := UNothing | UPtr (o : option addr) | UUsed (b : bool).

Section Unique.
  (** [size_of::<T>()], [align_of::<T>()] — and C++'s [sizeof]/[alignof]. *)
  Variable size align : nat.

  Definition uset_ptr (w : uworld) (p : nat) (o : option (option addr)) : uworld :=
    UWorld (cells w) (unext w) (up (ptrs w) p o) (raws w) (ulog w).
  Definition uset_raw (w : uworld) (r : nat) (o : option (option addr)) : uworld :=
    UWorld (cells w) (unext w) (ptrs w) (up (raws w) r o) (ulog w).

  (** [core::ptr::drop_in_place]: undefined unless the object is alive. *)
  Definition drop_in_place (w : uworld) (a : addr) : option uworld :=
    match cells w a with
    | Some (Cell s l true) =>
        Some (UWorld (up (cells w) a (Some (Cell s l false))) (unext w) (ptrs w) (raws w)
                     (ulog w ++ [Destroyed a]))
    | _ => None
    end.

  (** std_allocator.h:28-41 [cpp_delete]: the sized (aligned) [operator delete];
      undefined unless it is given what the memory was allocated with. *)
  Definition cpp_delete (w : uworld) (a : addr) (s l : nat) : option uworld :=
    match cells w a with
    | Some c =>
        if Nat.eqb (c_size c) s && Nat.eqb (c_align c) l
        then Some (UWorld (up (cells w) a None) (unext w) (ptrs w) (raws w)
                          (ulog w ++ [Freed a s l]))
        else None
    | None => None
    end.

  Definition ustep (w : uworld) (o : uop) : option (uworld * uoutput) :=
    match o with
    | UNewObject r =>
        match raws w r with
        | None =>
            Some (UWorld (up (cells w) (unext w) (Some (Cell size align true))) (S (unext w))
                    (ptrs w) (up (raws w) r (Some (Some (unext w)))) (ulog w), UNothing)
        | Some _ => None
        end
    | UNull r =>
        match raws w r with
        | None => Some (uset_raw w r (Some None), UNothing)
        | Some _ => None
        end
    | UAdopt r p =>                                      (* unique_ptr.rs:64-66 *)
        match raws w r, ptrs w p with
        | Some o, None => Some (uset_ptr (uset_raw w r None) p (Some o), UNothing)
        | _, _ => None
        end
    | URelease p r =>                                    (* unique_ptr.rs:85-87 *)
        match ptrs w p, raws w r with
        | Some o, None => Some (uset_ptr (uset_raw w r (Some o)) p (Some None), UNothing)
        | _, _ => None
        end
    | UMove p q =>
        match ptrs w p, ptrs w q with
        | Some o, None => Some (uset_ptr (uset_ptr w p None) q (Some o), UNothing)
        | _, _ => None
        end
    | UGet p =>                                          (* unique_ptr.rs:76-78 *)
        match ptrs w p with Some o => Some (w, UPtr o) | None => None end
    | UUse p =>                                          (* unique_ptr.rs:93-111 *)
        match ptrs w p with
        | Some (Some a) =>
            match cells w a with
            | Some (Cell _ _ true) => Some (w, UUsed true)
            | _ => None
            end
        | Some None => Some (w, UUsed false)
        | None => None
        end
    | UDrop p =>                                         (* unique_ptr.rs:114-128 *)
        match ptrs w p with
        | Some (Some a) =>
            match drop_in_place w a with
            | Some w1 =>
                match cpp_delete w1 a size align with
                | Some w2 => Some (uset_ptr w2 p None, UNothing)
                | None => None
                end
            | None => None
            end
        | Some None => Some (uset_ptr w p None, UNothing)
        | None => None
        end
    | UDropPanics p =>                                   (* the unwinding leaves before line 121 *)
        match ptrs w p with
        | Some (Some a) =>
            match drop_in_place w a with
            | Some w1 => Some (uset_ptr w1 p None, UNothing)
            | None => None
            end
        | _ => None
        end
    end.

  Fixpoint urun (w : uworld) (l : list uop) : option (uworld * list uoutput) :=
    match l with
    | [] => Some (w, [])
    | o :: r =>
        match ustep w o with
        | Some (w1, x) => match urun w1 r with Some (w2, xs) => Some (w2, x :: xs) | None => None end
        | None => None
        end
    end.
End Unique.
