(** Model of [cc_std::std::shared_ptr<T>]: support/cc_std_impl/shared_ptr.rs (cited as shared_ptr.rs), its control block
    (std_allocator.h:44-121, cpp_std_allocator.rs:58-101) and the reference counting of libc++ it is built on
    ([std::__shared_weak_count]: not in /repo, modelled from libc++'s memory.cpp, where both counts are stored minus one).

    Any number of threads, in either language, use the pointers at the same time.  A call that performs several atomic
    accesses is a [task] that is advanced one access at a time, in any order relative to all other tasks and calls; memory
    is sequentially consistent.  Touching a freed control block or a destroyed value is [Ub].

    Simplifications: a value owns a fixed list of [shared_ptr]s (no interior mutability); the pointers owned by a value
    that is being destroyed are dropped as independent tasks (more schedules than the code has, where they precede the
    release of the weak count); counts do not overflow; allocation does not fail. *)
From Coq Require Import List Arith ZArith Bool.
Import ListNotations.
Local Open Scope Z_scope.

Inductive res (A : Type) : Type :=
| Ok (a : A)
| Ub                 (* undefined behaviour *)
| Impossible.        (* not an execution: no such variable, address in use, ... *)
Arguments Ok {A}. Arguments Ub {A}. Arguments Impossible {A}.

Definition bind {A B} (r : res A) (k : A -> res B) : res B :=
  match r with Ok a => k a | Ub => Ub | Impossible => Impossible end.
Notation "x <- e ; k" := (bind e (fun x => k)) (at level 61, e at next level, right associativity).
Notation "' p <- e ; k" := (bind e (fun x => let p := x in k)) (at level 61, p pattern, e at next level, right associativity).

(** * Data *)

(** Where a pointer points: into the value kept by the control block at [c], or to something that lives forever. *)
Inductive pointee := Null | Into (c : nat) | Static.

(** shared_ptr.rs:50-55; also what [std::weak_ptr] consists of. *)
Record handle := Handle { ptr : pointee; cntrl : option nat }.
Definition null_handle : handle := Handle Null None.

(** shared_ptr.rs:336-350 [SharedInner]: the counts (owners minus one), and the value, here the pointers it owns, until it is
    destroyed.  [pid] names the value; [born] is the time of creation (a label, not used by the code). *)
Record block := Block { strong : Z; weak : Z; value : option (list handle); pid : nat; born : nat }.

Definition heap := list (nat * block).

(** A call in progress, by what it does next. *)
Inductive task :=
| TUnref (c : nat)                            (* decrement the strong count *)
| TDestroy (c : nat)                          (* __on_zero_shared *)
| TWeakLoad (c : nat)                         (* __release_weak: load the weak count *)
| TWeakDec (c : nat)                          (* __release_weak: decrement it *)
| TDelete (c : nat)                           (* __on_zero_shared_weak *)
| TLockLoad (h : handle) (c : nat)            (* lock(): load the strong count; [h] is the weak_ptr *)
| TLockCas (h : handle) (c : nat) (expected : Z).

Inductive event := Destroyed (pid : nat) | Freed (pid : nat).

Record state := State {
  mem : heap;
  vars : list handle;          (* live shared_ptr variables, in either language *)
  raws : list handle;          (* parts returned by release / into_raw_parts *)
  weaks : list handle;         (* live weak_ptr variables (C++) *)
  tasks : list task;
  lost : list handle;          (* parts that no variable holds any more *)
  log : list event;
  clock : nat
}.

Definition init : state := State [] [] [] [] [] [] [] 0.

Fixpoint get (m : heap) (c : nat) : option block :=
  match m with [] => None | (k, b) :: m' => if Nat.eqb c k then Some b else get m' c end.
Fixpoint set (m : heap) (c : nat) (b : block) : heap :=
  match m with [] => [] | (k, b') :: m' => if Nat.eqb c k then (k, b) :: m' else (k, b') :: set m' c b end.
Fixpoint remove (m : heap) (c : nat) : heap :=
  match m with [] => [] | (k, b) :: m' => if Nat.eqb c k then m' else (k, b) :: remove m' c end.

Fixpoint take {A} (n : nat) (l : list A) : option (A * list A) :=
  match l, n with
  | [], _ => None
  | x :: l', O => Some (x, l')
  | x :: l', S n' => match take n' l' with Some (y, r) => Some (y, x :: r) | None => None end
  end.
Definition take_res {A} (n : nat) (l : list A) : res (A * list A) :=
  match take n l with Some r => Ok r | None => Impossible end.

Definition at_block {A} (m : heap) (c : nat) (k : block -> res A) : res A :=
  match get m c with Some b => k b | None => Ub end.

(** * std_allocator.h and libc++ *)

(** std_allocator.h:54-58 [shared_ptr_ref]; [__add_shared]: one atomic increment. *)
Definition shared_ptr_ref (m : heap) (cntrl : option nat) : res heap :=
  match cntrl with
  | None => Ok m
  | Some c => at_block m c (fun b => Ok (set m c (Block (strong b + 1) (weak b) (value b) (pid b) (born b))))
  end.

(** std_allocator.h:60-64 [shared_ptr_unref]: starts [__release_shared]. *)
Definition shared_ptr_unref (cntrl : option nat) : list task :=
  match cntrl with None => [] | Some c => [TUnref c] end.

(** std_allocator.h:66-71 [shared_ptr_use_count]; [use_count] is one atomic load, plus one. *)
Definition shared_ptr_use_count (m : heap) (cntrl : option nat) : res Z :=
  match cntrl with
  | None => Ok 0
  | Some c => at_block m c (fun b => Ok (strong b + 1))
  end.

(** [__add_weak]. *)
Definition add_weak (m : heap) (cntrl : option nat) : res heap :=
  match cntrl with
  | None => Ok m
  | Some c => at_block m c (fun b => Ok (set m c (Block (strong b) (weak b + 1) (value b) (pid b) (born b))))
  end.
Definition release_weak (cntrl : option nat) : list task :=
  match cntrl with None => [] | Some c => [TWeakLoad c] end.

(** std_allocator.h:74-83 [FunctionToCall]. *)
Inductive function_to_call := kDestroyValue | kDeleteControlBlock.

(** shared_ptr.rs:375-399 [SharedInner::deleter], called through cpp_std_allocator.rs:81-101, which reads the function
    pointer from the control block.  Destroying a value drops the pointers it owns. *)
Definition deleter (m : heap) (f : function_to_call) (c : nat) : res (heap * list task * list event) :=
  at_block m c (fun b =>
    match f with
    | kDestroyValue =>
        match value b with
        | None => Ub
        | Some owned =>
            Ok (set m c (Block (strong b) (weak b) None (pid b) (born b)),
                flat_map (fun h => shared_ptr_unref (cntrl h)) owned, [Destroyed (pid b)])
        end
    | kDeleteControlBlock => Ok (remove m c, [], [Freed (pid b)])
    end).

(** One atomic access of a call in progress: the new memory, what the call does next (and the calls it makes), events, and
    the variables it gives to the caller: a [shared_ptr], and the borrowed [weak_ptr] back. *)
Record effect := Effect { e_mem : heap; e_tasks : list task; e_events : list event; e_vars : list handle; e_weaks : list handle }.

Definition lock_try (m : heap) (h : handle) (c : nat) (owners : Z) : effect :=
  if owners =? -1 then Effect m [] [] [null_handle] [h] else Effect m [TLockCas h c owners] [] [] [].

Definition advance (m : heap) (t : task) : res effect :=
  match t with
  | TUnref c =>
      (* __shared_count::__release_shared: decrement; at -1, __on_zero_shared *)
      at_block m c (fun b =>
        let m1 := set m c (Block (strong b - 1) (weak b) (value b) (pid b) (born b)) in
        Ok (Effect m1 (if strong b - 1 =? -1 then [TDestroy c] else []) [] [] []))
  | TDestroy c =>
      (* std_allocator.h:108-111, then __shared_weak_count::__release_shared goes on to __release_weak *)
      '(m1, ts, ev) <- deleter m kDestroyValue c; Ok (Effect m1 (ts ++ [TWeakLoad c]) ev [] [])
  | TWeakLoad c =>
      (* "the very common case": no other reference is left *)
      at_block m c (fun b => Ok (Effect m (if weak b =? 0 then [TDelete c] else [TWeakDec c]) [] [] []))
  | TWeakDec c =>
      at_block m c (fun b =>
        let m1 := set m c (Block (strong b) (weak b - 1) (value b) (pid b) (born b)) in
        Ok (Effect m1 (if weak b - 1 =? -1 then [TDelete c] else []) [] [] []))
  | TDelete c =>
      (* std_allocator.h:113-116 *)
      '(m1, ts, ev) <- deleter m kDeleteControlBlock c; Ok (Effect m1 ts ev [] [])
  | TLockLoad h c => at_block m c (fun b => Ok (lock_try m h c (strong b)))
  | TLockCas h c expected =>
      at_block m c (fun b =>
        if strong b =? expected
        then Ok (Effect (set m c (Block (expected + 1) (weak b) (value b) (pid b) (born b))) [] [] [h] [h])
        else Ok (lock_try m h c (strong b)))
  end.

(** * shared_ptr.rs *)

(** shared_ptr.rs:69-84 [new]; [Emplace] (std_allocator.h:97-99) constructs both counts as zero.  [a]: the address the
    allocation gets. *)
Definition new (m : heap) (a p now : nat) (owned : list handle) : res (heap * handle) :=
  match get m a with
  | Some _ => Impossible
  | None => Ok ((a, Block 0 0 (Some owned) p now) :: m, Handle (Into a) (Some a))
  end.

(** A reference into live memory. *)
Definition valid (m : heap) (p : pointee) : res unit :=
  match p with
  | Null => Ub
  | Static => Ok tt
  | Into c => at_block m c (fun b => match value b with Some _ => Ok tt | None => Ub end)
  end.

(** The closures passed to [project]: from the value, go through the pointers it owns ([path]: which one at each level), to
    the object behind the last. *)
Fixpoint follow (m : heap) (p : pointee) (path : list nat) : res pointee :=
  _ <- valid m p;
  match path with
  | [] => Ok p
  | i :: path' =>
      match p with
      | Into c =>
          at_block m c (fun b =>
            match value b with
            | None => Ub
            | Some owned =>
                match nth_error owned i with
                | None => Impossible
                | Some h => match ptr h with Null => Impossible | q => follow m q path' end
                end
            end)
      | _ => Impossible
      end
  end.

(** shared_ptr.rs:258-263 [release]: the parts, and what is left in the variable; 267-269 [into_raw_parts] drops that (a null
    pointer: no effect). *)
Definition release (h : handle) : handle * handle := (h, null_handle).

(** shared_ptr.rs:133-147 [project_unchecked] ([project], 95-101, is the same).  [None]: the closure goes to a static. *)
Definition project (m : heap) (h : handle) (f : option (list nat)) : res handle :=
  let '(parts, _) := release h in
  match ptr parts with
  | Null => Ok (Handle Null (cntrl parts))
  | p =>
      _ <- valid m p;
      match f with
      | None => Ok (Handle Static (cntrl parts))
      | Some path => q <- follow m p path; Ok (Handle q (cntrl parts))
      end
  end.

(** shared_ptr.rs:153-190 [from_box], [from_pinned_box], [from_arc]: the value is the [Box] or [Arc]; the object it holds lives
    as long as it does, so the projected pointer is again a pointer into the value of [a]. *)
Definition from_box (m : heap) (a p now : nat) (owned : list handle) : res (heap * handle) :=
  '(m1, h) <- new m a p now owned;
  h1 <- project m1 h (Some []);
  Ok (m1, h1).

(** shared_ptr.rs:206-238 [from_ptr_and_deleter]; [target]: what the raw pointer points to: [Null], or an object that lives
    until the deleter, run by the value's destructor, is called ([Into a]).  The closure [|d| &*d.ptr] dereferences it. *)
Definition from_ptr_and_deleter (m : heap) (a p now : nat) (is_null : bool) : res (heap * handle) :=
  '(m1, h) <- new m a p now [];
  _ <- valid m1 (ptr h);
  let target := if is_null then Null else Into a in
  _ <- valid m1 target;
  Ok (m1, Handle target (cntrl h)).

(** shared_ptr.rs:316-326 [clone]. *)
Definition clone (m : heap) (h : handle) : res (heap * handle) :=
  m1 <- shared_ptr_ref m (cntrl h); Ok (m1, Handle (ptr h) (cntrl h)).

(** shared_ptr.rs:279-283 [try_as_ref], and a use of the reference. *)
Definition try_as_ref (m : heap) (h : handle) : res bool :=
  match ptr h with Null => Ok false | p => _ <- valid m p; Ok true end.

(** shared_ptr.rs:298-302 [owner_equal]. *)
Definition owner_equal (h h' : handle) : bool :=
  match cntrl h, cntrl h' with
  | None, None => true
  | Some c, Some c' => Nat.eqb c c'
  | _, _ => false
  end.

(** * Programs: any number of threads *)

Inductive label :=
| LNew (a p : nat) (owned : list nat)       (* new(value), moving variables into the value *)
| LFromBox (a p : nat) (owned : list nat)
| LFromPtrAndDeleter (a p : nat) (is_null : bool)
| LDefault                                  (* a null pointer *)
| LClone (i : nat) | LDrop (i : nat)
| LProject (i : nat) (f : option (list nat))
| LProjectPanics (i : nat)                  (* the closure panics *)
| LRelease (i : nat) | LFromRawParts (i : nat)
| LTryAsRef (i : nat) | LUseCount (i : nat) | LOwnerEqual (i j : nat)
| LWeakNew (i : nat) | LWeakCopy (i : nat) | LWeakDrop (i : nat) | LWeakLock (i : nat)
| LTask (i : nat).

Inductive obs := Unit | NonNull (b : bool) | Count (n : Z) | Same (b : bool).

Fixpoint take_many (is : list nat) (l : list handle) : res (list handle * list handle) :=
  match is with
  | [] => Ok ([], l)
  | i :: is' => '(h, l1) <- take_res i l; '(hs, l2) <- take_many is' l1; Ok (h :: hs, l2)
  end.

Definition step (s : state) (l : label) : res (state * obs) :=
  let '(State m vs rs ws ts lo ev now) := s in
  match l with
  | LNew a p is =>
      '(owned, vs1) <- take_many is vs;
      '(m1, h) <- new m a p now owned;
      Ok (State m1 (h :: vs1) rs ws ts lo ev (S now), Unit)
  | LFromBox a p is =>
      '(owned, vs1) <- take_many is vs;
      '(m1, h) <- from_box m a p now owned;
      Ok (State m1 (h :: vs1) rs ws ts lo ev (S now), Unit)
  | LFromPtrAndDeleter a p z =>
      '(m1, h) <- from_ptr_and_deleter m a p now z;
      Ok (State m1 (h :: vs) rs ws ts lo ev (S now), Unit)
  | LDefault => Ok (State m (null_handle :: vs) rs ws ts lo ev now, Unit)
  | LClone i =>
      '(h, _) <- take_res i vs; '(m1, h1) <- clone m h; Ok (State m1 (h1 :: vs) rs ws ts lo ev now, Unit)
  | LDrop i =>
      (* shared_ptr.rs:328-338 *)
      '(h, vs1) <- take_res i vs; Ok (State m vs1 rs ws (shared_ptr_unref (cntrl h) ++ ts) lo ev now, Unit)
  | LProject i f =>
      '(h, vs1) <- take_res i vs; h1 <- project m h f; Ok (State m (h1 :: vs1) rs ws ts lo ev now, Unit)
  | LProjectPanics i =>
      (* the parts are plain pointers by then: unwinding drops nothing *)
      '(h, vs1) <- take_res i vs;
      match ptr h with
      | Null => Impossible
      | p => _ <- valid m p; let '(parts, _) := release h in Ok (State m vs1 rs ws ts (parts :: lo) ev now, Unit)
      end
  | LRelease i =>
      '(h, vs1) <- take_res i vs; let '(parts, remains) := release h in
      Ok (State m (remains :: vs1) (parts :: rs) ws ts lo ev now, Unit)
  | LFromRawParts i =>
      (* shared_ptr.rs:240-242 *)
      '(h, rs1) <- take_res i rs; Ok (State m (h :: vs) rs1 ws ts lo ev now, Unit)
  | LTryAsRef i => '(h, _) <- take_res i vs; b <- try_as_ref m h; Ok (s, NonNull b)
  | LUseCount i => '(h, _) <- take_res i vs; n <- shared_ptr_use_count m (cntrl h); Ok (s, Count n)
  | LOwnerEqual i j => '(h, _) <- take_res i vs; '(h', _) <- take_res j vs; Ok (s, Same (owner_equal h h'))
  | LWeakNew i =>
      '(h, _) <- take_res i vs; m1 <- add_weak m (cntrl h); Ok (State m1 vs rs (h :: ws) ts lo ev now, Unit)
  | LWeakCopy i =>
      '(h, _) <- take_res i ws; m1 <- add_weak m (cntrl h); Ok (State m1 vs rs (h :: ws) ts lo ev now, Unit)
  | LWeakDrop i =>
      '(h, ws1) <- take_res i ws; Ok (State m vs rs ws1 (release_weak (cntrl h) ++ ts) lo ev now, Unit)
  | LWeakLock i =>
      '(h, ws1) <- take_res i ws;
      match cntrl h with
      | None => Ok (State m (null_handle :: vs) rs ws ts lo ev now, Unit)
      | Some c => Ok (State m vs rs ws1 (TLockLoad h c :: ts) lo ev now, Unit)
      end
  | LTask i =>
      '(t, ts1) <- take_res i ts;
      e <- advance m t;
      Ok (State (e_mem e) (e_vars e ++ vs) rs (e_weaks e ++ ws) (e_tasks e ++ ts1) lo (ev ++ e_events e) now, Unit)
  end.

Fixpoint run (s : state) (ls : list label) : res (state * list obs) :=
  match ls with
  | [] => Ok (s, [])
  | l :: ls' => '(s1, r) <- step s l; '(s2, rs) <- run s1 ls'; Ok (s2, r :: rs)
  end.
