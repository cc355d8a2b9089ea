(** Model of [cc_std::std::vector<T>]: support/cc_std_impl/vector.rs (cited as vector.rs), with [StdAllocator]
    (support/cc_std_impl/cpp_std_allocator.rs, std_allocator.h) and Rust's [Vec<T, StdAllocator>], which vector.rs delegates to.

    Memory is explicit: cells, live allocations and ASan's poisoned cells.  Touching a cell outside a live allocation,
    reading an uninitialised or poisoned cell, or freeing something that is not a live allocation of exactly that size is
    [Ub].  Addresses count elements, not bytes: [T] has a non-zero size (for zero-sized types [len] panics in
    [offset_from]).  Allocation never fails; where an allocation lands, and how much [Vec] over-allocates, is a choice
    supplied with each operation; a choice the allocator or [Vec] cannot make is [Impossible]. *)
From Coq Require Import List Arith Lia Bool Permutation.
Import ListNotations.

Inductive res (A : Type) : Type :=
| Ok (a : A)
| Ub                 (* undefined behaviour *)
| Impossible.        (* not an execution: the choices are not available, or the program would not compile *)
Arguments Ok {A}. Arguments Ub {A}. Arguments Impossible {A}.

Definition bind {A B} (r : res A) (k : A -> res B) : res B :=
  match r with Ok a => k a | Ub => Ub | Impossible => Impossible end.
Notation "x <- e ; k" := (bind e (fun x => k)) (at level 61, e at next level, right associativity).
Notation "' p <- e ; k" := (bind e (fun x => let p := x in k)) (at level 61, p pattern, e at next level, right associativity).

Section Model.
Context {E : Type}.
(** [T::clone]; a C++ copy constructor or a Rust [Clone]. *)
Variable clone : E -> E.
(** Whether the program is built with AddressSanitizer ([cfg(sanitize = "address")]). *)
Variable asan : bool.
(** Which of the two layouts is in use ([feature = "len_capacity_encoding"], vector.rs:47-70). *)
Variable len_capacity_encoding : bool.

(** * Memory *)

Record world := World {
  mem : nat -> option E;            (* initialised cells *)
  blocks : list (nat * nat);        (* live allocations: address, number of cells *)
  poisoned : nat -> bool;           (* ASan shadow *)
  dropped : list E                  (* elements whose destructor has run, in order *)
}.

Definition in_block (b : nat * nat) (a : nat) : bool := (fst b <=? a) && (a <? fst b + snd b).
Definition allocated (w : world) (a : nat) : bool := existsb (fun b => in_block b a) (blocks w).

Definition null : nat := 0.
(** [NonNull::dangling()]: what [Vec] holds when it has not allocated. *)
Definition dangling : nat := 1.

Definition read (w : world) (a : nat) : res E :=
  if allocated w a && negb (poisoned w a)
  then match mem w a with Some x => Ok x | None => Ub end
  else Ub.

Definition upd {A} (f : nat -> A) (a : nat) (x : A) : nat -> A := fun b => if b =? a then x else f b.

Definition write (w : world) (a : nat) (x : E) : res world :=
  if allocated w a && negb (poisoned w a)
  then Ok (World (upd (mem w) a (Some x)) (blocks w) (poisoned w) (dropped w))
  else Ub.

Fixpoint read_all (w : world) (a n : nat) : res (list E) :=
  match n with
  | 0 => Ok []
  | S n' => x <- read w a; xs <- read_all w (S a) n'; Ok (x :: xs)
  end.

Fixpoint write_all (w : world) (a : nat) (xs : list E) : res world :=
  match xs with
  | [] => Ok w
  | x :: xs' => w1 <- write w a x; write_all w1 (S a) xs'
  end.

Definition drop_all (w : world) (xs : list E) : world :=
  World (mem w) (blocks w) (poisoned w) (dropped w ++ xs).

(** [StdAllocator::alloc] = [cpp_new] = [operator new] (cpp_std_allocator.rs:43-45, std_allocator.h:18-24): a fresh,
    uninitialised allocation of [c > 0] cells at [a], not null and overlapping no live allocation. *)
Definition overlaps (b b' : nat * nat) : bool :=
  (fst b <? fst b' + snd b') && (fst b' <? fst b + snd b).
Definition alloc (w : world) (a c : nat) : res world :=
  if (0 <? c) && negb (a =? null) && negb (existsb (overlaps (a, c)) (blocks w))
  then Ok (World (fun b => if in_block (a, c) b then None else mem w b)
                 ((a, c) :: blocks w)
                 (fun b => if in_block (a, c) b then false else poisoned w b)
                 (dropped w))
  else Impossible.

(** [StdAllocator::dealloc] = [cpp_delete] = sized [operator delete] (cpp_std_allocator.rs:46-50, std_allocator.h:28-42). *)
Definition block_eqb (b b' : nat * nat) : bool := (fst b =? fst b') && (snd b =? snd b').
Fixpoint remove_block (b : nat * nat) (bs : list (nat * nat)) : list (nat * nat) :=
  match bs with
  | [] => []
  | b' :: bs' => if block_eqb b b' then bs' else b' :: remove_block b bs'
  end.
Definition dealloc (w : world) (a c : nat) : res world :=
  if existsb (block_eqb (a, c)) (blocks w)
  then Ok (World (fun b => if in_block (a, c) b then None else mem w b)
                 (remove_block (a, c) (blocks w)) (poisoned w) (dropped w))
  else Ub.

(** [__sanitizer_annotate_contiguous_container(beg, end, old_mid, new_mid)] (vector.rs:29-34): what lies between the
    two mids changes state; mids outside the container are reported as an error. *)
Definition annotate (w : world) (beg end_ old_mid new_mid : nat) : res world :=
  if (beg <=? old_mid) && (old_mid <=? end_) && (beg <=? new_mid) && (new_mid <=? end_)
  then Ok (World (mem w) (blocks w)
             (fun a => if (old_mid <=? a) && (a <? new_mid) then false
                       else if (new_mid <=? a) && (a <? old_mid) then true
                       else poisoned w a)
             (dropped w))
  else Ub.

(** * Rust's [Vec<T, StdAllocator>], from its documentation *)

Record vec := Vec { vptr : nat; vlen : nat; vcap : nat }.

(** The mutating methods vector.rs calls. *)
Inductive vecop :=
| VReserve (n : nat) | VReserveExact (n : nat) | VTryReserve (n : nat) | VTryReserveExact (n : nat)
| VShrinkToFit | VShrinkTo (n : nat)
| VPush (x : E) | VInsert (i : nat) (x : E)
| VSwapRemove (i : nat) | VRemove (i : nat) | VPop | VClear | VTruncate (n : nat)
| VDedupBy (same : E -> E -> bool) | VRetain (f : E -> bool)
| VExtend (xs : list E) | VExtendFromSlice (xs : list E) | VExtendFromWithin (i j : nat)
| VResize (n : nat) (x : E) | VResizeWith (n : nat) (f : nat -> E).

Fixpoint set_nth (n : nat) (x : E) (l : list E) : list E :=
  match l, n with
  | [], _ => []
  | _ :: l', 0 => x :: l'
  | y :: l', S n' => y :: set_nth n' x l'
  end.

(** [dedup_by]: [same] is asked about a candidate and the last element kept. *)
Fixpoint dedup_from (same : E -> E -> bool) (kept : E) (l : list E) : list E * list E :=
  match l with
  | [] => ([], [])
  | x :: l' =>
      if same x kept then let '(k, d) := dedup_from same kept l' in (k, x :: d)
      else let '(k, d) := dedup_from same x l' in (x :: k, d)
  end.

(** New contents, elements dropped, elements returned; [None]: the index check panics, before anything is changed. *)
Definition std_vec (op : vecop) (xs : list E) : option (list E * list E * list E) :=
  match op with
  | VReserve _ | VReserveExact _ | VTryReserve _ | VTryReserveExact _ | VShrinkToFit | VShrinkTo _ => Some (xs, [], [])
  | VPush x => Some (xs ++ [x], [], [])
  | VInsert i x => if i <=? length xs then Some (firstn i xs ++ x :: skipn i xs, [], []) else None
  | VSwapRemove i =>
      match nth_error xs i with
      | None => None
      | Some x => Some (removelast (set_nth i (last xs x) xs), [], [x])
      end
  | VRemove i =>
      match nth_error xs i with
      | None => None
      | Some x => Some (firstn i xs ++ skipn (S i) xs, [], [x])
      end
  | VPop => match xs with [] => Some ([], [], []) | x :: _ => Some (removelast xs, [], [last xs x]) end
  | VClear => Some ([], xs, [])
  | VTruncate n => Some (firstn n xs, skipn n xs, [])
  | VDedupBy same =>
      match xs with
      | [] => Some ([], [], [])
      | x :: l => let '(k, d) := dedup_from same x l in Some (x :: k, d, [])
      end
  | VRetain f => Some (filter f xs, filter (fun x => negb (f x)) xs, [])
  | VExtend ys => Some (xs ++ ys, [], [])
  | VExtendFromSlice ys => Some (xs ++ map clone ys, [], [])
  | VExtendFromWithin i j =>
      if (i <=? j) && (j <=? length xs) then Some (xs ++ map clone (firstn (j - i) (skipn i xs)), [], []) else None
  | VResize n x =>
      if n <=? length xs then Some (firstn n xs, skipn n xs ++ [x], [])
      else Some (xs ++ repeat (clone x) (n - length xs - 1) ++ [x], [], [])
  | VResizeWith n f =>
      if n <=? length xs then Some (firstn n xs, skipn n xs, [])
      else Some (xs ++ map f (seq 0 (n - length xs)), [], [])
  end.

(** The capacity the method promises. *)
Definition promised (op : vecop) (xs : list E) : nat :=
  match op with
  | VReserve n | VReserveExact n | VTryReserve n | VTryReserveExact n => length xs + n
  | _ => 0
  end.

(** [None]: the buffer stays; [Some (a, c)]: the elements move to a new buffer of [c] cells at [a]. *)
Definition choice := option (nat * nat).

Definition free_buffer (w : world) (v : vec) : res world :=
  if vcap v =? 0 then Ok w else dealloc w (vptr v) (vcap v).

(** Store [ys] as the contents of [v], in place or in a new buffer, given that at least [need] cells are promised. *)
Definition vec_store (w : world) (v : vec) (ys : list E) (need : nat) (ch : choice) : res (world * vec) :=
  match ch with
  | None =>
      if (length ys <=? vcap v) && (need <=? vcap v)
      then w1 <- write_all w (vptr v) ys; Ok (w1, Vec (vptr v) (length ys) (vcap v))
      else Impossible
  | Some (a, c) =>
      if (length ys <=? c) && (need <=? c)
      then if c =? 0
           then w1 <- free_buffer w v; Ok (w1, Vec dangling 0 0)
           else w1 <- alloc w a c; w2 <- write_all w1 a ys; w3 <- free_buffer w2 v; Ok (w3, Vec a (length ys) c)
      else Impossible
  end.

Inductive outcome := Done (r : list E) | Panicked.

(** When an index check panics, unwinding drops the argument that was moved in. *)
Definition moved_in (op : vecop) : list E := match op with VInsert _ x => [x] | _ => [] end.

(** One method call on a [Vec]. *)
Definition vec_call (op : vecop) (ch : choice) (w : world) (v : vec) : res (world * vec * outcome) :=
  xs <- read_all w (vptr v) (vlen v);
  match std_vec op xs with
  | None => Ok (drop_all w (moved_in op), v, Panicked)
  | Some (ys, ds, r) =>
      '(w1, v1) <- vec_store w v ys (promised op xs) ch;
      Ok (drop_all w1 ds, v1, Done r)
  end.

(** [Vec::extend] with an iterator that panics after yielding [ys]: what was yielded has been pushed by then. *)
Definition vec_extend_then_panic (ys : list E) (ch : choice) (w : world) (v : vec) : res (world * vec * outcome) :=
  xs <- read_all w (vptr v) (vlen v);
  '(w1, v1) <- vec_store w v (xs ++ ys) 0 ch;
  Ok (w1, v1, Panicked).

(** [Vec::new_in] and [Vec::with_capacity_in] followed by filling in [ys]. *)
Definition vec_new : vec := Vec dangling 0 0.

(** Dropping a [Vec]: elements, then the buffer. *)
Definition vec_drop (w : world) (v : vec) : res world :=
  xs <- read_all w (vptr v) (vlen v);
  free_buffer (drop_all w xs) v.

(** * vector.rs *)

(** vector.rs:49-54 and 63-70. *)
Inductive vector :=
| Pointers (begin end_ capacity_end : nat)
| Lengths (begin len capacity : nat).

Definition begin_ (s : vector) : nat := match s with Pointers b _ _ => b | Lengths b _ _ => b end.

(** vector.rs:73-86 [new]. *)
Definition new : vector :=
  if len_capacity_encoding then Lengths null 0 0 else Pointers null null null.

(** vector.rs:88-103 [len]; [offset_from] of a smaller pointer makes [try_into] panic, which never happens below because
    [end] is set from [begin] by adding. *)
Definition len (s : vector) : nat := match s with Pointers b e _ => e - b | Lengths _ l _ => l end.
(** vector.rs:105-107. *)
Definition is_empty (s : vector) : bool := len s =? 0.
(** vector.rs:109-123 [capacity]. *)
Definition capacity (s : vector) : nat := match s with Pointers b _ c => c - b | Lengths _ _ c => c end.
(** vector.rs:125-134 [end]. *)
Definition end_ (s : vector) : nat := match s with Pointers _ e _ => e | Lengths b l _ => b + l end.
(** vector.rs:136-145 [capacity_end]. *)
Definition capacity_end (s : vector) : nat := match s with Pointers _ _ c => c | Lengths b _ c => b + c end.

(** vector.rs:173-190. *)
Definition set_begin_len_capacity (begin l c : nat) : vector :=
  let begin := if c =? 0 then null else begin in
  if len_capacity_encoding then Lengths begin l c else Pointers begin (begin + l) (begin + c).

(** vector.rs:228-230, 236-276. *)
Definition asan_poison_tail (w : world) (s : vector) : res world :=
  if asan then annotate w (begin_ s) (capacity_end s) (capacity_end s) (end_ s) else Ok w.

(** vector.rs:232-234, 278-291. *)
Definition asan_unpoison_tail (w : world) (s : vector) : res world :=
  if asan then annotate w (begin_ s) (capacity_end s) (end_ s) (capacity_end s) else Ok w.

(** vector.rs:216-226 [set_len]. *)
Definition set_len (w : world) (s : vector) (l : nat) : res (world * vector) :=
  let s1 := match s with Lengths b _ c => Lengths b l c | Pointers b _ c => Pointers b (b + l) c end in
  w1 <- asan_poison_tail w s1;
  Ok (w1, s1).

(** vector.rs:661-671 [create_vec_from_raw_parts]. *)
Definition create_vec_from_raw_parts (begin l c : nat) : vec :=
  if begin =? null then vec_new else Vec begin l c.

(** vector.rs:296-312 [mutate_self_as_vec].  When the closure panics, the statements after it do not run; the [Vec] is
    wrapped in [ManuallyDrop], so unwinding does not drop it either. *)
Definition mutate_self_as_vec (w : world) (s : vector) (mutate_self : world -> vec -> res (world * vec * outcome))
  : res (world * vector * outcome) :=
  w1 <- asan_unpoison_tail w s;
  '(w2, v, out) <- mutate_self w1 (create_vec_from_raw_parts (begin_ s) (len s) (capacity s));
  match out with
  | Panicked => Ok (w2, s, Panicked)
  | Done r =>
      let s1 := set_begin_len_capacity (vptr v) (vlen v) (vcap v) in
      w3 <- asan_poison_tail w2 s1;
      Ok (w3, s1, Done r)
  end.

(** The methods that are one call of [mutate_self_as_vec]. *)
Inductive method :=
| Reserve (n : nat) | ReserveExact (n : nat) | TryReserve (n : nat) | TryReserveExact (n : nat)
| ShrinkToFit | ShrinkTo (n : nat)
| Push (x : E) | Insert (i : nat) (x : E)
| SwapRemove (i : nat) | Remove (i : nat) | Pop | Clear | Truncate (n : nat)
| DedupBy (same : E -> E -> bool) | Retain (f : E -> bool)
| Extend (xs : list E) | ExtendFromSlice (xs : list E) | ExtendFromWithin (i j : nat)
| Resize (n : nat) (x : E) | ResizeWith (n : nat) (f : nat -> E).

(** vector.rs:315-407, 458-478, 482-484 ([dedup], [dedup_by_key] and [retain_mut] are the same calls with other
    closures), 609-615 ([Extend]). *)
Definition method_call (m : method) : vecop :=
  match m with
  | Reserve n => VReserve n | ReserveExact n => VReserveExact n
  | TryReserve n => VTryReserve n | TryReserveExact n => VTryReserveExact n
  | ShrinkToFit => VShrinkToFit | ShrinkTo n => VShrinkTo n
  | Push x => VPush x | Insert i x => VInsert i x
  | SwapRemove i => VSwapRemove i | Remove i => VRemove i | Pop => VPop | Clear => VClear | Truncate n => VTruncate n
  | DedupBy f => VDedupBy f | Retain f => VRetain f
  | Extend xs => VExtend xs | ExtendFromSlice xs => VExtendFromSlice xs | ExtendFromWithin i j => VExtendFromWithin i j
  | Resize n x => VResize n x | ResizeWith n f => VResizeWith n f
  end.

Definition call (w : world) (s : vector) (m : method) (ch : choice) : res (world * vector * outcome) :=
  mutate_self_as_vec w s (vec_call (method_call m) ch).

(** vector.rs:354-356 [append], with [Vec::append] moving all elements; the other [Vec] keeps its buffer. *)
Definition vec_append (ch : choice) (w : world) (v other : vec) : res (world * vec * vec) :=
  xs <- read_all w (vptr v) (vlen v);
  ys <- read_all w (vptr other) (vlen other);
  '(w1, v1) <- vec_store w v (xs ++ ys) 0 ch;
  Ok (w1, v1, Vec (vptr other) 0 (vcap other)).

Definition append (w : world) (s other : vector) (ch : choice) : res (world * vector * vector) :=
  w1 <- asan_unpoison_tail w s;
  let v := create_vec_from_raw_parts (begin_ s) (len s) (capacity s) in
  w2 <- asan_unpoison_tail w1 other;
  let ov := create_vec_from_raw_parts (begin_ other) (len other) (capacity other) in
  '(w3, v1, ov1) <- vec_append ch w2 v ov;
  let other1 := set_begin_len_capacity (vptr ov1) (vlen ov1) (vcap ov1) in
  w4 <- asan_poison_tail w3 other1;
  let s1 := set_begin_len_capacity (vptr v1) (vlen v1) (vcap v1) in
  w5 <- asan_poison_tail w4 s1;
  Ok (w5, s1, other1).

(** vector.rs:838-855 [From<Vec<T, StdAllocator>>]. *)
Definition from_std_vec (w : world) (v : vec) : res (world * vector) :=
  let s := set_begin_len_capacity (vptr v) (vlen v) (vcap v) in
  w1 <- asan_poison_tail w s;
  Ok (w1, s).

(** vector.rs:409-411 [split_off]; [Vec::split_off] checks the index, copies the tail into a new [Vec] with room for it, and
    shortens itself. *)
Definition vec_split_off (at_ : nat) (ch : choice) (w : world) (v : vec) : res (world * vec * option vec) :=
  xs <- read_all w (vptr v) (vlen v);
  if at_ <=? length xs
  then '(w1, other) <- vec_store w vec_new (skipn at_ xs) 0 ch;
       Ok (w1, Vec (vptr v) at_ (vcap v), Some other)
  else Ok (w, v, None).

Definition split_off (w : world) (s : vector) (at_ : nat) (ch : choice) : res (world * vector * option vector) :=
  w1 <- asan_unpoison_tail w s;
  '(w2, v, other) <- vec_split_off at_ ch w1 (create_vec_from_raw_parts (begin_ s) (len s) (capacity s));
  match other with
  | None => Ok (w2, s, None)
  | Some o =>
      let s1 := set_begin_len_capacity (vptr v) (vlen v) (vcap v) in
      w3 <- asan_poison_tail w2 s1;
      '(w4, s2) <- from_std_vec w3 o;
      Ok (w4, s1, Some s2)
  end.

(** vector.rs:535-549 [Drop]. *)
Definition drop (w : world) (s : vector) : res world :=
  if negb (begin_ s =? null)
  then w1 <- asan_unpoison_tail w s; vec_drop w1 (Vec (begin_ s) (len s) (capacity s))
  else Ok w.

(** vector.rs:414-426 [into_vec]; [self] is dropped at the end.  The copied elements are the result; the [Vec] they are
    copied to lives on Rust's heap. *)
Definition into_vec (w : world) (s : vector) : res (world * list E) :=
  xs <- read_all w (begin_ s) (len s);
  w1 <- asan_unpoison_tail w s;
  '(w2, s1) <- set_len w1 s 0;
  w3 <- drop w2 s1;
  Ok (w3, xs).

(** vector.rs:436-444 [as_slice]: the elements seen. *)
Definition as_slice (w : world) (s : vector) : res (list E) :=
  if begin_ s =? null then Ok [] else read_all w (begin_ s) (len s).

(** vector.rs:564-573 [Deref]. *)
Definition deref (w : world) (s : vector) : res (list E) :=
  if is_empty s then Ok [] else read_all w (begin_ s) (len s).

(** vector.rs:585-594 [to_vec]. *)
Definition to_vec (w : world) (s : vector) : res (list E) :=
  xs <- deref w s; Ok (map clone xs).

(** vector.rs:446-454, 558-562 [v[i] = x] through [as_mut_slice]; [None]: the index panics, dropping [x].  Otherwise the
    old element is dropped. *)
Definition assign_index (w : world) (s : vector) (i : nat) (x : E) : res (world * option unit) :=
  if begin_ s =? null then Ok (drop_all w [x], None)
  else if i <? len s
       then old <- read w (begin_ s + i);
            w1 <- write w (begin_ s + i) x;
            Ok (drop_all w1 [old], Some tt)
       else Ok (drop_all w [x], None).

(** vector.rs:596-607 [clone]; the temporary [Vec] is only read, and never dropped. *)
Definition clone_vector (w : world) (s : vector) (ch : choice) : res (world * vector) :=
  let v := create_vec_from_raw_parts (begin_ s) (len s) (capacity s) in
  xs <- read_all w (vptr v) (vlen v);
  '(w1, v1) <- vec_store w vec_new (map clone xs) 0 ch;
  from_std_vec w1 v1.

(** vector.rs:339-343 [with_capacity]. *)
Definition with_capacity (w : world) (n : nat) (ch : choice) : res (world * vector * outcome) :=
  call w new (Reserve n) ch.

(** vector.rs:824-836 [From<Vec<T>>] (elements moved) and 857-875 [From<&[T]>], [From<&mut [T]>] (elements cloned). *)
Definition from_elements (w : world) (xs : list E) (m : method) (ch1 ch2 : choice) : res (world * vector) :=
  '(w1, s1, _) <- with_capacity w (length xs) ch1;
  '(w2, s2, _) <- call w1 s1 m ch2;
  Ok (w2, s2).
Definition from_vec (w : world) (xs : list E) (ch1 ch2 : choice) := from_elements w xs (Extend xs) ch1 ch2.
Definition from_slice (w : world) (xs : list E) (ch1 ch2 : choice) := from_elements w xs (ExtendFromSlice xs) ch1 ch2.

(** vector.rs:808-816 [FromIterator]. *)
Definition from_iter (w : world) (xs : list E) (ch : choice) : res (world * vector * outcome) :=
  call w new (Extend xs) ch.

(** vector.rs:192-226: the documented protocol for filling the tail: [prepare_to_write_into_tail], write [ys] behind the
    last element, [set_len]. *)
Definition fill_tail (w : world) (s : vector) (ys : list E) : res (world * vector) :=
  w1 <- asan_unpoison_tail w s;
  w2 <- write_all w1 (end_ s) ys;
  set_len w2 s (len s + length ys).

(** [alloc::vec::IntoIter]: the buffer and the elements not yet yielded. *)
Record into_iter := IntoIter { ibuf : nat; icap : nat; istart : nat; icount : nat }.

(** vector.rs:776-788 [into_iter]; [self] is forgotten. *)
Definition vector_into_iter (w : world) (s : vector) : res (world * into_iter) :=
  w1 <- asan_unpoison_tail w s;
  let v := create_vec_from_raw_parts (begin_ s) (len s) (capacity s) in
  Ok (w1, IntoIter (vptr v) (vcap v) (vptr v) (vlen v)).

(** vector.rs:711-713 [next], 749-752 [next_back], 725-727 [count] (which drops the iterator). *)
Definition iter_next (w : world) (i : into_iter) : res (into_iter * option E) :=
  match icount i with
  | 0 => Ok (i, None)
  | S n => x <- read w (istart i); Ok (IntoIter (ibuf i) (icap i) (S (istart i)) n, Some x)
  end.
Definition iter_next_back (w : world) (i : into_iter) : res (into_iter * option E) :=
  match icount i with
  | 0 => Ok (i, None)
  | S n => x <- read w (istart i + n); Ok (IntoIter (ibuf i) (icap i) (istart i) n, Some x)
  end.
Definition iter_drop (w : world) (i : into_iter) : res world :=
  xs <- read_all w (istart i) (icount i);
  free_buffer (drop_all w xs) (Vec (ibuf i) 0 (icap i)).
Definition iter_count (w : world) (i : into_iter) : res (world * nat) :=
  w1 <- iter_drop w i; Ok (w1, icount i).

(** C++'s own use of the object: it reads [begin, end), and it may change contents and buffer in any way [std::vector]
    does, allocating with the same allocator, keeping the annotations up to date (__annotate_delete, __annotate_new), and
    leaving null pointers when it has no buffer.  [ds]: the elements it destroys. *)
Definition cpp_read (w : world) (s : vector) : res (list E) := read_all w (begin_ s) (end_ s - begin_ s).
Definition cpp_mutate (w : world) (s : vector) (ys ds : list E) (ch : choice) : res (world * vector) :=
  w1 <- asan_unpoison_tail w s;
  '(w2, v) <- vec_store w1 (Vec (begin_ s) (end_ s - begin_ s) (capacity_end s - begin_ s)) ys 0 ch;
  let s1 := set_begin_len_capacity (vptr v) (vlen v) (vcap v) in
  w3 <- asan_poison_tail (drop_all w2 ds) s1;
  Ok (w3, s1).

(** * Programs *)

Inductive object := OVector (s : vector) | OIter (i : into_iter).

Record state := State { st_world : world; st_objs : list (nat * object) }.

Definition init : state := State (World (fun _ => None) [] (fun _ => false) []) [].

Inductive op :=
| ONew (v : nat)
| OWithCapacity (v n : nat) (ch : choice)
| OFromVec (v : nat) (xs : list E) (ch1 ch2 : choice)
| OFromSlice (v : nat) (xs : list E) (ch1 ch2 : choice)
| OFromIter (v : nat) (xs : list E) (ch : choice)
| OCall (v : nat) (m : method) (ch : choice)
| OAppend (v other : nat) (ch : choice)
| OSplitOff (v at_ u : nat) (ch : choice)
| OAssign (v i : nat) (x : E)
| OSlice (v : nat)
| ODeref (v : nat)
| OToVec (v : nat)
| OSizes (v : nat)
| OClone (v u : nat) (ch : choice)
| OFillTail (v : nat) (ys : list E)
| OIntoVec (v : nat)
| OIntoIter (v i : nat)
| ONext (i : nat)
| ONextBack (i : nat)
| OCount (i : nat)
| ODrop (v : nat)
| OCppRead (v : nat)
| OCppMutate (v : nat) (ys ds : list E) (ch : choice).

Inductive obs :=
| Unit
| Panic
| Elems (xs : list E)
| Item (x : option E)
| Number (n : nat)
| Sizes (l c : nat) (empty : bool).

Definition obs_of_outcome (o : outcome) : obs := match o with Done r => Elems r | Panicked => Panic end.

Fixpoint lookup {A} (l : list (nat * A)) (k : nat) : option A :=
  match l with [] => None | (k', x) :: l' => if k =? k' then Some x else lookup l' k end.
Fixpoint remove_key {A} (l : list (nat * A)) (k : nat) : list (nat * A) :=
  match l with [] => [] | (k', x) :: l' => if k =? k' then l' else (k', x) :: remove_key l' k end.

(** Using a variable that is not live, or creating one that is, does not compile. *)
Definition take_vector (st : state) (v : nat) : res (vector * list (nat * object)) :=
  match lookup (st_objs st) v with
  | Some (OVector s) => Ok (s, remove_key (st_objs st) v)
  | _ => Impossible
  end.
Definition take_iter (st : state) (v : nat) : res (into_iter * list (nat * object)) :=
  match lookup (st_objs st) v with
  | Some (OIter i) => Ok (i, remove_key (st_objs st) v)
  | _ => Impossible
  end.
Definition put (w : world) (v : nat) (o : object) (l : list (nat * object)) (r : obs) : res (state * obs) :=
  match lookup l v with
  | None => Ok (State w ((v, o) :: l), r)
  | Some _ => Impossible
  end.

Definition step (st : state) (o : op) : res (state * obs) :=
  let w := st_world st in
  let objs := st_objs st in
  match o with
  | ONew v => put w v (OVector new) objs Unit
  | OWithCapacity v n ch =>
      '(w1, s, out) <- with_capacity w n ch; put w1 v (OVector s) objs (obs_of_outcome out)
  | OFromVec v xs ch1 ch2 => '(w1, s) <- from_vec w xs ch1 ch2; put w1 v (OVector s) objs Unit
  | OFromSlice v xs ch1 ch2 => '(w1, s) <- from_slice w xs ch1 ch2; put w1 v (OVector s) objs Unit
  | OFromIter v xs ch => '(w1, s, out) <- from_iter w xs ch; put w1 v (OVector s) objs (obs_of_outcome out)
  | OCall v m ch =>
      '(s, rest) <- take_vector st v;
      '(w1, s1, out) <- call w s m ch;
      put w1 v (OVector s1) rest (obs_of_outcome out)
  | OAppend v u ch =>
      '(s, rest) <- take_vector st v;
      '(other, rest2) <- take_vector (State w rest) u;
      '(w1, s1, other1) <- append w s other ch;
      put w1 v (OVector s1) ((u, OVector other1) :: rest2) Unit
  | OSplitOff v at_ u ch =>
      '(s, rest) <- take_vector st v;
      '(w1, s1, r) <- split_off w s at_ ch;
      match r with
      | None => put w1 v (OVector s1) rest Panic
      | Some s2 =>
          '(st1, _) <- put w1 v (OVector s1) rest Unit;
          put w1 u (OVector s2) (st_objs st1) Unit
      end
  | OAssign v i x =>
      '(s, rest) <- take_vector st v;
      '(w1, r) <- assign_index w s i x;
      put w1 v (OVector s) rest (match r with Some _ => Unit | None => Panic end)
  | OSlice v => '(s, _) <- take_vector st v; xs <- as_slice w s; Ok (st, Elems xs)
  | ODeref v => '(s, _) <- take_vector st v; xs <- deref w s; Ok (st, Elems xs)
  | OToVec v => '(s, _) <- take_vector st v; xs <- to_vec w s; Ok (st, Elems xs)
  | OSizes v => '(s, _) <- take_vector st v; Ok (st, Sizes (len s) (capacity s) (is_empty s))
  | OClone v u ch =>
      '(s, _) <- take_vector st v;
      '(w1, s1) <- clone_vector w s ch;
      put w1 u (OVector s1) objs Unit
  | OFillTail v ys =>
      '(s, rest) <- take_vector st v;
      (* the contract of set_len (vector.rs:202-203) *)
      if len s + length ys <=? capacity s
      then '(w1, s1) <- fill_tail w s ys; put w1 v (OVector s1) rest Unit
      else Impossible
  | OIntoVec v =>
      '(s, rest) <- take_vector st v;
      '(w1, xs) <- into_vec w s;
      Ok (State w1 rest, Elems xs)
  | OIntoIter v i =>
      '(s, rest) <- take_vector st v;
      '(w1, it) <- vector_into_iter w s;
      put w1 i (OIter it) rest Unit
  | ONext i => '(it, rest) <- take_iter st i; '(it1, x) <- iter_next w it; put w i (OIter it1) rest (Item x)
  | ONextBack i => '(it, rest) <- take_iter st i; '(it1, x) <- iter_next_back w it; put w i (OIter it1) rest (Item x)
  | OCount i => '(it, rest) <- take_iter st i; '(w1, n) <- iter_count w it; Ok (State w1 rest, Number n)
  | ODrop v =>
      match lookup objs v with
      | Some (OVector s) => w1 <- drop w s; Ok (State w1 (remove_key objs v), Unit)
      | Some (OIter it) => w1 <- iter_drop w it; Ok (State w1 (remove_key objs v), Unit)
      | None => Impossible
      end
  | OCppRead v => '(s, _) <- take_vector st v; xs <- cpp_read w s; Ok (st, Elems xs)
  | OCppMutate v ys ds ch =>
      '(s, rest) <- take_vector st v;
      '(w1, s1) <- cpp_mutate w s ys ds ch;
      put w1 v (OVector s1) rest Unit
  end.

Fixpoint run (st : state) (l : list op) : res (state * list obs) :=
  match l with
  | [] => Ok (st, [])
  | o :: l' => '(st1, r) <- step st o; '(st2, rs) <- run st1 l'; Ok (st2, r :: rs)
  end.

End Model.
