(** What [cc_std::std::vector] promises, on plain lists: a live vector is the list of its elements; a consuming iterator is
    the list of the elements it has still to yield.  [given]: elements that come to be owned by the vectors (moved or cloned
    in); [back]: elements handed to the caller; destroyed elements are appended to a log. *)
From Coq Require Import List Arith Permutation.
Import ListNotations.
From Verif.CcVector Require Import Model.

Section Spec.
Context {E : Type}.
Variable clone : E -> E.

(** ** Methods of Rust's [Vec] *)

(** [dedup_by]: an element that [same] matches with the last one kept is removed. *)
Inductive dedups (same : E -> E -> bool) : E -> list E -> list E -> list E -> Prop :=
| dd_nil last : dedups same last [] [] []
| dd_same last x l k d : same x last = true -> dedups same last l k d -> dedups same last (x :: l) k (x :: d)
| dd_diff last x l k d : same x last = false -> dedups same x l k d -> dedups same last (x :: l) (x :: k) d.

(** [keeps f l k d]: [k] and [d] are the elements of [l], in order, that do and do not satisfy [f]. *)
Inductive keeps (f : E -> bool) : list E -> list E -> list E -> Prop :=
| kp_nil : keeps f [] [] []
| kp_yes x l k d : f x = true -> keeps f l k d -> keeps f (x :: l) (x :: k) d
| kp_no x l k d : f x = false -> keeps f l k d -> keeps f (x :: l) k (x :: d).

(** [does m before after destroyed back given]. *)
Inductive does : method -> list E -> list E -> list E -> list E -> list E -> Prop :=
| d_reserve n xs : does (Reserve n) xs xs [] [] []
| d_reserve_exact n xs : does (ReserveExact n) xs xs [] [] []
| d_try_reserve n xs : does (TryReserve n) xs xs [] [] []
| d_try_reserve_exact n xs : does (TryReserveExact n) xs xs [] [] []
| d_shrink_to_fit xs : does ShrinkToFit xs xs [] [] []
| d_shrink_to n xs : does (ShrinkTo n) xs xs [] [] []
| d_push x xs : does (Push x) xs (xs ++ [x]) [] [] [x]
| d_insert x l r : does (Insert (length l) x) (l ++ r) (l ++ x :: r) [] [] [x]
| d_remove l x r : does (Remove (length l)) (l ++ x :: r) (l ++ r) [] [x] []
| d_swap_remove_last l x : does (SwapRemove (length l)) (l ++ [x]) l [] [x] []
| d_swap_remove l x r z : does (SwapRemove (length l)) (l ++ x :: r ++ [z]) (l ++ z :: r) [] [x] []
| d_pop_empty : does Pop [] [] [] [] []
| d_pop l x : does Pop (l ++ [x]) l [] [x] []
| d_clear xs : does Clear xs [] xs [] []
| d_truncate l r : does (Truncate (length l)) (l ++ r) l r [] []
| d_truncate_longer n xs : length xs <= n -> does (Truncate n) xs xs [] [] []
| d_dedup_nil same : does (DedupBy same) [] [] [] [] []
| d_dedup same x l k d : dedups same x l k d -> does (DedupBy same) (x :: l) (x :: k) d [] []
| d_retain f xs k d : keeps f xs k d -> does (Retain f) xs k d [] []
| d_extend ys xs : does (Extend ys) xs (xs ++ ys) [] [] ys
| d_extend_from_slice ys xs : does (ExtendFromSlice ys) xs (xs ++ map clone ys) [] [] (map clone ys)
| d_extend_from_within l m r :
    does (ExtendFromWithin (length l) (length l + length m)) (l ++ m ++ r) ((l ++ m ++ r) ++ map clone m) [] [] (map clone m)
| d_resize_shorter x l r : does (Resize (length l) x) (l ++ r) l (r ++ [x]) [] [x]
| d_resize_longer x k xs :
    does (Resize (length xs + S k) x) xs (xs ++ repeat (clone x) k ++ [x]) [] [] (repeat (clone x) k ++ [x])
| d_resize_with_shorter f l r : does (ResizeWith (length l) f) (l ++ r) l r [] []
| d_resize_with_longer f k xs :
    does (ResizeWith (length xs + k) f) xs (xs ++ map f (seq 0 k)) [] [] (map f (seq 0 k)).

(** The calls that panic, and what unwinding destroys. *)
Inductive rejects : method -> list E -> list E -> Prop :=
| r_insert i x xs : length xs < i -> rejects (Insert i x) xs [x]
| r_remove i xs : length xs <= i -> rejects (Remove i) xs []
| r_swap_remove i xs : length xs <= i -> rejects (SwapRemove i) xs []
| r_extend_from_within i j xs : j < i \/ length xs < j -> rejects (ExtendFromWithin i j) xs [].

(** ** Programs *)

Inductive kind := KVector | KIter.

(** Live variables, and the log of destroyed elements. *)
Record sstate := SState { live : list (nat * (kind * list E)); destroyed : list E }.

Definition fresh (v : nat) (l : list (nat * (kind * list E))) : Prop := ~ In v (map fst l).

(** [sstep s o s' r given back].  The order in which [live] lists the variables has no meaning. *)
Inductive sstep : sstate -> @op E -> sstate -> @obs E -> list E -> list E -> Prop :=
| s_new l d v : fresh v l -> sstep (SState l d) (ONew v) (SState ((v, (KVector, [])) :: l) d) Unit [] []
| s_with_capacity l d v n ch :
    fresh v l -> sstep (SState l d) (OWithCapacity v n ch) (SState ((v, (KVector, [])) :: l) d) (Elems []) [] []
| s_from_vec l d v xs c1 c2 :
    fresh v l -> sstep (SState l d) (OFromVec v xs c1 c2) (SState ((v, (KVector, xs)) :: l) d) Unit xs []
| s_from_slice l d v xs c1 c2 :
    fresh v l ->
    sstep (SState l d) (OFromSlice v xs c1 c2) (SState ((v, (KVector, map clone xs)) :: l) d) Unit (map clone xs) []
| s_from_iter l d v xs c :
    fresh v l -> sstep (SState l d) (OFromIter v xs c) (SState ((v, (KVector, xs)) :: l) d) (Elems []) xs []
| s_call l d v m c xs rest ys ds back given :
    Permutation l ((v, (KVector, xs)) :: rest) -> does m xs ys ds back given ->
    sstep (SState l d) (OCall v m c) (SState ((v, (KVector, ys)) :: rest) (d ++ ds)) (Elems back) given back
| s_call_panics l d v m c xs rest ds :
    Permutation l ((v, (KVector, xs)) :: rest) -> rejects m xs ds ->
    sstep (SState l d) (OCall v m c) (SState l (d ++ ds)) Panic ds []
| s_append l d v u c xs ys rest :
    Permutation l ((v, (KVector, xs)) :: (u, (KVector, ys)) :: rest) ->
    sstep (SState l d) (OAppend v u c)
          (SState ((v, (KVector, xs ++ ys)) :: (u, (KVector, [])) :: rest) d) Unit [] []
| s_split_off l d v u c xs ys rest :
    Permutation l ((v, (KVector, xs ++ ys)) :: rest) -> fresh u l ->
    sstep (SState l d) (OSplitOff v (length xs) u c)
          (SState ((u, (KVector, ys)) :: (v, (KVector, xs)) :: rest) d) Unit [] []
| s_split_off_panics l d v u c n xs rest :
    Permutation l ((v, (KVector, xs)) :: rest) -> length xs < n ->
    sstep (SState l d) (OSplitOff v n u c) (SState l d) Panic [] []
| s_assign l d v x xs y ys rest :
    Permutation l ((v, (KVector, xs ++ y :: ys)) :: rest) ->
    sstep (SState l d) (OAssign v (length xs) x)
          (SState ((v, (KVector, xs ++ x :: ys)) :: rest) (d ++ [y])) Unit [x] []
| s_assign_panics l d v i x xs rest :
    Permutation l ((v, (KVector, xs)) :: rest) -> length xs <= i ->
    sstep (SState l d) (OAssign v i x) (SState l (d ++ [x])) Panic [x] []
| s_slice l d v xs rest :
    Permutation l ((v, (KVector, xs)) :: rest) -> sstep (SState l d) (OSlice v) (SState l d) (Elems xs) [] []
| s_deref l d v xs rest :
    Permutation l ((v, (KVector, xs)) :: rest) -> sstep (SState l d) (ODeref v) (SState l d) (Elems xs) [] []
| s_to_vec l d v xs rest :
    Permutation l ((v, (KVector, xs)) :: rest) ->
    sstep (SState l d) (OToVec v) (SState l d) (Elems (map clone xs)) (map clone xs) (map clone xs)
| s_sizes l d v xs rest c :
    Permutation l ((v, (KVector, xs)) :: rest) -> length xs <= c ->
    sstep (SState l d) (OSizes v) (SState l d) (Sizes (length xs) c (match xs with [] => true | _ => false end)) [] []
| s_clone l d v u c xs rest :
    Permutation l ((v, (KVector, xs)) :: rest) -> fresh u l ->
    sstep (SState l d) (OClone v u c) (SState ((u, (KVector, map clone xs)) :: l) d) Unit (map clone xs) []
| s_fill_tail l d v ys xs rest :
    Permutation l ((v, (KVector, xs)) :: rest) ->
    sstep (SState l d) (OFillTail v ys) (SState ((v, (KVector, xs ++ ys)) :: rest) d) Unit ys []
| s_into_vec l d v xs rest :
    Permutation l ((v, (KVector, xs)) :: rest) -> sstep (SState l d) (OIntoVec v) (SState rest d) (Elems xs) [] xs
| s_into_iter l d v i xs rest :
    Permutation l ((v, (KVector, xs)) :: rest) -> fresh i rest ->
    sstep (SState l d) (OIntoIter v i) (SState ((i, (KIter, xs)) :: rest) d) Unit [] []
| s_next l d i x xs rest :
    Permutation l ((i, (KIter, x :: xs)) :: rest) ->
    sstep (SState l d) (ONext i) (SState ((i, (KIter, xs)) :: rest) d) (Item (Some x)) [] [x]
| s_next_end l d i rest :
    Permutation l ((i, (KIter, [])) :: rest) -> sstep (SState l d) (ONext i) (SState l d) (Item None) [] []
| s_next_back l d i x xs rest :
    Permutation l ((i, (KIter, xs ++ [x])) :: rest) ->
    sstep (SState l d) (ONextBack i) (SState ((i, (KIter, xs)) :: rest) d) (Item (Some x)) [] [x]
| s_next_back_end l d i rest :
    Permutation l ((i, (KIter, [])) :: rest) -> sstep (SState l d) (ONextBack i) (SState l d) (Item None) [] []
| s_count l d i xs rest :
    Permutation l ((i, (KIter, xs)) :: rest) ->
    sstep (SState l d) (OCount i) (SState rest (d ++ xs)) (Number (length xs)) [] []
| s_drop l d v k xs rest :
    Permutation l ((v, (k, xs)) :: rest) -> sstep (SState l d) (ODrop v) (SState rest (d ++ xs)) Unit [] []
| s_cpp_read l d v xs rest :
    Permutation l ((v, (KVector, xs)) :: rest) -> sstep (SState l d) (OCppRead v) (SState l d) (Elems xs) [] []
| s_cpp_mutate l d v ys ds c xs rest :
    (* what C++ does with the elements is its own business: all are counted as handed over and given back *)
    Permutation l ((v, (KVector, xs)) :: rest) ->
    sstep (SState l d) (OCppMutate v ys ds c) (SState ((v, (KVector, ys)) :: rest) (d ++ ds)) Unit (ys ++ ds) xs.

Inductive sruns : sstate -> list (@op E) -> sstate -> list (@obs E) -> list E -> list E -> Prop :=
| sr_nil s : sruns s [] s [] [] []
| sr_cons s o s1 r g b l s2 rs gs bs :
    sstep s o s1 r g b -> sruns s1 l s2 rs gs bs -> sruns s (o :: l) s2 (r :: rs) (g ++ gs) (b ++ bs).

Definition sinit : sstate := SState [] [].

(** ** What C++ sees *)

(** [p], [p+1], … hold [xs], readable under ASan. *)
Definition elements_at (w : @world E) (p : nat) (xs : list E) : Prop :=
  forall i x, nth_error xs i = Some x -> mem w (p + i) = Some x /\ poisoned w (p + i) = false.

(** A [std::vector] object whose three words describe [xs] in a buffer of [c] cells ([null] when there is none). *)
Definition describes (lens : bool) (s : vector) (p : nat) (n c : nat) : Prop :=
  s = (if lens then Lengths p n c else Pointers p (p + n) (p + c)).

Definition cpp_vector (lens : bool) (w : world) (s : vector) (xs : list E) (p c : nat) : Prop :=
  describes lens s p (length xs) c /\ length xs <= c /\
  (c = 0 -> p = 0) /\ (c <> 0 -> p <> 0 /\ In (p, c) (blocks w)) /\
  elements_at w p xs.

(** The unused tail of the buffer is out of bounds for ASan. *)
Definition tail_poisoned (w : @world E) (p n c : nat) : Prop :=
  forall a, p + n <= a < p + c -> poisoned w a = true.

(** The allocations a live variable accounts for. *)
Definition buffer (o : object) : list (nat * nat) :=
  let b := match o with OVector s => (begin_ s, capacity s) | OIter i => (ibuf i, icap i) end in
  if snd b =? 0 then [] else [b].

End Spec.
