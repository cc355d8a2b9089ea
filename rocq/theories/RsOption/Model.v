(** Model of [rs_std::Option] and [rs_std::Result]: support/rs_std/option.h, result.h, support/internal/move_assign.h, and the
    members generated for each specialization by cc_bindings_from_rs/generate_bindings/generate_template_specialization.rs
    (cited as gts.rs).  Storage is a function from offsets to bytes; beside it the state records which payload object, if any,
    is alive in it, so that constructing over a live object, or destroying or reading one that is not alive, is visible. *)
From Coq Require Import List NArith Bool Arith.
Import ListNotations.
Local Open Scope list_scope.
Definition bytes := list N.
Definition memory := nat -> N.
(** The two variants: [None] and [Some], or [Ok] and [Err], in order of declaration (indices 0 and 1). *)
Inductive var := V0 | V1.
Definition var_eqb (a b : var) : bool := match a, b with V0, V0 | V1, V1 => true | _, _ => false end.
Definition idx (v : var) : nat := match v with V0 => 0 | V1 => 1 end.
(** What rustc says about the layout ([rustc_abi::Variants::Multiple]). *)
Inductive encoding :=
| Direct (discriminant : var -> N)
| Niche (niche_start : N) (niche_variants_start : nat) (untagged : var).
Record layout := Layout {
  little : bool;            (* endianness of the target *)
  tag_off : nat;
  tag_size : nat;
  enc : encoding;
  pay_off : var -> nat;     (* offset of the variant's field *)
  pay_size : var -> nat }.  (* size of the field *)
(** Properties of the payload types: [requires T(UnsafeRelocateTag, T)], [is_move_constructible_v], [is_move_assignable_v]. *)
Record traits := Traits { relocatable : bool; move_constructible : bool; move_assignable : bool }.

(** * Bytes *)
(** Object representation of an integer of [w] bytes in the target's byte order: what [std::bit_cast] gives. *)
Fixpoint le_bytes (w : nat) (v : N) : bytes := match w with O => [] | S w' => (v mod 256)%N :: le_bytes w' (v / 256)%N end.
Definition native_bytes (little : bool) (w : nat) (v : N) : bytes := if little then le_bytes w v else rev (le_bytes w v).
Fixpoint le_value (bs : bytes) : N := match bs with [] => 0%N | b :: bs' => (b + 256 * le_value bs')%N end.
Definition native_value (little : bool) (bs : bytes) : N := le_value (if little then bs else rev bs).
Definition upd (m : memory) (a : nat) (b : N) : memory := fun x => if x =? a then b else m x.
Definition get (m : memory) (off n : nat) : bytes := map (fun i => m (off + i)) (seq 0 n).
Definition put (m : memory) (off : nat) (bs : bytes) : memory := fun a => if (off <=? a) && (a <? off + length bs) then nth (a - off) bs 0%N else m a.
(** Objects that end leave their bytes indeterminate. *)
Definition scramble (m : memory) (off n : nat) (junk : memory) : memory := fun a => if (off <=? a) && (a <? off + n) then junk a else m a.
(** gts.rs lines 442-453 [literal_of_tag_ty]. *)
Definition literal (L : layout) (v : N) : N := (v mod 256 ^ N.of_nat (tag_size L))%N.

(** * Generated tag accessors *)
(** gts.rs lines 1378-1382 (Option), 1125-1133 (Result). *)
Definition endian_index (L : layout) (i : nat) : nat := if little L then i else tag_size L - 1 - i.
(** gts.rs lines 1390-1396, 1141-1147 [tag()]: the loop fills [__bytes], which is then [bit_cast]. *)
Definition tag_bytes (L : layout) (m : memory) : memory :=
  fold_left (fun b i => upd b (endian_index L i) (m (tag_off L + i))) (seq 0 (tag_size L)) (fun _ => 0%N).
Definition tag (L : layout) (m : memory) : N := native_value (little L) (get (tag_bytes L m) 0 (tag_size L)).
(** gts.rs lines 1398-1403, 1149-1154 [set_tag()]. *)
Definition set_tag (L : layout) (t : N) (m : memory) : memory :=
  let b := native_bytes (little L) (tag_size L) t in
  fold_left (fun m i => upd m (tag_off L + i) (nth (endian_index L i) b 0%N)) (seq 0 (tag_size L)) m.

(** * States and results *)
Record state := State { mem : memory; live : option var }.
Inductive res A := Done (a : A) | CheckFailed | Undefined.
Arguments Done {A}. Arguments CheckFailed {A}. Arguments Undefined {A}.
Definition bind {A B} (r : res A) (f : A -> res B) : res B := match r with Done a => f a | CheckFailed => CheckFailed | Undefined => Undefined end.
Notation "'do' x <- r ; k" := (bind r (fun x => k)) (at level 200, x name, r at level 100, k at level 200).
Definition set_tag_st (L : layout) (t : N) (s : state) : state := State (set_tag L t (mem s)) (live s).
(** [std::construct_at]: of a variant's payload at an offset.  Nothing may be alive there. *)
Definition construct_at (v : var) (off : nat) (bs : bytes) (s : state) : res state :=
  match live s with None => Done (State (put (mem s) off bs) (Some v)) | Some _ => Undefined end.
Definition is_live (v : var) (s : state) : bool := match live s with Some w => var_eqb v w | None => false end.
(** [std::destroy_at]; [junk] is what the bytes hold afterwards. *)
Definition destroy_at (L : layout) (v : var) (off : nat) (junk : memory) (s : state) : res state :=
  if is_live v s then Done (State (scramble (mem s) off (pay_size L v) junk) None) else Undefined.
(** Relocation out of the storage ([UnsafeRelocateTag]): the object leaves without being destroyed. *)
Definition relocate_out (L : layout) (v : var) (off : nat) (junk : memory) (s : state) : res (bytes * state) :=
  if is_live v s then Done (get (mem s) off (pay_size L v), State (scramble (mem s) off (pay_size L v) junk) None) else Undefined.
(** Reading or assigning an object. *)
Definition read (L : layout) (v : var) (off : nat) (s : state) : res bytes := if is_live v s then Done (get (mem s) off (pay_size L v)) else Undefined.
Definition assign (v : var) (off : nat) (bs : bytes) (s : state) : res state := if is_live v s then Done (State (put (mem s) off bs) (live s)) else Undefined.
(** The argument of an assignment: another object (its value), or a reference to the payload [v] held by this very object
    (converted by [f]). *)
Inductive arg := Other (bs : bytes) | Own (v : var) (f : bytes -> bytes).
Definition value_of (L : layout) (ptr : var -> nat) (a : arg) (s : state) : res bytes :=
  match a with Other bs => Done bs | Own v f => do bs <- read L v (ptr v) s; Done (f bs) end.
(** move_assign.h lines 15-22 [MoveAssignOrDestroyAndConstruct]. *)
Definition move_assign_or (L : layout) (T : traits) (ptr : var -> nat) (v : var) (a : arg) (junk : memory) (s : state) : res state :=
  if move_assignable T then do bs <- value_of L ptr a s; assign v (ptr v) bs s
  else do s1 <- destroy_at L v (ptr v) junk s; do bs <- value_of L ptr a s1; construct_at v (ptr v) bs s1.

(** * Option *)
(** gts.rs lines 1413-1418, 1419-1456 (Direct), 1457-1483 (Niche). *)
Definition none_val (L : layout) : N :=
  match enc L with Direct d => literal L (d V0) | Niche start nv _ => literal L (start + N.of_nat (idx V0 - nv))%N end.
Definition set_some_tag (L : layout) (s : state) : state := match enc L with Direct d => set_tag_st L (literal L (d V1)) s | Niche _ _ _ => s end.
Definition some_off (L : layout) : nat := match enc L with Direct _ => pay_off L V1 | Niche _ _ _ => 0 end.
Definition opt_ptr (L : layout) (_ : var) : nat := some_off L.
(** gts.rs lines 361-366 [set_none_tag], [is_none]. *)
Definition set_none_tag (L : layout) (s : state) : state := set_tag_st L (none_val L) s.
Definition is_none (L : layout) (s : state) : bool := (tag L (mem s) =? none_val L)%N.
(** option.h line 163. *)
Definition has_value (L : layout) (s : state) : bool := negb (is_none L s).
(** lines 40-44. *)
Definition reset (L : layout) (junk : memory) (s : state) : res state := if has_value L s then destroy_at L V1 (some_off L) junk s else Done s.
(** lines 49-52 [OptionBase()], [OptionBase(nullopt_t)]; storage starts with arbitrary bytes. *)
Definition make_none (L : layout) (m : memory) : res state := Done (set_none_tag L (State m None)).
(** lines 64-67, 131-134: from a value, in place. *)
Definition make_some (L : layout) (bs : bytes) (m : memory) : res state := construct_at V1 (some_off L) bs (set_some_tag L (State m None)).
(** lines 53-57. *)
Definition assign_null (L : layout) (junk : memory) (s : state) : res state := do s1 <- reset L junk s; Done (set_none_tag L s1).
(** lines 71-80. *)
Definition assign_value (L : layout) (T : traits) (a : arg) (junk : memory) (s : state) : res state :=
  if has_value L s then move_assign_or L T (opt_ptr L) V1 a junk s
  else let s1 := set_some_tag L s in do bs <- value_of L (opt_ptr L) a s1; construct_at V1 (some_off L) bs s1.
(** A [std::optional] given to us: empty, or holding an object.  The second component of results is what it holds afterwards. *)
(** lines 86-104, and lines 110-127 of the assignment: relocated (the source becomes empty), moved or copied from. *)
Definition from_std (L : layout) (T : traits) (moved : bytes -> bytes) (o : option bytes) (s : state) : res (state * option bytes) :=
  match o with
  | None => Done (set_none_tag L s, None)
  | Some bs =>
      let s1 := set_some_tag L s in
      do s2 <- construct_at V1 (some_off L) bs s1;
      if relocatable T then Done (s2, None)
      else if move_constructible T then Done (s2, Some (moved bs))
      else Done (s2, Some bs)
  end.
Definition make_std (L : layout) (T : traits) (moved : bytes -> bytes) (o : option bytes) (m : memory) : res (state * option bytes) := from_std L T moved o (State m None).
(** lines 108-128. *)
Definition assign_std (L : layout) (T : traits) (moved : bytes -> bytes) (o : option bytes) (junk : memory) (s : state) : res (state * option bytes) :=
  do s1 <- reset L junk s; from_std L T moved o s1.
(** lines 138-161 [operator std::optional<T>() &&].  In the second path the new object takes the value and the old one, holding
    [moved] of it, is destroyed. *)
Definition to_std (L : layout) (T : traits) (moved : bytes -> bytes) (junk : memory) (s : state) : res (state * option bytes) :=
  if negb (has_value L s) then Done (s, None)
  else if relocatable T then do p <- relocate_out L V1 (some_off L) junk s; Done (set_none_tag L (snd p), Some (fst p))
  else
    do bs <- read L V1 (some_off L) s;
    do s1 <- assign V1 (some_off L) (moved bs) s;
    do s2 <- destroy_at L V1 (some_off L) junk s1;
    Done (set_none_tag L s2, Some bs).
(** lines 164-198: the accessors. *)
Definition deref (L : layout) (s : state) : res bytes := if has_value L s then read L V1 (some_off L) s else CheckFailed.
Definition poke (L : layout) (bs : bytes) (s : state) : res state := if has_value L s then assign V1 (some_off L) bs s else CheckFailed.
(** gts.rs lines 297-317: the destructor; without [needs_drop] payloads need no destruction. *)
Definition opt_drop (L : layout) (needs_drop : bool) (junk : memory) (s : state) : res state := if needs_drop then reset L junk s else Done (State (mem s) None).

(** * Result *)
(** gts.rs lines 1196-1269: the generated pointers, tag writers and [has_value_impl]. *)
Definition var_ptr (L : layout) (v : var) : nat :=
  match enc L with Direct _ => pay_off L v | Niche _ _ u => if var_eqb u v then 0 else pay_off L v end.
Definition var_val (L : layout) (v : var) : N :=
  match enc L with Direct d => literal L (d v) | Niche start nv _ => literal L (start + N.of_nat (idx v - nv))%N end.
Definition set_var_tag (L : layout) (v : var) (s : state) : state :=
  match enc L with
  | Direct _ => set_tag_st L (var_val L v) s
  | Niche _ _ u => if var_eqb u v then s else set_tag_st L (var_val L v) s
  end.
Definition has_ok (L : layout) (s : state) : bool :=
  match enc L with
  | Direct _ => (tag L (mem s) =? var_val L V0)%N
  | Niche _ _ V0 => negb (tag L (mem s) =? var_val L V1)%N
  | Niche _ _ V1 => (tag L (mem s) =? var_val L V0)%N
  end.
(** result.h lines 90-93, 117-120, 138-147: constructors. *)
Definition make_var (L : layout) (v : var) (bs : bytes) (m : memory) : res state := construct_at v (var_ptr L v) bs (set_var_tag L v (State m None)).
(** lines 97-113, the value of type [T]. *)
Definition assign_ok (L : layout) (T : traits) (a : arg) (junk : memory) (s : state) : res state :=
  if negb (has_ok L s) then
    do s1 <- destroy_at L V1 (var_ptr L V1) junk s;
    let s2 := set_var_tag L V0 s1 in
    do bs <- value_of L (var_ptr L) a s2; construct_at V0 (var_ptr L V0) bs s2
  else move_assign_or L T (var_ptr L) V0 a junk (set_var_tag L V0 s).
(** lines 124-135: [unexpected<F>] holds an object of its own, but [F] may be a reference. *)
Definition assign_err (L : layout) (T : traits) (a : arg) (junk : memory) (s : state) : res state :=
  if has_ok L s then
    do s1 <- destroy_at L V0 (var_ptr L V0) junk s;
    let s2 := set_var_tag L V1 s1 in
    do bs <- value_of L (var_ptr L) a s2; construct_at V1 (var_ptr L V1) bs s2
  else move_assign_or L T (var_ptr L) V1 a junk (set_var_tag L V1 s).
(** lines 158-269: the accessors. *)
Definition res_value (L : layout) (s : state) : res bytes := if has_ok L s then read L V0 (var_ptr L V0) s else CheckFailed.
Definition res_error (L : layout) (s : state) : res bytes := if negb (has_ok L s) then read L V1 (var_ptr L V1) s else CheckFailed.
Definition poke_value (L : layout) (bs : bytes) (s : state) : res state := if has_ok L s then assign V0 (var_ptr L V0) bs s else CheckFailed.
Definition poke_error (L : layout) (bs : bytes) (s : state) : res state := if negb (has_ok L s) then assign V1 (var_ptr L V1) bs s else CheckFailed.
(** lines 271-277 [Reset]; gts.rs lines 503-520. *)
Definition res_drop (L : layout) (needs_drop : bool) (junk : memory) (s : state) : res state :=
  if needs_drop then if has_ok L s then destroy_at L V0 (var_ptr L V0) junk s else destroy_at L V1 (var_ptr L V1) junk s
  else Done (State (mem s) None).

(** * Histories: what C++ and Rust code may do with one object *)
(** [ORust m o] is Rust code holding [&mut Option<T>]: it drops or moves out the old value, and leaves the bytes [m] holding the
    value [o]. *)
Inductive opt_call :=
| ONull (junk : memory) | OValue (a : arg) (junk : memory) | OFromStd (o : option bytes) (junk : memory) | OToStd (junk : memory)
| OHasValue | ODeref | OPoke (bs : bytes) | ORust (m : memory) (o : option bytes).
Inductive out := Nothing | Flag (b : bool) | Held (o : option bytes).
Definition opt_step (L : layout) (T : traits) (moved : bytes -> bytes) (c : opt_call) (s : state) : res (state * out) :=
  match c with
  | ONull junk => do s1 <- assign_null L junk s; Done (s1, Nothing)
  | OValue a junk => do s1 <- assign_value L T a junk s; Done (s1, Nothing)
  | OFromStd o junk => do p <- assign_std L T moved o junk s; Done (fst p, Held (snd p))
  | OToStd junk => do p <- to_std L T moved junk s; Done (fst p, Held (snd p))
  | OHasValue => Done (s, Flag (has_value L s))
  | ODeref => do bs <- deref L s; Done (s, Held (Some bs))
  | OPoke bs => do s1 <- poke L bs s; Done (s1, Nothing)
  | ORust m o => Done (State m (match o with Some _ => Some V1 | None => None end), Nothing)
  end.
Inductive res_call :=
| ROk (a : arg) (junk : memory) | RErr (a : arg) (junk : memory) | RHasValue | RValue | RError | RPokeValue (bs : bytes) | RPokeError (bs : bytes)
| RRust (m : memory) (v : var) (bs : bytes).
Definition res_step (L : layout) (T : traits) (c : res_call) (s : state) : res (state * out) :=
  match c with
  | ROk a junk => do s1 <- assign_ok L T a junk s; Done (s1, Nothing)
  | RErr a junk => do s1 <- assign_err L T a junk s; Done (s1, Nothing)
  | RHasValue => Done (s, Flag (has_ok L s))
  | RValue => do bs <- res_value L s; Done (s, Held (Some bs))
  | RError => do bs <- res_error L s; Done (s, Held (Some bs))
  | RPokeValue bs => do s1 <- poke_value L bs s; Done (s1, Nothing)
  | RPokeError bs => do s1 <- poke_error L bs s; Done (s1, Nothing)
  | RRust m v bs => Done (State m (Some v), Nothing)
  end.
Fixpoint run {C} (step : C -> state -> res (state * out)) (cs : list C) (s : state) : res (state * list out) :=
  match cs with [] => Done (s, []) | c :: cs' => do p <- step c s; do q <- run step cs' (fst p); Done (fst q, snd p :: snd q) end.
