(** Model of nullability/inference/merge.cc and merge.h, and of the messages of
    nullability/inference/inference.proto they work on. *)
From Coq Require Import List Arith NArith Bool Lia String Sorting.Permutation Sorting.Sorted.
Import ListNotations.
Local Open Scope N_scope.

(** nullability/inference/inference.proto:58-172 [Evidence::Kind], by field number. *)
Definition kind := N.
Definition ANNOTATED_UNKNOWN : kind := 0.
Definition ANNOTATED_NULLABLE : kind := 1.
Definition ANNOTATED_NONNULL : kind := 2.
Definition UNCHECKED_DEREFERENCE : kind := 3.
Definition NULLABLE_ARGUMENT : kind := 4.
Definition NONNULL_ARGUMENT : kind := 5.
Definition UNKNOWN_ARGUMENT : kind := 6.
Definition NULLABLE_RETURN : kind := 7.
Definition NONNULL_RETURN : kind := 8.
Definition UNKNOWN_RETURN : kind := 9.
Definition ASSIGNED_TO_NONNULL : kind := 10.
Definition ASSIGNED_TO_MUTABLE_NULLABLE : kind := 11.
Definition ABORT_IF_NULL : kind := 12.
Definition ASSIGNED_FROM_NULLABLE : kind := 13.
Definition ARITHMETIC : kind := 14.
Definition NULLPTR_DEFAULT_MEMBER_INITIALIZER : kind := 15.
Definition GCC_NONNULL_ATTRIBUTE : kind := 16.
Definition NULLABLE_REFERENCE_RETURN : kind := 17.
Definition NONNULL_REFERENCE_RETURN : kind := 18.
Definition UNKNOWN_REFERENCE_RETURN : kind := 19.
Definition NULLABLE_REFERENCE_ARGUMENT : kind := 20.
Definition NONNULL_REFERENCE_ARGUMENT : kind := 21.
Definition UNKNOWN_REFERENCE_ARGUMENT : kind := 22.
Definition ASSIGNED_FROM_NONNULL : kind := 23.
Definition ASSIGNED_FROM_UNKNOWN : kind := 24.
Definition ASSIGNED_TO_NONNULL_REFERENCE : kind := 26.
Definition NONNULL_REFERENCE_RETURN_AS_CONST : kind := 27.
Definition NONNULL_REFERENCE_ARGUMENT_AS_CONST : kind := 28.
Definition WELL_KNOWN_NONNULL : kind := 29.
Definition WELL_KNOWN_NULLABLE : kind := 30.
Definition ARRAY_SUBSCRIPT : kind := 31.
Definition LEFT_NOT_NULLABLE_BY_LATE_INITIALIZER : kind := 32.
Definition LEFT_NULLABLE_BY_CONSTRUCTOR : kind := 33.
Definition ASSIGNED_TO_OR_FROM_INVARIANT_NONNULL : kind := 34.
Definition ASSIGNED_TO_OR_FROM_INVARIANT_NULLABLE : kind := 35.

(** inference.proto:46-56 [Evidence]; symbols are numbered.  An unset field is [None]; an unset
    [kind] reads as 0 and an unset [crosses_from_test_to_nontest] as false, which is how they are
    represented here. *)
Record evidence := Evidence { symbol : option N; slot : option N; ekind : kind; location : option string; propagated_from : option N; crosses : bool }.
(** inference.proto:174-178 [Nullability]. *)
Inductive nullability := UNKNOWN | NONNULL | NULLABLE.
Definition nullability_eqb (a b : nullability) : bool := match a, b with UNKNOWN, UNKNOWN | NONNULL, NONNULL | NULLABLE, NULLABLE => true | _, _ => false end.

(** inference.proto:194-209 [SlotPartial]: protobuf maps, as lists of entries with distinct keys ([slot_id] is
    not touched by merging and left out). *)
Record partial := Partial { kind_count : list (kind * N); kind_samples : list (kind * list evidence) }.
(** The map's [operator\[\]] followed by an update of the entry: a missing entry is created with the default. *)
Fixpoint upd {V} (d : V) (f : V -> V) (k : kind) (m : list (kind * V)) : list (kind * V) :=
  match m with
  | [] => [(k, f d)]
  | (k', v) :: m' => if k =? k' then (k', f v) :: m' else (k', v) :: upd d f k m'
  end.
(** [unsigned] and [uint32] arithmetic. *)
Definition u32 (n : N) : N := n mod 2 ^ 32.

(** [Evidence::location()]: the empty string when unset. *)
Definition loc (e : evidence) : string := match location e with Some s => s | None => EmptyString end.
Definition is_contained (s : string) (l : list string) : bool := existsb (String.eqb s) l.
(** merge.cc:19-32 [mergeSampleEvidence]: the loop; the locations are those LHS had at the start. *)
Fixpoint add_samples (locations : list string) (lhs rhs : list evidence) : list evidence :=
  match rhs with
  | [] => lhs
  | e :: rhs' =>
      if (3 <=? List.length lhs)%nat then lhs
      else add_samples locations (if is_contained (loc e) locations then lhs else lhs ++ [e]) rhs'
  end.
Definition merge_samples (lhs rhs : list evidence) : list evidence := add_samples (map loc lhs) lhs rhs.

(** merge.cc:34-50 [partialFromEvidence]. *)
Definition partial_from_evidence (e : evidence) : option partial :=
  if crosses e then None
  else Some (Partial (upd 0 (fun c => u32 (c + 1)) (ekind e) [])
    (match location e with
     | None => []
     | Some _ => upd [] (fun s => s ++ [Evidence None None (ekind e) (location e) (propagated_from e) (crosses e)]) (ekind e) []
     end)).
(** merge.cc:52-57 [mergePartials], when RHS's maps are iterated in the orders [counts] and [samples]. *)
Definition merge_in_order (lhs : partial) (counts : list (kind * N)) (samples : list (kind * list evidence)) : partial :=
  Partial (fold_left (fun m kc => upd 0 (fun c => u32 (c + snd kc)) (fst kc) m) counts (kind_count lhs))
          (fold_left (fun m ks => upd [] (fun s => merge_samples s (snd ks)) (fst ks) m) samples (kind_samples lhs)).
(** The iteration order of a protobuf map is unspecified: any order may be used. *)
Definition merges (lhs rhs out : partial) : Prop :=
  exists counts samples, Permutation counts (kind_count rhs) /\ Permutation samples (kind_samples rhs) /\ out = merge_in_order lhs counts samples.

(** merge.h:24-28 [InferResult]. *)
Record result := Result { verdict : nullability; conflict : bool; trivial : bool }.
(** merge.cc:84-93 [update]. *)
Definition update (r : option result) (n : nullability) : option result :=
  match r with
  | None => Some (Result n false false)
  | Some r' => if nullability_eqb (verdict r') n then r else Some (Result (verdict r') true (trivial r'))
  end.
Section Infer.
  Variable counts : kind -> N.
  Variable soft : bool.
  (** An [unsigned] used as a condition. *)
  Definition c (k : kind) : bool := negb (counts k =? 0).
  Definition when (b : bool) (n : nullability) (r : option result) : option result := if b then update r n else r.
  Definition just (n : nullability) : result := Result n false false.
  Definition any_assignment_from_nullable : bool :=
    c ASSIGNED_FROM_NULLABLE || (c LEFT_NULLABLE_BY_CONSTRUCTOR && negb (c LEFT_NOT_NULLABLE_BY_LATE_INITIALIZER)).
  (** merge.cc:112-141: the mandatory rules. *)
  Definition mandatory : option result :=
    when (c ARRAY_SUBSCRIPT) NONNULL
   (when (c ARITHMETIC) NONNULL
   (when (c ABORT_IF_NULL) NONNULL
   (when (c ASSIGNED_TO_NONNULL_REFERENCE) NONNULL
   (when (c ASSIGNED_TO_MUTABLE_NULLABLE) NULLABLE
   (when (c ASSIGNED_TO_OR_FROM_INVARIANT_NULLABLE) NULLABLE
   (when (c ASSIGNED_TO_OR_FROM_INVARIANT_NONNULL) NONNULL
   (when (c ASSIGNED_TO_NONNULL) NONNULL
   (when (c NONNULL_REFERENCE_RETURN) NONNULL
   (when (c NULLABLE_REFERENCE_RETURN) NULLABLE
   (when (c NULLABLE_RETURN) NULLABLE
   (when any_assignment_from_nullable NULLABLE
   (when (c NONNULL_REFERENCE_ARGUMENT) NONNULL
   (when (c NULLABLE_REFERENCE_ARGUMENT) NULLABLE
   (when (c NULLABLE_ARGUMENT) NULLABLE
   (when (c UNCHECKED_DEREFERENCE) NONNULL None))))))))))))))).
  (** merge.cc:95-176 [infer]. *)
  Definition infer : result :=
    if c ANNOTATED_NONNULL && c ANNOTATED_NULLABLE then Result UNKNOWN true false
    else if c ANNOTATED_NONNULL then Result NONNULL false true
    else if c ANNOTATED_NULLABLE then Result NULLABLE false true
    else match mandatory with
    | Some r => r
    | None =>
    if negb soft then just UNKNOWN
    else if c WELL_KNOWN_NONNULL then just NONNULL
    else if c WELL_KNOWN_NULLABLE then just NULLABLE
    else if c GCC_NONNULL_ATTRIBUTE then just NONNULL
    else if negb (c NULLABLE_RETURN) && negb (c UNKNOWN_RETURN) && c NONNULL_RETURN then just NONNULL
    else if negb (c NULLABLE_ARGUMENT) && negb (c UNKNOWN_ARGUMENT) && c NONNULL_ARGUMENT then just NONNULL
    else if c NULLPTR_DEFAULT_MEMBER_INITIALIZER then just NULLABLE
    else if negb any_assignment_from_nullable && negb (c ASSIGNED_FROM_UNKNOWN) && c ASSIGNED_FROM_NONNULL then just NONNULL
    else if negb (c NULLABLE_REFERENCE_RETURN) && negb (c UNKNOWN_REFERENCE_RETURN) && negb (c NONNULL_REFERENCE_RETURN) && c NONNULL_REFERENCE_RETURN_AS_CONST then just NONNULL
    else if negb (c NULLABLE_REFERENCE_ARGUMENT) && negb (c UNKNOWN_REFERENCE_ARGUMENT) && negb (c NONNULL_REFERENCE_ARGUMENT) && c NONNULL_REFERENCE_ARGUMENT_AS_CONST then just NONNULL
    else just UNKNOWN
    end.
End Infer.

(** merge.cc:75-76: the array [KindCounts]. *)
Definition kind_counts (entries : list (kind * N)) : kind -> N :=
  fold_left (fun f kc k => if k =? fst kc then snd kc else f k) entries (fun _ => 0).
(** inference.proto:181-197 [SlotInference]; unset flags read as false ([slot_id] is left out). *)
Record inference := Inference { inferred : option nullability; has_conflict : bool; is_trivial : bool; sample_evidence : list evidence }.
Definition empty_inference : inference := Inference None false false [].
(** merge.cc:70-73: the order of the samples in the result. *)
Definition sample_le (a b : evidence) : Prop := ekind a < ekind b \/ (ekind a = ekind b /\ String.leb (loc a) (loc b) = true).
(** merge.cc:60-82 [finalize], for any iteration orders and any sorting of the samples. *)
Definition finalizes (p : partial) (soft : bool) (out : inference) : Prop :=
  match kind_count p with
  | [] => out = empty_inference
  | _ :: _ =>
      exists counts samples sorted, Permutation counts (kind_count p) /\ Permutation samples (kind_samples p) /\
        Permutation sorted (List.concat (map snd samples)) /\ StronglySorted sample_le sorted /\
        let r := infer (kind_counts counts) soft in
        out = Inference (Some (verdict r)) (conflict r) (trivial r) sorted
  end.

(** How evidence is brought together: any tree of [mergePartials] calls over the partials of the single
    pieces; a piece without a partial is left out, as merge.h:44-56 [mergeEvidence] does. *)
Inductive tree := Leaf (e : evidence) | Node (l r : tree).
Fixpoint leaves (t : tree) : list evidence := match t with Leaf e => [e] | Node l r => leaves l ++ leaves r end.
Inductive partial_of : tree -> option partial -> Prop :=
| PLeaf e : partial_of (Leaf e) (partial_from_evidence e)
| PLeft l r p : partial_of l p -> partial_of r None -> partial_of (Node l r) p
| PRight l r p : partial_of l None -> partial_of r p -> partial_of (Node l r) p
| PBoth l r p q out : partial_of l (Some p) -> partial_of r (Some q) -> merges p q out -> partial_of (Node l r) (Some out).
(** The conclusion drawn from a tree of evidence. *)
Definition concludes (t : tree) (soft : bool) (out : inference) : Prop :=
  exists p, partial_of t p /\ match p with Some p => finalizes p soft out | None => out = empty_inference end.
(** merge.h:43-57 [mergeEvidence]: the same with a left-leaning tree. *)
Inductive folds : option partial -> list evidence -> option partial -> Prop :=
| FNil p : folds p [] p
| FSkip p e es q : partial_from_evidence e = None -> folds p es q -> folds p (e :: es) q
| FFirst e es n q : partial_from_evidence e = Some n -> folds (Some n) es q -> folds None (e :: es) q
| FMerge p e es n p' q : partial_from_evidence e = Some n -> merges p n p' -> folds (Some p') es q -> folds (Some p) (e :: es) q.
Definition merge_evidence (es : list evidence) (out : inference) : Prop :=
  exists p, folds None es p /\ match p with Some p => finalizes p true out | None => out = empty_inference end.
