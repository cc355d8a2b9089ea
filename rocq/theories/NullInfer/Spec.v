(** Specification of nullability inference, stated on the set of kinds of evidence seen. *)
From Coq Require Import List Arith NArith Bool Lia String Sorting.Permutation Sorting.Sorted.
From Verif.NullInfer Require Import Model.
Import ListNotations.
Local Open Scope N_scope.

(** The evidence that counts: pieces that do not cross from test to non-test code. *)
Definition usable (es : list evidence) : list evidence := filter (fun e => negb (crosses e)) es.
Definition of_kind (k : kind) (es : list evidence) : list evidence := filter (fun e => ekind e =? k) es.
Definition count (k : kind) (es : list evidence) : N := N.of_nat (List.length (of_kind k (usable es))).
(** No kind of evidence is so frequent that a 32 bit counter wraps around. *)
Definition countable (es : list evidence) : Prop := forall k, count k es < 2 ^ 32.

Section Verdict.
  (** [seen k]: some usable evidence of kind [k] exists. *)
  Variable seen : kind -> bool.
  (** What must be NONNULL, respectively NULLABLE, for the code to type-check. *)
  Definition nonnull_kinds : list kind :=
    [UNCHECKED_DEREFERENCE; NONNULL_REFERENCE_ARGUMENT; NONNULL_REFERENCE_RETURN; ASSIGNED_TO_NONNULL;
     ASSIGNED_TO_OR_FROM_INVARIANT_NONNULL; ASSIGNED_TO_NONNULL_REFERENCE; ABORT_IF_NULL; ARITHMETIC; ARRAY_SUBSCRIPT].
  Definition nullable_kinds : list kind :=
    [NULLABLE_ARGUMENT; NULLABLE_REFERENCE_ARGUMENT; ASSIGNED_FROM_NULLABLE; NULLABLE_RETURN; NULLABLE_REFERENCE_RETURN;
     ASSIGNED_TO_OR_FROM_INVARIANT_NULLABLE; ASSIGNED_TO_MUTABLE_NULLABLE].
  Definition must_be_nonnull : Prop := exists k, In k nonnull_kinds /\ seen k = true.
  (** A field a constructor leaves null counts unless a late initializer sets it. *)
  Definition left_null : Prop := seen LEFT_NULLABLE_BY_CONSTRUCTOR = true /\ seen LEFT_NOT_NULLABLE_BY_LATE_INITIALIZER = false.
  Definition must_be_nullable : Prop := (exists k, In k nullable_kinds /\ seen k = true) \/ left_null.
  Definition annotated : Prop := seen ANNOTATED_NONNULL = true \/ seen ANNOTATED_NULLABLE = true.
  (** Confidence: the kinds in decreasing order; [None] stands for "assigned from nullable or left null". *)
  Definition confidence : list (option kind * nullability) :=
    [(Some UNCHECKED_DEREFERENCE, NONNULL); (Some NULLABLE_ARGUMENT, NULLABLE); (Some NULLABLE_REFERENCE_ARGUMENT, NULLABLE);
     (Some NONNULL_REFERENCE_ARGUMENT, NONNULL); (None, NULLABLE); (Some NULLABLE_RETURN, NULLABLE); (Some NULLABLE_REFERENCE_RETURN, NULLABLE);
     (Some NONNULL_REFERENCE_RETURN, NONNULL); (Some ASSIGNED_TO_NONNULL, NONNULL); (Some ASSIGNED_TO_OR_FROM_INVARIANT_NONNULL, NONNULL);
     (Some ASSIGNED_TO_OR_FROM_INVARIANT_NULLABLE, NULLABLE); (Some ASSIGNED_TO_MUTABLE_NULLABLE, NULLABLE);
     (Some ASSIGNED_TO_NONNULL_REFERENCE, NONNULL); (Some ABORT_IF_NULL, NONNULL); (Some ARITHMETIC, NONNULL); (Some ARRAY_SUBSCRIPT, NONNULL)].
  Definition holds (o : option kind) : Prop :=
    match o with Some k => seen k = true | None => seen ASSIGNED_FROM_NULLABLE = true \/ left_null end.
  (** [n] is what the most confident evidence seen says. *)
  Definition most_confident (n : nullability) : Prop :=
    exists i o, nth_error confidence i = Some (o, n) /\ holds o /\
      forall j o' n', (j < i)%nat -> nth_error confidence j = Some (o', n') -> ~ holds o'.
  (** The optional rules, used when nothing is mandatory, in order: a kind that must have been seen, kinds that
      must not, and the conclusion. *)
  Definition soft_rules : list (kind * list kind * nullability) :=
    [(WELL_KNOWN_NONNULL, [], NONNULL); (WELL_KNOWN_NULLABLE, [], NULLABLE); (GCC_NONNULL_ATTRIBUTE, [], NONNULL);
     (NONNULL_RETURN, [UNKNOWN_RETURN], NONNULL); (NONNULL_ARGUMENT, [UNKNOWN_ARGUMENT], NONNULL);
     (NULLPTR_DEFAULT_MEMBER_INITIALIZER, [], NULLABLE); (ASSIGNED_FROM_NONNULL, [ASSIGNED_FROM_UNKNOWN], NONNULL);
     (NONNULL_REFERENCE_RETURN_AS_CONST, [UNKNOWN_REFERENCE_RETURN], NONNULL);
     (NONNULL_REFERENCE_ARGUMENT_AS_CONST, [UNKNOWN_REFERENCE_ARGUMENT], NONNULL)].
  Definition fires (rule : kind * list kind * nullability) : Prop :=
    let '(k, without, _) := rule in seen k = true /\ forall k', In k' without -> seen k' = false.
  Definition soft_conclusion (n : nullability) : Prop :=
    (exists i rule, nth_error soft_rules i = Some rule /\ snd rule = n /\ fires rule /\
       forall j rule', (j < i)%nat -> nth_error soft_rules j = Some rule' -> ~ fires rule') \/
    (n = UNKNOWN /\ forall rule, In rule soft_rules -> ~ fires rule).
End Verdict.

(** Distinct places where usable evidence of a kind was found. *)
Definition places (k : kind) (es : list evidence) : list string :=
  nodup string_dec (flat_map (fun e => match location e with Some s => [s] | None => [] end) (of_kind k (usable es))).
