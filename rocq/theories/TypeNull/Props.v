(** C128-C130: the nullability read from a written type. *)
From Coq Require Import List Bool Arith Lia.
From Verif.TypeNull Require Import Model Spec Proofs Proofs2 Proofs3 Proofs4.
Import ListNotations.

Lemma start_meaning : forall outside t f, tidy outside [] t ->
  forall n, cost [] t <= n -> exists s', walk n CNil f t start = Some s' /\
    out s' = pointers (meaning [] f t) /\ pend s' = None /\ fatal s' = false.
Proof.
  intros outside t f T n L.
  destruct (walk_meaning outside n CNil CNil f t Logic.I Logic.I Logic.I T L start) as [s' [W [A [B C]]]].
  exists s'. cbn [start pend out fatal annotate] in *. auto.
Qed.

Lemma kinds_spec : forall D l, kinds D l =
  map (fun p : option kind * nat => match p with (Some k, _) => k | (None, g) => governing (d_pragmas D) g (d_default D) end) l.
Proof.
  intros D l. apply map_ext. intros [[k|] g]; auto. cbn. unfold default_for.
  destruct D as [k ps]. cbn. induction ps as [|[h p] ps IH]; cbn; auto.
  rewrite (Nat.eqb_sym h g). destruct (Nat.eqb g h); auto.
Qed.

(** ** C128 *)
(** The vector computed is the nullability of the type as written, with aliases
    expanded and arguments keeping their annotations; no pending annotation is
    left over (which would be a fatal error); and its length depends only on the
    canonical type. *)
Theorem C128_written_nullability : forall outside t, tidy outside [] t ->
  exists n0, forall n, n0 <= n ->
    (forall f D, getTypeNullability n t f D = Some (nullability_of t f D)) /\
    (consistent [] t ->
       countPointersInType n t = Some (pointer_count (canonical t)) /\
       forall f D, length (nullability_of t f D) = pointer_count (canonical t)).
Proof.
  intros outside t T. exists (cost [] t). intros n L. split.
  - intros f D. unfold getTypeNullability, nullability_of.
    destruct (start_meaning outside t f T n L) as [s' [-> [-> [_ ->]]]]. rewrite kinds_spec. reflexivity.
  - intros CN.
    assert (LEN : forall f, length (pointers (meaning [] f t)) = pointer_count (canonical t)).
    { intros f. rewrite count_pointers. f_equal. apply (proj1 meaning_shape t [] f CN). }
    split.
    + unfold countPointersInType.
      destruct (start_meaning outside t 0 T n L) as [s' [-> [-> [_ ->]]]]. rewrite LEN. reflexivity.
    + intros f D. unfold nullability_of. rewrite map_length. apply LEN.
Qed.
Print Assumptions C128_written_nullability.

(** Two ways of writing the same canonical type give vectors of the same length. *)
Theorem C128_same_length : forall outside t1 t2 f1 f2 D,
  tidy outside [] t1 -> tidy outside [] t2 -> consistent [] t1 -> consistent [] t2 ->
  canonical t1 = canonical t2 ->
  exists n0, forall n, n0 <= n -> exists v1 v2,
    getTypeNullability n t1 f1 D = Some v1 /\ getTypeNullability n t2 f2 D = Some v2 /\ length v1 = length v2.
Proof.
  intros o t1 t2 f1 f2 D T1 T2 C1 C2 E.
  destruct (C128_written_nullability o t1 T1) as [n1 H1]. destruct (C128_written_nullability o t2 T2) as [n2 H2].
  exists (n1 + n2). intros n L. destruct (H1 n ltac:(lia)) as [A1 B1]. destruct (H2 n ltac:(lia)) as [A2 B2].
  do 2 eexists. split; [apply A1|]. split; [apply A2|].
  destruct (B1 C1) as [_ ->]. destruct (B2 C2) as [_ ->]. congruence.
Qed.
Print Assumptions C128_same_length.

(** [template <class T> using P = T* ; P<int* _Nullable> _Nonnull], in file 1, the
    alias being in file 2; template 7. *)
Definition ex_t : ty :=
  TAttr (Some NonNull)
    (TAlias 7 None false 2 QNil (TCons (TAttr (Some Nullable) (TPtr TBase)) TNil) (TPtr (TSubst 7 0 (TPtr TBase)))).
Example ex_tidy : tidy (fun _ => false) [] ex_t /\ consistent [] ex_t.
Proof.
  cbn. split.
  - split; [split; [constructor; [intros []|constructor]|intros d [<-|[]]; auto]|].
    split; auto.
  - repeat split; auto.
Qed.
Example ex_null : nullability_of ex_t 1 (mkD Unspecified []) = [NonNull; Nullable]
  /\ getTypeNullability 20 ex_t 1 (mkD Unspecified []) = Some [NonNull; Nullable].
Proof. split; reflexivity. Qed.
(** Unannotated, the alias' pointer follows the alias' file, the argument the use's. *)
Example ex_files : nullability_of (TAlias 7 None false 2 QNil (TCons (TPtr TBase) TNil) (TPtr (TSubst 7 0 (TPtr TBase)))) 1
    (mkD Unspecified [(1, Nullable); (2, NonNull)]) = [NonNull; Nullable].
Proof. reflexivity. Qed.

(** The walk looks a parameter up through its template declaration, and goes on in
    the argument context of the innermost template.  With
<<
      template <class T, class U> struct S {
        template <class V> using A = T;
        using Q = typename S<U, T>::template A<int>;
      };
>>
    [S<int* _Nullable, int* _Nonnull>::Q] is [int* _Nonnull], but is read as
    nullable.  (S = 1, A = 2; both specialisations of S are canonically the same.) *)
Definition ex_q : ty :=
  TTypedef 0 (QCons 1 true (TCons (TAttr (Some Nullable) (TPtr TBase)) (TCons (TAttr (Some NonNull) (TPtr TBase)) TNil)) QNil)
    (TAlias 2 None false 0
       (QCons 1 true (TCons (TSubst 1 1 (TPtr TBase)) (TCons (TSubst 1 0 (TPtr TBase)) TNil)) QNil)
       (TCons TBase TNil)
       (TSubst 1 0 (TPtr TBase))).
Theorem C128_same_template_twice_refuted :
  exists t, consistent [] t /\ nullability_of t 0 (mkD Unspecified []) = [NonNull] /\
    forall n, 20 <= n -> getTypeNullability n t 0 (mkD Unspecified []) = Some [Nullable].
Proof.
  exists ex_q. split; [cbn; repeat split; auto|]. split; [reflexivity|].
  intros n L. do 20 (destruct n as [|n]; [lia|]). reflexivity.
Qed.
Print Assumptions C128_same_template_twice_refuted.

(** ** C129 *)
(** The assertion about Unknown around nullability sugar does not fail when Unknown
    is only put directly around pointers, or around aliases and attributes (where it
    is ignored). *)
Theorem C129_unknown_assertion : forall n f t s, calm t = true -> walk n CNil f t start = Some s -> asrt s = false.
Proof.
  intros n f t s C W. apply (walk_asrt n CNil f t start s Logic.I C) in W; [exact W|].
  left. cbn. discriminate.
Qed.
Print Assumptions C129_unknown_assertion.

(** Unknown<int * _Nullable> and Unknown<Unknown<int *>>, with
    [template <class T> using Unknown [[annotate("Unspecified")]] = T]. *)
Definition unknown_of (t c : ty) : ty := TAlias 3 (Some Unspecified) false 0 QNil (TCons t TNil) (TSubst 3 0 c).
Example ex_calm :
  calm (unknown_of (TAttr (Some Nullable) (TPtr TBase)) (TPtr TBase)) = true /\
  getTypeNullability 20 (unknown_of (TAttr (Some Nullable) (TPtr TBase)) (TPtr TBase)) 0 (mkD NonNull []) = Some [Nullable] /\
  calm (unknown_of (TPtr TBase) (TPtr TBase)) = true /\
  getTypeNullability 20 (unknown_of (TPtr TBase) (TPtr TBase)) 0 (mkD NonNull []) = Some [Unspecified] /\
  calm (unknown_of (unknown_of (TPtr TBase) (TPtr TBase)) (TPtr TBase)) = true.
Proof. repeat split. Qed.

(** In a class template, [using W = Unknown<T>]: [S<int* _Nullable>::W] fails it,
    although Unknown is around a parameter, and the nullability is lost. *)
Theorem C129_unknown_parameter_refuted :
  exists t, (forall outside, outside 1 = false -> outside 3 = false -> tidy outside [] t) /\ consistent [] t /\
    forall n, 20 <= n -> exists s, walk n CNil 0 t start = Some s /\ asrt s = true /\
      kinds (mkD NonNull []) (out s) = [Unspecified].
Proof.
  exists (TTypedef 0 (QCons 1 true (TCons (TAttr (Some Nullable) (TPtr TBase)) TNil) QNil)
            (unknown_of (TSubst 1 0 (TPtr TBase)) (TPtr TBase))).
  split; [|split].
  - intros o O1 O3. cbn. split; [split|].
    + constructor; [intros []|constructor].
    + intros d [<-|[]]. auto.
    + split; auto. split; [split|].
      * constructor; [intros []|constructor].
      * intros d [<-|[]]. auto.
      * auto.
  - cbn. repeat split; auto.
  - intros n L. do 20 (destruct n as [|n]; [lia|]). eexists. split; [reflexivity|]. split; reflexivity.
Qed.
Print Assumptions C129_unknown_parameter_refuted.

(** ** C130 *)
(** rebuildWithNullability gives a type with the same canonical type and the given
    nullability, and fails exactly when the vector has the wrong length. *)
Theorem C130_rebuild_partial : forall t v, plain t ->
  (length v = pointer_count (canonical t) <-> exists t', rebuildWithNullability t v = Some t') /\
  forall t', rebuildWithNullability t v = Some t' ->
    canonical t' = canonical t /\
    (exists n0, forall n, n0 <= n -> forall f D,
       getTypeNullability n t' f D =
       Some (map (fun k => match k with Unspecified => governing (d_pragmas D) f (d_default D) | _ => k end) v)) /\
    (exists n0, forall n, n0 <= n -> forall f,
       getTypeNullability n t' f (mkD Unspecified []) = Some v).
Proof.
  intros t v P.
  assert (FW : length v = pointer_count (canonical t) -> forall f, exists t',
            rebuildWithNullability t v = Some t' /\ rebuilt f t t' v).
  { intros L f. destruct (proj1 (rebuild_ok f) t P v [] L) as [t' [E RB]].
    rewrite app_nil_r in E. exists t'. unfold rebuildWithNullability. rewrite E. auto. }
  assert (BW : forall t', rebuildWithNullability t v = Some t' -> length v = pointer_count (canonical t)).
  { intros t' E. unfold rebuildWithNullability in E. destruct (rebuild t v) as [[x [|k w]]|] eqn:R; try discriminate.
    apply (proj1 rebuild_consumes t P) in R. cbn in R. lia. }
  split.
  - split.
    + intros L. destruct (FW L 0) as [t' [E _]]. eauto.
    + intros [t' E]. eauto.
  - intros t' E. pose proof (BW t' E) as L.
    assert (RB : forall f, rebuilt f t t' v).
    { intros f. destruct (FW L f) as [t1 [E1 R1]]. congruence. }
    assert (G : exists n0, forall n, n0 <= n -> forall f D,
       getTypeNullability n t' f D =
       Some (map (fun k => match k with Unspecified => governing (d_pragmas D) f (d_default D) | _ => k end) v)).
    { destruct (RB 0) as [_ [T _]]. destruct (C128_written_nullability everywhere t' T) as [n0 H].
      exists n0. intros n Hn f D. destruct (H n Hn) as [H1 _]. rewrite H1. f_equal.
      unfold nullability_of. destruct (RB f) as [_ [_ ->]]. rewrite map_map.
      apply map_ext. intros []; reflexivity. }
    split; [apply (RB 0)|]. split; [exact G|].
    destruct G as [n0 H]. exists n0. intros n Hn f. rewrite (H n Hn). f_equal.
    rewrite <- (map_id v) at 2. apply map_ext. intros []; reflexivity.
Qed.
Print Assumptions C130_rebuild_partial.

Example ex_rebuild : plain (TPtr (TRec 1 false TNil QNil true (TCons (TPtr TBase) TNil))) /\
  exists t', rebuildWithNullability (TPtr (TRec 1 false TNil QNil true (TCons (TPtr TBase) TNil))) [NonNull; Nullable] = Some t'
    /\ getTypeNullability 20 t' 0 (mkD Unspecified []) = Some [NonNull; Nullable].
Proof. split; [cbn; auto 10|]. eexists. split; reflexivity. Qed.

(** Not so for smart pointers: a vector of the right length is "too long". *)
Theorem C130_smart_pointers_refuted :
  exists t v, consistent [] t /\ tidy everywhere [] t /\ length v = pointer_count (canonical t) /\
    rebuildWithNullability t v = None.
Proof.
  exists (TRec 1 true TNil QNil true (TCons TBase TNil)), [Nullable].
  split; [cbn; auto|]. split; [|split; reflexivity].
  cbn. split; [apply fresh_nil|]. auto.
Qed.
Print Assumptions C130_smart_pointers_refuted.
