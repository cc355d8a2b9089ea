(** C29-C31: nullability inference. *)
From Coq Require Import List Arith NArith Bool Lia String Ascii Sorting.Permutation Sorting.Sorted.
From Verif.NullInfer Require Import Model Spec Infer Merge.
Import ListNotations.
Local Open Scope N_scope.

(** Some usable evidence of kind [k] was collected. *)
Definition seen_in (es : list evidence) (k : kind) : bool := existsb (fun e => negb (crosses e) && (ekind e =? k)) es.
Lemma seen_count es k : seen_in es k = negb (count k es =? 0).
Proof.
  unfold seen_in, count, of_kind, usable. induction es as [|e es IH]; [reflexivity|]. cbn [existsb filter]. destruct (negb (crosses e)); cbn [andb orb filter]; [|exact IH].
  destruct (ekind e =? k); cbn [orb]; [|exact IH]. cbn [List.length]. rewrite Nat2N.inj_succ. symmetry. apply negb_true_iff. apply N.eqb_neq. lia.
Qed.
Lemma infer_ext f g soft : (forall k, c f k = c g k) -> infer f soft = infer g soft.
Proof. intro H. unfold infer, mandatory, any_assignment_from_nullable. rewrite !H. reflexivity. Qed.
Lemma must_ext s s' : (forall k, s k = s' k) -> (must_be_nonnull s <-> must_be_nonnull s') /\ (must_be_nullable s <-> must_be_nullable s').
Proof.
  intro H. unfold must_be_nonnull, must_be_nullable, left_null. rewrite !H. split; [|apply or_iff_compat_r]; split; intros (k & Hk & Hs); exists k; (split; [exact Hk|congruence]).
Qed.
Lemma infer_lists cs p es : rep p es -> Permutation cs (kind_count p) -> forall k, c (kind_counts cs) k = negb (u32 (count k es) =? 0).
Proof.
  intros R P k. unfold c. assert (Nc : NoDup (keys cs)) by (eapply Permutation_NoDup; [apply Permutation_map; symmetry; exact P|apply R]).
  rewrite kind_counts_get by exact Nc. unfold get. rewrite (assoc_perm _ _ k P Nc). fold (get 0 k (kind_count p)). now rewrite (r_count _ _ R k).
Qed.
(** The verdict in terms of the evidence alone. *)
Lemma concludes_verdict t soft out : concludes t soft out ->
  (usable (leaves t) = [] -> out = empty_inference) /\
  (usable (leaves t) <> [] -> let r := infer (fun k => u32 (count k (leaves t))) soft in
     inferred out = Some (verdict r) /\ has_conflict out = conflict r /\ is_trivial out = trivial r).
Proof.
  intros (op & Hp & Hf). apply rep_tree in Hp. destruct op as [p|]; [|subst out; split; [reflexivity|contradiction]]. destruct Hp as [R U].
  split; [contradiction|]. intros _. unfold finalizes in Hf. destruct (kind_count p) as [|kc rest] eqn:Ek.
  - exfalso. apply U. destruct (usable (leaves t)) as [|e l] eqn:El; [reflexivity|]. pose proof (proj2 (r_keys _ _ R (ekind e))) as H. rewrite Ek, El in H. cbn in H. rewrite N.eqb_refl in H. contradiction H. discriminate.
  - rewrite <- Ek in Hf. destruct Hf as (cs & ss & sorted & P1 & P2 & P3 & P4 & ->). cbn. rewrite (infer_ext _ (fun k => u32 (count k (leaves t)))) by (intro k; rewrite (infer_lists cs p (leaves t) R P1 k); reflexivity). auto.
Qed.

(** * C29 *)
(** The verdict depends only on how much usable evidence of each kind there is. *)
Theorem C29_verdict_depends_on_counts : forall t1 t2 soft o1 o2,
  concludes t1 soft o1 -> concludes t2 soft o2 -> (forall k, count k (leaves t1) = count k (leaves t2)) ->
  inferred o1 = inferred o2 /\ has_conflict o1 = has_conflict o2 /\ is_trivial o1 = is_trivial o2.
Proof.
  intros t1 t2 soft o1 o2 C1 C2 H. apply concludes_verdict in C1 as [E1 V1], C2 as [E2 V2].
  assert (U : usable (leaves t1) = [] <-> usable (leaves t2) = []).
  { assert (G : forall es es', (forall k, count k es = count k es') -> usable es = [] -> usable es' = []).
    { clear. intros es es' H E. destruct (usable es') as [|e l] eqn:El; [reflexivity|]. specialize (H (ekind e)). unfold count in H. rewrite E, El in H. cbn in H. rewrite N.eqb_refl in H. cbn in H. lia. }
    split; apply G; auto. }
  destruct (usable (leaves t1)) as [|e l].
  - rewrite E1, E2; [auto|now apply U|reflexivity].
  - assert (N2 : usable (leaves t2) <> []) by (intro E; apply U in E; discriminate). destruct V1 as (A1 & A2 & A3); [discriminate|]. destruct (V2 N2) as (B1 & B2 & B3). rewrite A1, A2, A3, B1, B2, B3.
    rewrite (infer_ext _ (fun k => u32 (count k (leaves t2)))); [auto|]. intro k. unfold c. now rewrite H.
Qed.
Print Assumptions C29_verdict_depends_on_counts.
Lemma count_perm es es' k : Permutation es es' -> count k es = count k es'.
Proof.
  intro P. unfold count, of_kind, usable. f_equal. apply Permutation_length. assert (F : forall (A : Type) (f : A -> bool) l l', Permutation l l' -> Permutation (filter f l) (filter f l')).
  { clear. intros A f. induction 1; cbn; repeat match goal with |- context [f ?x] => destruct (f x) end; try constructor; auto; try reflexivity. etransitivity; eassumption. }
  now apply F, F.
Qed.
(** In particular neither the order of the evidence nor the way the merging is split up matters. *)
Theorem C29_order_and_grouping_are_irrelevant : forall t1 t2 soft o1 o2,
  concludes t1 soft o1 -> concludes t2 soft o2 -> Permutation (leaves t1) (leaves t2) ->
  inferred o1 = inferred o2 /\ has_conflict o1 = has_conflict o2 /\ is_trivial o1 = is_trivial o2.
Proof. intros. eapply C29_verdict_depends_on_counts; eauto. intro k. now apply count_perm. Qed.
Print Assumptions C29_order_and_grouping_are_irrelevant.
(** With fewer than 2^32 pieces of each kind only the set of kinds matters. *)
Lemma countable_seen es k : countable es -> negb (u32 (count k es) =? 0) = seen_in es k.
Proof. intro H. rewrite seen_count. unfold u32. now rewrite N.mod_small by apply H. Qed.
Theorem C29_repetition_is_irrelevant : forall t1 t2 soft o1 o2,
  concludes t1 soft o1 -> concludes t2 soft o2 -> countable (leaves t1) -> countable (leaves t2) ->
  (forall k, seen_in (leaves t1) k = seen_in (leaves t2) k) ->
  inferred o1 = inferred o2 /\ has_conflict o1 = has_conflict o2 /\ is_trivial o1 = is_trivial o2.
Proof.
  intros t1 t2 soft o1 o2 C1 C2 K1 K2 H. apply concludes_verdict in C1 as [E1 V1], C2 as [E2 V2].
  assert (G : forall es es', (forall k, seen_in es k = seen_in es' k) -> usable es = [] -> usable es' = []).
  { clear. intros es es' H E. destruct (usable es') as [|e l] eqn:El; [reflexivity|]. specialize (H (ekind e)). rewrite !seen_count in H. unfold count in H. rewrite E, El in H. unfold of_kind in H. cbn [filter] in H. rewrite (N.eqb_refl (ekind e)) in H. cbn [List.length] in H. rewrite Nat2N.inj_succ in H. destruct (N.of_nat (List.length (filter (fun e0 => ekind e0 =? ekind e) l))); discriminate. }
  destruct (usable (leaves t1)) as [|e l] eqn:El.
  - rewrite E1, E2; [auto|now apply (G (leaves t1))|reflexivity].
  - assert (N2 : usable (leaves t2) <> []) by (intro E; apply (G _ (leaves t1)) in E; [congruence|auto]). destruct V1 as (A1 & A2 & A3); [discriminate|]. destruct (V2 N2) as (B1 & B2 & B3). rewrite A1, A2, A3, B1, B2, B3.
    rewrite (infer_ext _ (fun k => u32 (count k (leaves t2)))); [auto|]. intro k. unfold c. now rewrite !countable_seen.
Qed.
Print Assumptions C29_repetition_is_irrelevant.
(** Without that bound it does: 2^32 annotations count as none. *)
Fixpoint doubled (e : evidence) (n : nat) : tree := match n with O => Leaf e | S n => Node (doubled e n) (doubled e n) end.
Lemma doubled_leaves e n : Forall (eq e) (leaves (doubled e n)) /\ N.of_nat (List.length (leaves (doubled e n))) = 2 ^ N.of_nat n.
Proof.
  induction n as [|n [F L]]; [cbn; split; [repeat constructor|reflexivity]|]. cbn [doubled leaves]. split; [apply Forall_app; auto|]. rewrite app_length, Nat2N.inj_add, L, Nat2N.inj_succ, N.pow_succ_r'. lia.
Qed.
Lemma count_const e es : Forall (eq e) es -> crosses e = false -> forall k, count k es = if ekind e =? k then N.of_nat (List.length es) else 0.
Proof.
  intros F Hc k. unfold count, of_kind, usable. induction F as [|x es <- F IH]; [cbn; now destruct (ekind e =? k)|]. cbn [filter]. rewrite Hc. cbn [negb filter]. destruct (ekind e =? k); cbn [List.length]; [|exact IH]. rewrite !Nat2N.inj_succ. now rewrite IH.
Qed.

(** * Conclusions always exist *)
Lemma ascii_compare_le a b : Ascii.compare a b <> Gt <-> N_of_ascii a <= N_of_ascii b.
Proof. reflexivity. Qed.
Lemma string_compare_trans : forall a b d, String.compare a b <> Gt -> String.compare b d <> Gt -> String.compare a d <> Gt.
Proof.
  induction a as [|x a IH]; intros [|y b] [|z d]; cbn; try congruence. unfold Ascii.compare.
  destruct (N.compare_spec (N_of_ascii x) (N_of_ascii y)) as [E|L|L]; [|intros _|congruence].
  - rewrite E. destruct (N.compare_spec (N_of_ascii y) (N_of_ascii z)); try congruence. apply IH.
  - destruct (N.compare_spec (N_of_ascii y) (N_of_ascii z)) as [E|L'|]; [rewrite <- E|intros _|congruence].
    + destruct (N.compare_spec (N_of_ascii x) (N_of_ascii y)); try congruence; lia.
    + destruct (N.compare_spec (N_of_ascii x) (N_of_ascii z)); try congruence; lia.
Qed.
Lemma string_leb_spec a b : String.leb a b = true <-> String.compare a b <> Gt.
Proof. unfold String.leb. destruct (String.compare a b); split; congruence. Qed.
Lemma sample_le_trans a b d : sample_le a b -> sample_le b d -> sample_le a d.
Proof.
  unfold sample_le. rewrite !string_leb_spec. intros [H1|[E1 H1]] [H2|[E2 H2]]; [left; lia|left; lia|left; lia|right]. split; [congruence|]. eapply string_compare_trans; eassumption.
Qed.
Lemma sample_le_total a b : sample_le a b \/ sample_le b a.
Proof.
  unfold sample_le. destruct (N.lt_trichotomy (ekind a) (ekind b)) as [H|[H|H]]; [auto| |auto]. destruct (String.leb_total (loc a) (loc b)) as [L|L]; [left|right]; right; auto.
Qed.
Definition sample_leb (a b : evidence) : bool := (ekind a <? ekind b) || ((ekind a =? ekind b) && String.leb (loc a) (loc b)).
Lemma sample_leb_spec a b : sample_leb a b = true <-> sample_le a b.
Proof. unfold sample_leb, sample_le. rewrite orb_true_iff, andb_true_iff, N.ltb_lt, N.eqb_eq. reflexivity. Qed.
Fixpoint insert (x : evidence) (l : list evidence) : list evidence :=
  match l with [] => [x] | y :: l' => if sample_leb x y then x :: l else y :: insert x l' end.
Definition isort (l : list evidence) : list evidence := fold_right insert [] l.
Lemma insert_perm x l : Permutation (insert x l) (x :: l).
Proof. induction l as [|y l IH]; [reflexivity|]. cbn. destruct (sample_leb x y); [reflexivity|]. rewrite IH. apply perm_swap. Qed.
Lemma isort_spec l : Permutation (isort l) l /\ StronglySorted sample_le (isort l).
Proof.
  induction l as [|x l [P S]]; [split; constructor|]. cbn [isort fold_right]. fold (isort l). split; [rewrite insert_perm; now constructor|]. clear P. induction S as [|y l' S IH F]; [repeat constructor|]. cbn [insert]. destruct (sample_leb x y) eqn:E.
  - apply sample_leb_spec in E. constructor; [now constructor|]. constructor; [exact E|]. eapply Forall_impl; [|exact F]. intros z Hz. eapply sample_le_trans; eassumption.
  - constructor; [exact IH|]. eapply Permutation_Forall; [symmetry; apply insert_perm|]. constructor; [|exact F]. destruct (sample_le_total x y) as [H|H]; [apply sample_leb_spec in H; congruence|exact H].
Qed.
Lemma partial_exists t : exists op, partial_of t op.
Proof.
  induction t as [e|l [[p|] Hl] r [[q|] Hr]].
  - eexists. constructor.
  - eexists. eapply PBoth; [exact Hl|exact Hr|]. exists (kind_count q), (kind_samples q). split; [reflexivity|]. split; reflexivity.
  - eexists. eapply PLeft; eassumption.
  - eexists. eapply PRight; eassumption.
  - eexists. eapply PLeft; eassumption.
Qed.
Lemma finalize_exists p soft : exists out, finalizes p soft out.
Proof.
  unfold finalizes. destruct (kind_count p) as [|x y]; [eexists; reflexivity|]. eexists. exists (x :: y), (kind_samples p), (isort (List.concat (map snd (kind_samples p)))). split; [reflexivity|]. split; [reflexivity|]. destruct (isort_spec (List.concat (map snd (kind_samples p)))). split; [assumption|]. split; [assumption|]. reflexivity.
Qed.
(** Every way to merge every evidence reaches a conclusion. *)
Theorem C29_always_concludes : forall t soft, exists out, concludes t soft out.
Proof.
  intros t soft. destruct (partial_exists t) as [[p|] H].
  - destruct (finalize_exists p soft) as [out F]. exists out, (Some p). auto.
  - exists empty_inference, None. auto.
Qed.
Print Assumptions C29_always_concludes.
Theorem C29_2_to_32_pieces_count_as_none_refuted :
  exists t out, usable (leaves t) <> [] /\ Forall (fun e => ekind e = ANNOTATED_NONNULL) (leaves t) /\ concludes t true out /\ inferred out = Some UNKNOWN.
Proof.
  set (e := Evidence None None ANNOTATED_NONNULL None None false).
  assert (T : exists t, Forall (eq e) (leaves t) /\ N.of_nat (List.length (leaves t)) = 2 ^ 32) by (exists (doubled e 32); apply (doubled_leaves e 32)).
  destruct T as (t & F & L). destruct (C29_always_concludes t true) as [out C]. exists t, out.
  assert (U : usable (leaves t) <> []).
  { destruct (leaves t) as [|x l]; [discriminate L|]. inversion F as [|? ? <- ?]. unfold usable. cbn. discriminate. }
  split; [exact U|]. split; [eapply Forall_impl; [|exact F]; intros a <-; reflexivity|]. split; [exact C|]. apply concludes_verdict in C as [_ V]. destruct (V U) as (V1 & _ & _). rewrite V1. f_equal.
  rewrite (infer_ext _ (fun _ => 0)); [reflexivity|]. intro k. unfold c. rewrite (count_const e _ F eq_refl k), L. now destruct (ekind e =? k).
Qed.
Print Assumptions C29_2_to_32_pieces_count_as_none_refuted.
(** [mergeEvidence] is one of these ways. *)
Lemma partial_none_usable e : partial_from_evidence e = None -> usable [e] = [].
Proof. unfold partial_from_evidence, usable. cbn. destruct (crosses e); [reflexivity|discriminate]. Qed.
Ltac leaf := match goal with H : partial_from_evidence _ = _ |- _ => rewrite <- H end; constructor.
Lemma folds_tree es : forall t p q, partial_of t p -> folds p es q -> exists t', leaves t' = leaves t ++ es /\ partial_of t' q.
Proof.
  induction es as [|e es IH]; intros t p q Ht Hf; inversion Hf; subst.
  - exists t. split; [now rewrite app_nil_r|exact Ht].
  - destruct (IH (Node t (Leaf e)) p q) as (t' & L & P'); [eapply PLeft; [exact Ht|]; leaf|assumption|]. exists t'. split; [rewrite L; cbn; now rewrite <- app_assoc|exact P'].
  - destruct (IH (Node t (Leaf e)) (Some n) q) as (t' & L & P'); [eapply PRight; [exact Ht|]; leaf|assumption|]. exists t'. split; [rewrite L; cbn; now rewrite <- app_assoc|exact P'].
  - destruct (IH (Node t (Leaf e)) (Some p') q) as (t' & L & P'); [eapply PBoth; [exact Ht|leaf|eassumption]|assumption|]. exists t'. split; [rewrite L; cbn; now rewrite <- app_assoc|exact P'].
Qed.
Theorem C29_merge_evidence_agrees : forall es out, es <> [] -> merge_evidence es out -> exists t, leaves t = es /\ concludes t true out.
Proof.
  intros es out Hne (p & Hf & Ho). destruct es as [|e es]; [contradiction|]. inversion Hf; subst.
  - destruct (folds_tree es (Leaf e) None p) as (t & L & P'); [leaf|assumption|]. exists t. split; [exact L|]. now exists p.
  - destruct (folds_tree es (Leaf e) (Some n) p) as (t & L & P'); [leaf|assumption|]. exists t. split; [exact L|]. now exists p.
Qed.
Print Assumptions C29_merge_evidence_agrees.

(** * C30 *)
(** Everything about the verdict: annotations first, then what type checking demands, then the optional rules. *)
Theorem C30_verdict : forall t soft out, countable (leaves t) -> concludes t soft out -> usable (leaves t) <> [] ->
  let seen := seen_in (leaves t) in
  (seen ANNOTATED_NONNULL = true -> seen ANNOTATED_NULLABLE = true -> inferred out = Some UNKNOWN /\ has_conflict out = true /\ is_trivial out = false) /\
  (seen ANNOTATED_NONNULL = true -> seen ANNOTATED_NULLABLE = false -> inferred out = Some NONNULL /\ has_conflict out = false /\ is_trivial out = true) /\
  (seen ANNOTATED_NONNULL = false -> seen ANNOTATED_NULLABLE = true -> inferred out = Some NULLABLE /\ has_conflict out = false /\ is_trivial out = true) /\
  (~ annotated seen -> is_trivial out = false /\ (has_conflict out = true <-> must_be_nonnull seen /\ must_be_nullable seen)) /\
  (~ annotated seen -> must_be_nonnull seen \/ must_be_nullable seen -> exists n, inferred out = Some n /\ most_confident seen n) /\
  (~ annotated seen -> ~ must_be_nonnull seen -> ~ must_be_nullable seen ->
     exists n, inferred out = Some n /\ (if soft then soft_conclusion seen n else n = UNKNOWN)).
Proof.
  intros t soft out K C U seen. apply concludes_verdict in C as [_ V]. destruct (V U) as (V1 & V2 & V3). clear V.
  set (f := fun k => if seen k then 1 else 0). rewrite (infer_ext _ f) in V1, V2, V3 by (intro k; unfold c, f; rewrite (countable_seen _ _ K); unfold seen; destruct (seen_in (leaves t) k); reflexivity).
  assert (S : c f = c f) by reflexivity. assert (Sf : forall k, c f k = seen k) by (intro k; unfold c, f; destruct (seen k); reflexivity).
  assert (Ext : forall P : (kind -> bool) -> Prop, (forall s s', (forall k, s k = s' k) -> P s -> P s') -> P (c f) <-> P seen) by (intros P HP; split; apply HP; intro; rewrite Sf; reflexivity).
  assert (Ann : annotated (c f) <-> annotated seen) by (unfold annotated; now rewrite !Sf).
  destruct (must_ext (c f) seen Sf) as [Mn Ml]. clear S Ext.
  assert (Hd : forall s, (forall k, c f k = s k) -> forall o, holds (c f) o <-> holds s o) by (intros s Hs [k|]; cbn; unfold left_null; rewrite !Hs; reflexivity).
  specialize (Hd seen Sf).
  repeat match goal with |- _ /\ _ => split end.
  - intros H1 H2. rewrite V1, V2, V3, (infer_annotated f soft) by (apply Ann; now left). rewrite !Sf, H1, H2. cbn. auto.
  - intros H1 H2. rewrite V1, V2, V3, (infer_annotated f soft) by (apply Ann; now left). rewrite !Sf, H1, H2. cbn. auto.
  - intros H1 H2. rewrite V1, V2, V3, (infer_annotated f soft) by (apply Ann; now right). rewrite !Sf, H1, H2. cbn. auto.
  - intro Ha. rewrite V2, V3. rewrite <- Ann in Ha. rewrite <- Mn, <- Ml.
    assert (D : (must_be_nonnull (c f) \/ must_be_nullable (c f)) \/ (~ must_be_nonnull (c f) /\ ~ must_be_nullable (c f))).
    { destruct (mandatory f) as [r|] eqn:E.
      - left. rewrite mandatory_rules in E. destruct (steps_first _ _ E) as (_ & (i & Hi & _) & _). apply nth_error_In in Hi. apply in_rules in Hi as (o & Ho & Hb). apply rule_holds in Hb. rewrite nonnull_in_confidence, nullable_in_confidence.
        destruct (confidence_known _ _ Ho) as [E'|E']; rewrite E' in Ho; [left|right]; eauto.
      - right. split; intro H; [destruct (mandatory_some f (or_introl H)) as (r & E' & _)|destruct (mandatory_some f (or_intror H)) as (r & E' & _)]; congruence. }
    destruct D as [D|[D1 D2]].
    + destruct (infer_mandatory f soft Ha D) as (_ & T & Cf). auto.
    + destruct (infer_optional f soft Ha D1 D2) as (Cf & T & _). split; [exact T|]. rewrite Cf. split; [discriminate|tauto].
  - intros Ha Hm. rewrite <- Ann in Ha. rewrite <- Mn, <- Ml in Hm. destruct (infer_mandatory f soft Ha Hm) as ((i & o & Hn & Ho & Hf) & _). eexists. split; [exact V1|]. exists i, o. split; [exact Hn|]. split; [now apply Hd|]. intros j o' n' Hlt Hc Hh. apply Hd in Hh. exact (Hf j o' n' Hlt Hc Hh).
  - intros Ha H1 H2. rewrite <- Ann in Ha. rewrite <- Mn in H1. rewrite <- Ml in H2. destruct (infer_optional f soft Ha H1 H2) as (_ & _ & H). eexists. split; [exact V1|]. destruct soft; [|exact H].
    assert (Fi : forall rule, fires (c f) rule <-> fires seen rule) by (intros [[k w] n]; unfold fires; rewrite Sf; split; intros [A B]; (split; [exact A|]); intros k' Hk'; specialize (B k' Hk'); rewrite Sf in *; exact B).
    destruct H as [(i & rule & A & B & D & E)|[A B]]; [left; exists i, rule; repeat (split; [assumption|]); split; [now apply Fi|]|right; split; [exact A|]].
    + intros j r Hlt Hr Hx. apply Fi in Hx. exact (E j r Hlt Hr Hx).
    + intros r Hr Hx. apply Fi in Hx. exact (B r Hr Hx).
Qed.
Print Assumptions C30_verdict.
(** Without usable evidence nothing at all is concluded. *)
Theorem C30_no_evidence : forall t soft out, concludes t soft out -> usable (leaves t) = [] -> out = Inference None false false [].
Proof. intros t soft out C. apply concludes_verdict in C. apply C. Qed.
Print Assumptions C30_no_evidence.
(** A later, larger body of evidence never silently turns a mandatory NONNULL into NULLABLE or the reverse:
    either the conflict is reported, an annotation is the cause, or a constructor's null was explained
    by a late initializer. *)
Theorem C30_flips_are_reported : forall t t' soft out out',
  countable (leaves t) -> countable (leaves t') -> concludes t soft out -> concludes t' soft out' ->
  (forall k, seen_in (leaves t) k = true -> seen_in (leaves t') k = true) ->
  ~ annotated (seen_in (leaves t')) ->
  (must_be_nonnull (seen_in (leaves t)) -> inferred out' = Some NONNULL \/ has_conflict out' = true) /\
  (must_be_nullable (seen_in (leaves t)) -> inferred out' = Some NULLABLE \/ has_conflict out' = true \/
     seen_in (leaves t') LEFT_NOT_NULLABLE_BY_LATE_INITIALIZER = true).
Proof.
  intros t t' soft out out' K K' C C' Hs Ha.
  assert (U' : forall k, seen_in (leaves t') k = true -> usable (leaves t') <> []) by (intros k H E; rewrite seen_count in H; unfold count in H; rewrite E in H; discriminate).
  assert (Conf : forall n, most_confident (seen_in (leaves t')) n -> (n = NONNULL /\ must_be_nonnull (seen_in (leaves t'))) \/ (n = NULLABLE /\ must_be_nullable (seen_in (leaves t')))).
  { intros n (i & o & Hn & Ho & _). apply nth_error_In in Hn. set (f := fun k => if seen_in (leaves t') k then 1 else 0).
    assert (Sf : forall k, c f k = seen_in (leaves t') k) by (intro k; unfold c, f; destruct (seen_in (leaves t') k); reflexivity).
    assert (Ho' : holds (c f) o) by (destruct o; cbn in *; unfold left_null in *; rewrite !Sf; exact Ho). destruct (must_ext _ _ Sf) as [Mn Ml].
    destruct (confidence_known _ _ Hn) as [-> | ->]; [left|right]; (split; [reflexivity|]); [apply Mn, nonnull_in_confidence|apply Ml, nullable_in_confidence]; eauto. }
  split.
  - intros (k & Hk & Hseen). apply Hs in Hseen. destruct (C30_verdict t' soft out' K' C' (U' _ Hseen)) as (_ & _ & _ & H4 & H5 & _). assert (M : must_be_nonnull (seen_in (leaves t'))) by (exists k; auto).
    destruct (H4 Ha) as [_ Hc]. destruct (H5 Ha (or_introl M)) as (n & En & Hn). destruct (Conf n Hn) as [[-> _]|[_ H]]; [now left|right; apply Hc; auto].
  - intros H. assert (M : must_be_nullable (seen_in (leaves t')) \/ seen_in (leaves t') LEFT_NOT_NULLABLE_BY_LATE_INITIALIZER = true).
    { destruct H as [(k & Hk & Hseen)|[H1 H2]]; [left; left; exists k; auto|]. destruct (seen_in (leaves t') LEFT_NOT_NULLABLE_BY_LATE_INITIALIZER) eqn:E; [now right|]. left. right. split; [now apply Hs|exact E]. }
    destruct M as [M|M]; [|auto]. assert (U : usable (leaves t') <> []) by (destruct M as [(k & _ & Hk)|[Hk _]]; eapply U'; exact Hk).
    destruct (C30_verdict t' soft out' K' C' U) as (_ & _ & _ & H4 & H5 & _). destruct (H4 Ha) as [_ Hc]. destruct (H5 Ha (or_intror M)) as (n & En & Hn). destruct (Conf n Hn) as [[_ H']|[-> _]]; [right; left; apply Hc; auto|now left].
Qed.
Print Assumptions C30_flips_are_reported.

(** * C31 *)
Lemma filter_concat_kind k ss p es : rep p es -> Permutation ss (kind_samples p) ->
  Permutation (filter (fun e => ekind e =? k) (List.concat (map snd ss))) (get [] k (kind_samples p)).
Proof.
  intros R P. assert (Ns : NoDup (keys ss)) by (eapply Permutation_NoDup; [apply Permutation_map; symmetry; exact P|apply R]).
  unfold get. rewrite <- (assoc_perm _ _ k P Ns). assert (G : Forall (fun kv => Forall (fun s => ekind s = fst kv) (snd kv)) ss).
  { apply Forall_forall. intros [k0 v] Hi. cbn. assert (Hi' : In (k0, v) (kind_samples p)) by (eapply Permutation_in; eassumption). apply in_assoc in Hi'; [|apply R]. pose proof (g_from _ _ _ (r_good _ _ R k0)) as F. unfold get in F. rewrite Hi' in F.
    eapply Forall_impl; [|exact F]. intros s (e & _ & _ & <- & _ & ->). reflexivity. }
  clear P R. induction ss as [|[k0 v] ss IH]; [reflexivity|]. cbn [map List.concat snd]. rewrite filter_app. inversion Ns as [|? ? N1 N2]; subst. inversion G as [|? ? G1 G2]; subst. cbn [fst snd] in *. cbn [assoc].
  specialize (IH N2 G2). rewrite N.eqb_sym. destruct (N.eqb_spec k0 k) as [->|Hne].
  - assert (E : filter (fun e => ekind e =? k) v = v). { clear -G1. induction G1 as [|s v Hs F IH]; [reflexivity|]. cbn. rewrite Hs, N.eqb_refl. now f_equal. }
    apply assoc_none in N1. rewrite N1 in IH. apply Permutation_sym, Permutation_nil in IH. rewrite E, IH, app_nil_r. reflexivity.
  - assert (E : filter (fun e => ekind e =? k) v = []). { clear -G1 Hne. induction G1 as [|s v Hs F IH]; [reflexivity|]. cbn. rewrite Hs. destruct (N.eqb_spec k0 k); [contradiction|exact IH]. }
    rewrite E. exact IH.
Qed.
(** For every kind the conclusion keeps as many samples as there are distinct places with usable evidence of
    that kind, but at most three, from different places, each of them a collected piece without symbol and slot;
    they come ordered by kind and place. *)
Theorem C31_samples : forall t soft out, concludes t soft out ->
  StronglySorted sample_le (sample_evidence out) /\
  forall k, let S := filter (fun s => ekind s =? k) (sample_evidence out) in
    List.length S = Nat.min 3 (List.length (places k (leaves t))) /\ NoDup (map loc S) /\
    forall s, In s S -> exists e, In e (leaves t) /\ crosses e = false /\ ekind e = k /\ location e <> None /\
      s = Evidence None None k (location e) (propagated_from e) false.
Proof.
  intros t soft out (op & Hp & Hf). apply rep_tree in Hp. destruct op as [p|].
  - destruct Hp as [R U]. unfold finalizes in Hf. destruct (kind_count p) as [|kc rest] eqn:Ek.
    + exfalso. apply U. destruct (usable (leaves t)) as [|e l] eqn:El; [reflexivity|]. pose proof (proj2 (r_keys _ _ R (ekind e))) as H. rewrite Ek, El in H. cbn in H. rewrite N.eqb_refl in H. contradiction H. discriminate.
    + destruct Hf as (cs & ss & sorted & P1 & P2 & P3 & P4 & ->). split; [exact P4|]. intros k S. cbn [sample_evidence] in S.
      assert (PS : Permutation S (get [] k (kind_samples p))).
      { rewrite <- (filter_concat_kind k ss p _ R P2). unfold S. assert (F : forall (A : Type) (f : A -> bool) l l', Permutation l l' -> Permutation (filter f l) (filter f l')).
        { clear. intros A f. induction 1; cbn; repeat match goal with |- context [f ?x] => destruct (f x) end; try constructor; auto; try reflexivity. etransitivity; eassumption. }
        now apply F. }
      pose proof (r_good _ _ R k) as [G1 G2 G3]. split; [rewrite (Permutation_length PS); exact G1|]. split; [eapply Permutation_NoDup; [apply Permutation_map; symmetry; exact PS|exact G2]|].
      intros s Hs. rewrite Forall_forall in G3. destruct (G3 s) as (e & H1 & H2 & H3 & H4 & ->); [eapply Permutation_in; eassumption|]. exists e. repeat (split; [assumption|]). unfold cleared. now rewrite H2, H3.
  - subst out. cbn. split; [constructor|]. intro k. unfold places. rewrite Hp. cbn. split; [reflexivity|]. split; [constructor|]. intros s [].
Qed.
Print Assumptions C31_samples.
Lemma sorted_unique : forall l l', (forall a b, In a l -> In b l -> sample_le a b -> sample_le b a -> a = b) ->
  StronglySorted sample_le l -> StronglySorted sample_le l' -> Permutation l l' -> l = l'.
Proof.
  induction l as [|a l IH]; intros l' An S S' P; [apply Permutation_nil in P; now subst|]. destruct l' as [|b l']; [symmetry in P; apply Permutation_nil in P; discriminate|].
  inversion S as [|? ? S1 S2]; subst. inversion S' as [|? ? S1' S2']; subst. assert (E : a = b).
  { assert (Ha : In a (b :: l')) by (eapply Permutation_in; [exact P|now left]). assert (Hb : In b (a :: l)) by (eapply Permutation_in; [symmetry; exact P|now left]).
    destruct Ha as [->|Ha]; [reflexivity|]. destruct Hb as [->|Hb]; [reflexivity|]. rewrite Forall_forall in S2, S2'. apply An; [now left|now right|now apply S2|now apply S2']. }
  subst b. f_equal. apply IH; [|exact S1|exact S1'|now apply Permutation_cons_inv in P]. intros x y Hx Hy. apply An; now right.
Qed.
(** The conclusion drawn from a partial is unique, whatever order the protobuf maps are iterated in. *)
Theorem C31_finalize_is_deterministic : forall t p soft o1 o2, partial_of t (Some p) -> finalizes p soft o1 -> finalizes p soft o2 -> o1 = o2.
Proof.
  intros t p soft o1 o2 Hp F1 F2. assert (C1 : concludes t soft o1) by (exists (Some p); auto). assert (C2 : concludes t soft o2) by (exists (Some p); auto).
  destruct (C29_verdict_depends_on_counts t t soft o1 o2 C1 C2 (fun _ => eq_refl)) as (E1 & E2 & E3).
  assert (E4 : sample_evidence o1 = sample_evidence o2).
  { destruct (C31_samples _ _ _ C1) as [S1 G1], (C31_samples _ _ _ C2) as [S2 _]. apply rep_tree in Hp as [R _]. unfold finalizes in F1, F2. destruct (kind_count p) as [|x y]; [now subst|].
    destruct F1 as (c1 & s1 & l1 & _ & P1 & Q1 & _ & ->), F2 as (c2 & s2 & l2 & _ & P2 & Q2 & _ & ->). cbn [sample_evidence] in *. apply sorted_unique; [|exact S1|exact S2|].
    - intros a b Ha Hb Lab Lba. assert (Ek : ekind a = ekind b /\ loc a = loc b).
      { destruct Lab as [H|[H H']], Lba as [K|[K K']]; try lia. split; [exact H|]. now apply String.leb_antisym. }
      destruct Ek as [Ek El]. destruct (G1 (ekind a)) as (_ & N & _). assert (Ia : In a (filter (fun s => ekind s =? ekind a) l1)) by (apply filter_In; split; [exact Ha|apply N.eqb_refl]). assert (Ib : In b (filter (fun s => ekind s =? ekind a) l1)) by (apply filter_In; split; [exact Hb|rewrite Ek; apply N.eqb_refl]).
      clear - Ia Ib N El. induction (filter (fun s => ekind s =? ekind a) l1) as [|x l IH]; [contradiction|]. cbn in N. inversion N as [|? ? N1 N2]; subst. destruct Ia as [->|Ia], Ib as [->|Ib]; [reflexivity| | |auto].
      + exfalso. apply N1. rewrite El. now apply in_map.
      + exfalso. apply N1. rewrite <- El. now apply in_map.
    - rewrite Q1, Q2. assert (PP : Permutation (map snd s1) (map snd s2)) by (apply Permutation_map; rewrite P1; now symmetry). clear - PP. induction PP; cbn; [reflexivity|now apply Permutation_app_head|rewrite !app_assoc; apply Permutation_app_tail, Permutation_app_comm|etransitivity; eassumption]. }
  destruct o1, o2. cbn in *. congruence.
Qed.
Print Assumptions C31_finalize_is_deterministic.
(** "The merging of partials is commutative and associative" (merge.h:21) does not extend to the samples. *)
Definition at_place (s : string) : evidence := Evidence (Some 7) (Some 0) NULLABLE_ARGUMENT (Some s) None false.
Definition chain4 (a b d e : evidence) : tree := Node (Node (Node (Leaf a) (Leaf b)) (Leaf d)) (Leaf e).
Theorem C31_merging_samples_is_not_commutative_refuted : exists t1 t2 o1 o2,
  Permutation (leaves t1) (leaves t2) /\ concludes t1 true o1 /\ concludes t2 true o2 /\ sample_evidence o1 <> sample_evidence o2.
Proof.
  assert (M : forall p q, merges p q (merge_in_order p (kind_count q) (kind_samples q))) by (intros p q; exists (kind_count q), (kind_samples q); auto).
  assert (C : forall a b d e, exists p, partial_of (chain4 (at_place a) (at_place b) (at_place d) (at_place e)) (Some p) /\
     p = merge_in_order (merge_in_order (merge_in_order (Partial [(4, 1)] [(4, [cleared (at_place a)])]) [(4, 1)] [(4, [cleared (at_place b)])]) [(4, 1)] [(4, [cleared (at_place d)])]) [(4, 1)] [(4, [cleared (at_place e)])]).
  { intros a b d e. eexists. split; [|reflexivity]. eapply PBoth; [eapply PBoth; [eapply PBoth|apply (PLeaf (at_place d))|]|apply (PLeaf (at_place e))|]; [apply (PLeaf (at_place a))|apply (PLeaf (at_place b))|apply M|apply M|apply M]. }
  destruct (C "a" "b" "c" "d")%string as (p1 & H1 & E1), (C "d" "b" "c" "a")%string as (p2 & H2 & E2).
  exists (chain4 (at_place "a") (at_place "b") (at_place "c") (at_place "d")), (chain4 (at_place "d") (at_place "b") (at_place "c") (at_place "a")).
  exists (Inference (Some NULLABLE) false false (map (fun s => cleared (at_place s)) ["a"; "b"; "c"]%string)), (Inference (Some NULLABLE) false false (map (fun s => cleared (at_place s)) ["b"; "c"; "d"]%string)).
  assert (St : forall l, Forall (fun s => ekind s = 4) l -> StronglySorted (fun a b => String.leb (loc a) (loc b) = true) l -> StronglySorted sample_le l).
  { intros l F S. induction S as [|x l S IH H]; constructor; inversion F; subst; [auto|]. rewrite Forall_forall in *. intros y Hy. right. split; [|auto]. transitivity 4; [assumption|]. symmetry. auto. }
  split; [|split; [|split]].
  - cbn. apply Permutation_sym. eapply perm_trans; [|apply (Permutation_app_comm [at_place "b"; at_place "c"; at_place "d"] [at_place "a"])]. cbn. eapply perm_trans; [apply (Permutation_app_comm [at_place "d"] [at_place "b"; at_place "c"; at_place "a"])|]. cbn. do 2 constructor. apply perm_swap.
  - exists (Some p1). split; [exact H1|]. subst p1. exists [(4, 4)], [(4, map (fun s => cleared (at_place s)) ["a"; "b"; "c"]%string)], (map (fun s => cleared (at_place s)) ["a"; "b"; "c"]%string). split; [reflexivity|]. split; [reflexivity|]. split; [reflexivity|]. split; [|reflexivity]. apply St; repeat constructor.
  - exists (Some p2). split; [exact H2|]. subst p2. exists [(4, 4)], [(4, map (fun s => cleared (at_place s)) ["d"; "b"; "c"]%string)], (map (fun s => cleared (at_place s)) ["b"; "c"; "d"]%string). split; [reflexivity|]. split; [reflexivity|]. split; [|split; [|reflexivity]].
    + cbn. apply Permutation_sym. apply (Permutation_app_comm [cleared (at_place "d")] [cleared (at_place "b"); cleared (at_place "c")]).
    + apply St; repeat constructor.
  - discriminate.
Qed.
Print Assumptions C31_merging_samples_is_not_commutative_refuted.

(** A case with an annotation, test-only evidence and a conflict. *)
Definition ev (k : kind) (s : string) : evidence := Evidence (Some 7) (Some 0) k (Some s) None false.
Example C29_case : forall out,
  concludes (Node (Leaf (ev UNCHECKED_DEREFERENCE "f.cc:1:2")) (Node (Leaf (ev NULLABLE_RETURN "g.cc:3:4")) (Leaf (Evidence None None ANNOTATED_NONNULL None None true)))) true out ->
  inferred out = Some NONNULL /\ has_conflict out = true /\ is_trivial out = false /\ List.length (sample_evidence out) = 2%nat.
Proof.
  intros out C. pose proof (concludes_verdict _ _ _ C) as [_ V]. destruct V as (V1 & V2 & V3); [discriminate|]. rewrite V1, V2, V3. split; [reflexivity|]. split; [reflexivity|]. split; [reflexivity|].
  destruct (C31_samples _ _ _ C) as [_ S]. set (l := sample_evidence out) in *. assert (K : forall s, In s l -> ekind s = UNCHECKED_DEREFERENCE \/ ekind s = NULLABLE_RETURN).
  { intros s Hs. destruct (S (ekind s)) as (_ & _ & H). destruct (H s) as (e & He & Hc & Hk & _); [apply filter_In; split; [exact Hs|apply N.eqb_refl]|]. rewrite <- Hk. destruct He as [<-|[<-|[<-|[]]]]; [now left|now right|discriminate Hc]. }
  destruct (S UNCHECKED_DEREFERENCE) as (L1 & _), (S NULLABLE_RETURN) as (L2 & _). cbn in L1, L2. clear - K L1 L2.
  clearbody l. assert (E : List.length l = Nat.add (List.length (filter (fun s => ekind s =? UNCHECKED_DEREFERENCE) l)) (List.length (filter (fun s => ekind s =? NULLABLE_RETURN) l))).
  { clear L1 L2. induction l as [|s l IH]; [reflexivity|]. cbn [filter List.length]. rewrite IH by (intros x Hx; apply K; now right). destruct (K s (or_introl eq_refl)) as [-> | ->]; cbn; lia. }
  unfold UNCHECKED_DEREFERENCE, NULLABLE_RETURN in *. lia.
Qed.
