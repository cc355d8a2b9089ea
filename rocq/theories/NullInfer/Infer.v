(** C30 on the level of [infer]. *)
From Coq Require Import List Arith NArith Bool Lia String.
From Verif.NullInfer Require Import Model Spec.
Import ListNotations.
Local Open Scope N_scope.

Lemma nullability_eqb_eq a b : nullability_eqb a b = true <-> a = b.
Proof. destruct a, b; cbn; split; congruence. Qed.
Definition step (r : option result) (bn : bool * nullability) : option result := when (fst bn) (snd bn) r.
Definition steps (l : list (bool * nullability)) (r : option result) : option result := fold_left step l r.
Definition says_other (v : nullability) (bn : bool * nullability) : bool := fst bn && negb (nullability_eqb v (snd bn)).
Lemma steps_some l : forall r, steps l (Some r) = Some (Result (verdict r) (conflict r || existsb (says_other (verdict r)) l) (trivial r)).
Proof.
  induction l as [|[b n] l IH]; intros [v cf tr]; cbn [steps fold_left existsb verdict conflict trivial]; [now rewrite orb_false_r|].
  unfold step at 2, when, says_other at 1. cbn [fst snd]. destruct b; [|cbn [andb orb]; apply IH].
  cbn [update verdict trivial]. destruct (nullability_eqb v n); cbn [andb negb orb]; fold (steps l); [apply IH|]. unfold steps in IH. rewrite IH. cbn. now rewrite orb_true_r.
Qed.
Lemma steps_none l : steps l None = None <-> forall bn, In bn l -> fst bn = false.
Proof.
  induction l as [|[b n] l IH]; [split; [contradiction|reflexivity]|]. cbn [steps fold_left]. unfold step at 2, when. cbn [fst snd]. destruct b.
  - cbn [update]. change (fold_left step l (Some (Result n false false))) with (steps l (Some (Result n false false))). rewrite steps_some. split; [discriminate|]. intro H. specialize (H _ (or_introl eq_refl)). discriminate.
  - change (fold_left step l None) with (steps l None). rewrite IH. split; [intros H bn [<-|Hb]; auto|]. intros H bn Hb. apply H. now right.
Qed.
(** The result of a list of rules: what the first one that applies says; a conflict if another one disagrees. *)
Lemma steps_first l r : steps l None = Some r ->
  trivial r = false /\
  (exists i, nth_error l i = Some (true, verdict r) /\ forall j bn, (j < i)%nat -> nth_error l j = Some bn -> fst bn = false) /\
  (conflict r = true <-> exists bn, In bn l /\ fst bn = true /\ snd bn <> verdict r).
Proof.
  induction l as [|[b n] l IH]; [discriminate|]. cbn [steps fold_left]. unfold step at 2, when. cbn [fst snd]. destruct b.
  - cbn [update]. change (fold_left step l (Some (Result n false false))) with (steps l (Some (Result n false false))). rewrite steps_some. cbn [verdict conflict trivial orb]. intro E. injection E as <-. cbn [verdict conflict trivial].
    split; [reflexivity|]. split; [exists 0%nat; split; [reflexivity|]; intros; lia|]. rewrite existsb_exists. split.
    + intros ([b' n'] & Hi & H). exists (b', n'). unfold says_other in H. apply andb_prop in H as [H1 H2]. split; [now right|]. split; [exact H1|]. intros E. cbn in *. subst n'. apply negb_true_iff in H2. assert (nullability_eqb n n = true) by now apply nullability_eqb_eq. congruence.
    + intros ([b' n'] & [E|Hi] & H1 & H2); [injection E as <- <-; cbn in H2; congruence|]. exists (b', n'). split; [exact Hi|]. unfold says_other. cbn in *. rewrite H1. cbn. apply negb_true_iff. destruct (nullability_eqb n n') eqn:E; [apply nullability_eqb_eq in E; congruence|reflexivity].
  - change (fold_left step l None) with (steps l None). intro E. destruct (IH E) as (H1 & (i & Hi & Hj) & H3). split; [exact H1|]. split.
    + exists (S i). split; [exact Hi|]. intros [|j] bn Hlt Hb; [cbn in Hb; injection Hb as <-; reflexivity|]. apply (Hj j); [lia|exact Hb].
    + rewrite H3. split; intros (bn & Hi' & H4 & H5); exists bn; (split; [|auto]); [now right|]. destruct Hi' as [<-|H]; [discriminate|exact H].
Qed.

Ltac mem := repeat (first [left; reflexivity|right]).
Section Counts.
  Variable counts : kind -> N.
  Let seen (k : kind) : bool := c counts k.
  Definition rule_bool (o : option kind) : bool := match o with Some k => c counts k | None => any_assignment_from_nullable counts end.
  Definition rules : list (bool * nullability) := map (fun on => (rule_bool (fst on), snd on)) confidence.
  Lemma mandatory_rules : mandatory counts = steps rules None.
  Proof. reflexivity. Qed.
  Lemma rule_holds o : rule_bool o = true <-> holds seen o.
  Proof.
    destruct o as [k|]; [reflexivity|]. cbn [rule_bool holds]. unfold any_assignment_from_nullable, left_null. rewrite orb_true_iff, andb_true_iff, negb_true_iff. reflexivity.
  Qed.
  Lemma nonnull_in_confidence : must_be_nonnull seen <-> exists o, In (o, NONNULL) confidence /\ holds seen o.
  Proof.
    split.
    - intros (k & Hk & Hs). exists (Some k). split; [|exact Hs]. unfold nonnull_kinds in Hk. cbn [In] in Hk. unfold confidence. cbn [In].
      repeat (destruct Hk as [<-|Hk]; [solve [mem]|]). contradiction.
    - intros (o & Ho & Hs). unfold confidence in Ho. cbn [In] in Ho.
      repeat (destruct Ho as [E|Ho]; [first [discriminate E|injection E as <-; cbn [holds] in Hs; eexists; split; [|exact Hs]; unfold nonnull_kinds; cbn [In]; solve [mem]]|]). contradiction.
  Qed.
  Lemma nullable_in_confidence : must_be_nullable seen <-> exists o, In (o, NULLABLE) confidence /\ holds seen o.
  Proof.
    split.
    - intros [(k & Hk & Hs)|H].
      + unfold nullable_kinds in Hk. cbn [In] in Hk. unfold confidence.
        repeat (destruct Hk as [<-|Hk]; [first [eexists (Some _); split; [|exact Hs]; cbn [In]; solve [mem]|exists None; split; [cbn [In]; solve [mem]|left; exact Hs]]|]). contradiction.
      + exists None. split; [unfold confidence; cbn [In]; solve [mem]|right; exact H].
    - intros (o & Ho & Hs). unfold confidence in Ho. cbn [In] in Ho.
      repeat (destruct Ho as [E|Ho]; [first [discriminate E|injection E as <-; cbn [holds] in Hs;
        first [destruct Hs as [Hs|Hs]; [left; exists ASSIGNED_FROM_NULLABLE; split; [unfold nullable_kinds; cbn [In]; solve [mem]|exact Hs]|right; exact Hs]
              |left; eexists; split; [|exact Hs]; unfold nullable_kinds; cbn [In]; solve [mem]]]|]). contradiction.
  Qed.
  Lemma in_rules b n : In (b, n) rules <-> exists o, In (o, n) confidence /\ rule_bool o = b.
  Proof.
    unfold rules. rewrite in_map_iff. split.
    - intros ([o n'] & E & Hi). injection E as <- <-. now exists o.
    - intros (o & Hi & <-). exists (o, n). split; [reflexivity|exact Hi].
  Qed.
  Lemma nth_rules i : nth_error rules i = option_map (fun on => (rule_bool (fst on), snd on)) (nth_error confidence i).
  Proof. unfold rules. apply nth_error_map. Qed.
  Lemma confidence_known o n : In (o, n) confidence -> n = NONNULL \/ n = NULLABLE.
  Proof. unfold confidence. cbn [In]. intro H. repeat (destruct H as [E|H]; [injection E as _ <-; auto|]). contradiction. Qed.

  Lemma mandatory_some : must_be_nonnull seen \/ must_be_nullable seen -> exists r, mandatory counts = Some r /\
    most_confident seen (verdict r) /\ trivial r = false /\ (conflict r = true <-> must_be_nonnull seen /\ must_be_nullable seen).
  Proof.
    intro H. rewrite mandatory_rules. destruct (steps rules None) as [r|] eqn:E.
    - exists r. split; [reflexivity|]. apply steps_first in E as (E1 & (i & Hi & Hj) & E3). rewrite nth_rules in Hi. destruct (nth_error confidence i) as [[o n]|] eqn:En; [|discriminate]. cbn in Hi. injection Hi as Hb Hn.
      split; [|split; [exact E1|]].
      + exists i, o. rewrite <- Hn. split; [exact En|]. split; [now apply rule_holds|]. intros j o' n' Hlt Hc Hh. specialize (Hj j (rule_bool o', n') Hlt). rewrite nth_rules, Hc in Hj. cbn in Hj. apply rule_holds in Hh. rewrite Hj in Hh; [discriminate|reflexivity].
      + rewrite E3, nonnull_in_confidence, nullable_in_confidence. apply nth_error_In in En. apply rule_holds in Hb. rewrite <- Hn in *. clear Hn E3. split.
        * intros ([b n'] & Hin & Ht & Hne). cbn in Ht, Hne. subst b. apply in_rules in Hin as (o' & Ho' & Hb'). apply rule_holds in Hb'.
          destruct (confidence_known _ _ En) as [-> | ->], (confidence_known _ _ Ho') as [-> | ->]; try congruence; split; eauto.
        * intros [(o1 & I1 & H1) (o2 & I2 & H2)]. apply rule_holds in H1, H2. destruct (confidence_known _ _ En) as [-> | ->].
          -- exists (true, NULLABLE). split; [apply in_rules; eauto|]. split; [reflexivity|discriminate].
          -- exists (true, NONNULL). split; [apply in_rules; eauto|]. split; [reflexivity|discriminate].
    - exfalso. pose proof (proj1 (steps_none rules) E) as E'. clear E. rewrite nonnull_in_confidence, nullable_in_confidence in H.
      assert (exists o n, In (o, n) confidence /\ holds seen o) as (o & n & Hi & Hh) by (destruct H as [(o & Hi & Hh)|(o & Hi & Hh)]; eauto).
      apply rule_holds in Hh. specialize (E' (true, n)). cbn in E'. assert (true = false); [apply E'; apply in_rules; eauto|discriminate].
  Qed.
  Lemma mandatory_none : ~ must_be_nonnull seen -> ~ must_be_nullable seen -> mandatory counts = None.
  Proof.
    intros H1 H2. rewrite mandatory_rules. apply steps_none. intros [b n] Hi. apply in_rules in Hi as (o & Hi & Hb). cbn. destruct b; [|reflexivity]. exfalso. apply rule_holds in Hb.
    destruct (confidence_known _ _ Hi) as [-> | ->]; [apply H1; apply nonnull_in_confidence|apply H2; apply nullable_in_confidence]; eauto.
  Qed.

  (** Annotations take precedence over everything; two contradicting ones are a conflict. *)
  Theorem infer_annotated soft : annotated seen ->
    infer counts soft = (if seen ANNOTATED_NONNULL && seen ANNOTATED_NULLABLE then Result UNKNOWN true false
                         else Result (if seen ANNOTATED_NONNULL then NONNULL else NULLABLE) false true).
  Proof.
    unfold annotated, infer, seen. destruct (c counts ANNOTATED_NONNULL), (c counts ANNOTATED_NULLABLE); cbn [andb]; intros [H|H]; try discriminate; reflexivity.
  Qed.
  Theorem infer_mandatory soft : ~ annotated seen -> must_be_nonnull seen \/ must_be_nullable seen ->
    let r := infer counts soft in
    most_confident seen (verdict r) /\ trivial r = false /\ (conflict r = true <-> must_be_nonnull seen /\ must_be_nullable seen).
  Proof.
    intros Ha Hm. destruct (mandatory_some Hm) as (r & E & H). unfold infer. rewrite E. unfold annotated, seen in Ha.
    destruct (c counts ANNOTATED_NONNULL); [exfalso; auto|]. destruct (c counts ANNOTATED_NULLABLE); [exfalso; auto|]. cbn [andb]. exact H.
  Qed.
  (** First-match reading of a list of guarded conclusions. *)
  Lemma first_rule (l : list (kind * list kind * nullability)) (g : kind * list kind * nullability -> bool) :
    (forall x, In x l -> g x = true <-> fires seen x) ->
    let n := fold_right (fun x acc => if g x then snd x else acc) UNKNOWN l in
    (exists i rule, nth_error l i = Some rule /\ snd rule = n /\ fires seen rule /\
       forall j rule', (j < i)%nat -> nth_error l j = Some rule' -> ~ fires seen rule') \/
    (n = UNKNOWN /\ forall rule, In rule l -> ~ fires seen rule).
  Proof.
    induction l as [|x l IH]; intro Hg; [right; split; [reflexivity|contradiction]|]. cbn [fold_right]. destruct (g x) eqn:E.
    - left. exists 0%nat, x. split; [reflexivity|]. split; [reflexivity|]. split; [apply Hg; [now left|exact E]|]. intros; lia.
    - assert (Nx : ~ fires seen x) by (intro F; apply Hg in F; [congruence|now left]). destruct IH as [(i & rule & H1 & H2 & H3 & H4)|[H1 H2]]; [intros y Hy; apply Hg; now right| |].
      + left. exists (S i), rule. split; [exact H1|]. split; [exact H2|]. split; [exact H3|]. intros [|j] rule' Hlt Hn; [cbn in Hn; injection Hn as <-; exact Nx|]. apply (H4 j); [lia|exact Hn].
      + right. split; [exact H1|]. intros rule [<-|Hr]; [exact Nx|now apply H2].
  Qed.
  Definition fires_b (rule : kind * list kind * nullability) : bool := let '(k, without, _) := rule in c counts k && forallb (fun k' => negb (c counts k')) without.
  Lemma fires_b_spec rule : fires_b rule = true <-> fires seen rule.
  Proof.
    destruct rule as [[k w] n]. unfold fires_b, fires. rewrite andb_true_iff, forallb_forall. split; intros [H1 H2]; (split; [exact H1|]); intros k' Hk; [apply negb_true_iff|rewrite negb_true_iff]; now apply H2.
  Qed.
  Theorem infer_optional soft : ~ annotated seen -> ~ must_be_nonnull seen -> ~ must_be_nullable seen ->
    let r := infer counts soft in
    conflict r = false /\ trivial r = false /\ if soft then soft_conclusion seen (verdict r) else verdict r = UNKNOWN.
  Proof.
    intros Ha Hn Hl. unfold infer. rewrite (mandatory_none Hn Hl).
    assert (A1 : c counts ANNOTATED_NONNULL = false) by (destruct (c counts ANNOTATED_NONNULL) eqn:E; [exfalso; apply Ha; left; exact E|reflexivity]).
    assert (A2 : c counts ANNOTATED_NULLABLE = false) by (destruct (c counts ANNOTATED_NULLABLE) eqn:E; [exfalso; apply Ha; right; exact E|reflexivity]).
    assert (N1 : forall k, In k nullable_kinds -> c counts k = false) by (intros k Hk; destruct (c counts k) eqn:E; [exfalso; apply Hl; left; exists k; auto|reflexivity]).
    assert (N2 : forall k, In k nonnull_kinds -> c counts k = false) by (intros k Hk; destruct (c counts k) eqn:E; [exfalso; apply Hn; exists k; auto|reflexivity]).
    assert (N3 : any_assignment_from_nullable counts = false) by (destruct (any_assignment_from_nullable counts) eqn:E; [exfalso; apply Hl; unfold any_assignment_from_nullable in E; apply orb_prop in E as [E|E]; [left; exists ASSIGNED_FROM_NULLABLE; split; [cbn; tauto|exact E]|right; apply andb_prop in E as [E1 E2]; split; [exact E1|now apply negb_true_iff]]|reflexivity]).
    rewrite A1, A2, N3. rewrite (N1 NULLABLE_RETURN), (N1 NULLABLE_ARGUMENT), (N1 NULLABLE_REFERENCE_RETURN), (N1 NULLABLE_REFERENCE_ARGUMENT) by (cbn; tauto). rewrite (N2 NONNULL_REFERENCE_RETURN), (N2 NONNULL_REFERENCE_ARGUMENT) by (cbn; tauto).
    cbn [andb negb]. destruct soft; cbn [negb]; [|repeat split].
    pose proof (first_rule soft_rules fires_b (fun x _ => fires_b_spec x)) as F. fold (soft_conclusion seen) in F.
    set (n := fold_right _ _ _) in F. assert (En : n = fold_right (fun x acc => if fires_b x then snd x else acc) UNKNOWN soft_rules) by reflexivity. clearbody n.
    unfold soft_rules in En. cbn [fold_right fires_b forallb snd andb] in En. rewrite !andb_true_r in En.
    repeat match type of En with context [c counts ?k && negb (c counts ?k')] => rewrite (andb_comm (c counts k) (negb (c counts k'))) in En end.
    match goal with |- conflict ?x = false /\ _ => assert (Ex : x = just n) end.
    { rewrite En, !andb_true_r. repeat match goal with |- (if ?b then just _ else _) = just (if ?b then _ else _) => destruct b; [reflexivity|] end. reflexivity. }
    rewrite Ex. cbn. auto.
  Qed.
End Counts.
