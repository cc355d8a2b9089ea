(** Property theorems C19 about feature lists. *)
From Coq Require Import List NArith Bool Lia.
From Coq Require Import Strings.String.
From Verif.Common Require Import Str.
From Verif.Features Require Import Model Spec.
Import ListNotations.

Lemma feature_eqb_eq a b : feature_eqb a b = true <-> a = b.
Proof. split; [destruct a, b; (reflexivity || discriminate)|intros ->; destruct b; reflexivity]. Qed.

Lemma short_name_inj a b : short_name a = short_name b -> a = b.
Proof. destruct a, b; (reflexivity || discriminate). Qed.

Lemma assoc_some {A} k (l : list (str * A)) v : assoc k l = Some v -> In (k, v) l.
Proof.
  induction l as [|[k' v'] l IH]; cbn; [discriminate|]. destruct (str_eqb_spec k k') as [->|]; intro H.
  - injection H as ->. now left.
  - right. auto.
Qed.
Lemma assoc_none {A} k (l : list (str * A)) : assoc k l = None -> ~ In k (map fst l).
Proof.
  induction l as [|[k' v'] l IH]; cbn; [auto|]. destruct (str_eqb_spec k k') as [->|Hne]; [discriminate|].
  intros H [E|E]; [now symmetry in E|]. now apply IH.
Qed.

Lemma named_known n : (exists fs, named_features n = Some fs) <-> known n.
Proof.
  split.
  - intros [fs H]. apply assoc_some in H. unfold named_table in H.
    repeat (destruct H as [H|H];
      [injection H as <- _; first [left; reflexivity
        | right; first [exists Supported; reflexivity | exists Wrapper; reflexivity | exists Types; reflexivity
          | exists Experimental; reflexivity | exists AssumeLifetimes; reflexivity | exists AssumeThisLifetimes; reflexivity
          | exists NoAssumeLifetimes; reflexivity | exists UnsafeView; reflexivity | exists CheckDefaultInitialized; reflexivity
          | exists LeadingColonsForCppType; reflexivity | exists TemplateInstantiation; reflexivity
          | exists LayoutCompatTuple; reflexivity | exists AlwaysSpecializeGenericsInCppApiFromRust; reflexivity
          | exists RecordImplDebug; reflexivity | exists CtorPlainValues; reflexivity | exists ReserveStandardMacros; reflexivity
          | exists ThunklessAccessors; reflexivity | exists OoCasting; reflexivity | exists AsyncFnSendModuloRegions; reflexivity]]|]).
    destruct H.
  - intros [->|[f ->]]; [eexists; reflexivity|]. destruct f; eexists; reflexivity.
Qed.
Lemma named_turns_on n fs : named_features n = Some fs -> forall f, fs f = true <-> turns_on n f.
Proof.
  intros H f. assert (K : known n) by (apply named_known; now exists fs).
  destruct K as [->|[g ->]].
  - cbn in H. injection H as <-. unfold turns_on. split.
    + intro H. right. right. split; [reflexivity|]. intros [<-|[<-|[<-|[<-|[]]]]]; discriminate.
    + intros [E|[[E _]|[_ E]]]; [destruct f; discriminate|discriminate|].
      destruct f; try reflexivity; exfalso; apply E; cbn; auto.
  - assert (Hg : fs f = true <-> g = f \/ (g = Supported /\ f = Types)).
    { destruct g; cbn in H; injection H as <-; destruct f; cbn; split; intro X;
      try reflexivity; try discriminate X; auto; destruct X as [X|[X1 X2]]; discriminate. }
    rewrite Hg. unfold turns_on. split.
    + intros [->|[-> ->]]; [now left|right; left; now split].
    + intros [E|[[E ->]|[E _]]].
      * left. now apply short_name_inj.
      * right. split; [|reflexivity]. now apply (short_name_inj g Supported).
      * destruct g; discriminate.
Qed.

Lemma visit_seq_spec names : forall acc,
  match visit_seq acc names with
  | Some r => Forall known names /\
      exists u, (forall f, u f = true <-> acc f = true \/ exists n, In n names /\ turns_on n f) /\
                (forall f, r f = resolved u f)
  | None => ~ Forall known names
  end.
Proof.
  induction names as [|n names IH]; intro acc; cbn [visit_seq].
  - split; [constructor|]. exists acc. split; [|reflexivity]. intro f. split; [now left|].
    intros [H|(n & [] & _)]. exact H.
  - destruct (named_features n) as [fs|] eqn:E.
    + specialize (IH (union acc fs)). assert (K : known n) by (apply named_known; now exists fs).
      destruct (visit_seq (union acc fs) names) as [r|].
      * destruct IH as (HK & u & Hu & Hr). split; [now constructor|]. exists u. split; [|exact Hr].
        intro f. rewrite Hu. unfold union. rewrite orb_true_iff, (named_turns_on _ _ E f). split.
        -- intros [[H|H]|(m & H1 & H2)]; [now left| |]; right.
           ++ exists n. split; [now left|exact H].
           ++ exists m. split; [now right|exact H2].
        -- intros [H|(m & [<-|H1] & H2)]; auto. right. exists m. now split.
      * intro H. inversion H. contradiction.
    + intro H. inversion H as [|? ? K _]. apply named_known in K as [fs K]. congruence.
Qed.

(** ** C19.  A list of names is accepted iff every name is known, and then flag [f] is set iff
    some name turns it on, except that [NoAssumeLifetimes] is never set and
    [AssumeLifetimes] is dropped when the list contains [no_assume_lifetimes]. *)
Theorem C19_features_deserialize :
  forall names,
    ((exists r, deserialize names = Some r) <-> Forall known names) /\
    forall r, deserialize names = Some r -> forall f,
      r f = true <->
        (exists n, In n names /\ turns_on n f) /\ f <> NoAssumeLifetimes /\
        (f = AssumeLifetimes -> ~ In (lit "no_assume_lifetimes") names).
Proof.
  intro names. pose proof (visit_seq_spec names empty) as H. fold (deserialize names) in H. split.
  - destruct (deserialize names) as [r|]; split.
    + intros _. apply H.
    + intros _. now exists r.
    + intros [r E]. discriminate.
    + contradiction.
  - intros r E f. rewrite E in H. destruct H as (_ & u & Hu & Hr).
    assert (Hn : u NoAssumeLifetimes = true <-> In (lit "no_assume_lifetimes") names).
    { rewrite Hu. split.
      - intros [X|(n & Hin & [->|[[_ X]|[-> X]]])]; [discriminate|exact Hin|discriminate|].
        exfalso. apply X. now left.
      - intro Hin. right. exists (lit "no_assume_lifetimes"). split; [exact Hin|]. now left. }
    assert (Hf : (exists n, In n names /\ turns_on n f) <-> u f = true).
    { rewrite Hu. split; [now right|]. intros [X|X]; [discriminate|exact X]. }
    rewrite Hf, <- Hn, Hr. unfold resolved, minus.
    destruct (u NoAssumeLifetimes) eqn:Eu; rewrite ?andb_true_iff, ?negb_true_iff; destruct f; cbn;
      intuition (congruence || auto).
Qed.

(** Order and repetition are irrelevant. *)
Theorem C19_features_order_irrelevant :
  forall l1 l2, (forall n, In n l1 <-> In n l2) ->
    match deserialize l1, deserialize l2 with
    | Some r1, Some r2 => forall f, r1 f = r2 f
    | None, None => True
    | _, _ => False
    end.
Proof.
  intros l1 l2 H. destruct (C19_features_deserialize l1) as [A1 B1], (C19_features_deserialize l2) as [A2 B2].
  assert (HF : Forall known l1 <-> Forall known l2).
  { rewrite !Forall_forall. split; intros X n Hn; apply X; now apply H. }
  destruct (deserialize l1) as [r1|] eqn:E1, (deserialize l2) as [r2|] eqn:E2; auto.
  - intro f. apply eq_true_iff_eq. rewrite (B1 r1 eq_refl f), (B2 r2 eq_refl f).
    assert (X : (exists n, In n l1 /\ turns_on n f) <-> (exists n, In n l2 /\ turns_on n f)).
    { split; intros (n & X1 & X2); exists n; (split; [now apply H|exact X2]). }
    rewrite X, (H (lit "no_assume_lifetimes")). reflexivity.
  - assert (exists r, @None flags = Some r) as [r Hr]; [|discriminate].
    apply A2, HF, A1. now exists r1.
  - assert (exists r, @None flags = Some r) as [r Hr]; [|discriminate].
    apply A1, HF, A2. now exists r2.
Qed.

(** Each flag can be named, by a name of its own, and its hint is the label of that name. *)
Theorem C19_feature_names :
  forall f, (exists fs, named_features (short_name f) = Some fs /\ fs f = true) /\
    (forall g, short_name g = short_name f -> g = f) /\
    aspect_hint f = (lit "//features:" ++ short_name f)%list.
Proof.
  intro f. split; [|split; [intros g; apply short_name_inj|destruct f; reflexivity]].
  destruct f; eexists; split; reflexivity.
Qed.

(** Resolution is idempotent. *)
Theorem C19_resolved_idempotent : forall fs f, resolved (resolved fs) f = resolved fs f.
Proof.
  intros fs f. unfold resolved, minus.
  destruct (fs NoAssumeLifetimes); cbn [feature_eqb]; rewrite ?andb_false_r; destruct f; cbn;
  rewrite ?andb_true_r, ?andb_false_r; reflexivity.
Qed.

Example demo : exists r, deserialize [lit "no_assume_lifetimes"; lit "all"; lit "supported"] = Some r /\
  r AssumeLifetimes = false /\ r Types = true /\ r OoCasting = false.
Proof. eexists. repeat split. Qed.
Example demo_bad : deserialize [lit "all"; lit "nonsense"] = None.
Proof. reflexivity. Qed.

Print Assumptions C19_features_deserialize.
Print Assumptions C19_features_order_irrelevant.
Print Assumptions C19_feature_names.
Print Assumptions C19_resolved_idempotent.
