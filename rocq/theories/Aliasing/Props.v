(** C28: the check for mutable aliasing. *)
From Coq Require Import List Arith Bool Lia Sorting.Sorted Sorting.Permutation.
From Verif.Aliasing Require Import Model Spec.
Import ListNotations.

Lemma overlaps_spec a b : proper a -> proper b -> (overlaps a b = true <-> share_memory a b).
Proof.
  intros Ha Hb. unfold overlaps. rewrite andb_true_iff, !Nat.ltb_lt. split.
  - intros [H1 H2]. exists (max (start a) (start b)). unfold covers. destruct Ha, Hb; lia.
  - intros (x & Hx & Hy). unfold covers in *. lia.
Qed.
Definition le_range (p : ptr) : Prop := start p <= stop p.
Lemma proper_le p : proper p -> le_range p.
Proof. unfold proper, le_range. lia. Qed.

Definition Chain (muts : list ptr) : Prop := StronglySorted (fun a b => stop a <= start b) muts.
Lemma adjacent_false muts : Forall le_range muts -> (adjacent_alias muts = false <-> Chain muts).
Proof.
  unfold Chain. induction muts as [|a muts IH]; intro F; [split; [constructor|reflexivity]|]. inversion F as [|? ? Fa Fm]; subst. specialize (IH Fm).
  destruct muts as [|b muts]; [split; [repeat constructor|reflexivity]|]. cbn [adjacent_alias]. rewrite orb_false_iff, Nat.ltb_ge. rewrite IH. split.
  - intros [H1 H2]. constructor; [exact H2|]. constructor; [exact H1|]. inversion H2 as [|? ? H3 H4]; subst. inversion Fm as [|? ? Fb _]; subst. eapply Forall_impl; [|exact H4]. cbn. unfold le_range in Fb. intros c Hc. lia.
  - intro H. inversion H as [|? ? H2 H3]; subst. split; [now inversion H3|exact H2].
Qed.
Lemma skip_suffix muts c : exists pre, muts = pre ++ skip muts c /\ Forall (fun m => stop m <= start c) pre /\
  match skip muts c with m :: _ => start c < stop m | [] => True end.
Proof.
  induction muts as [|m muts (pre & E & F & H)]; [exists []; repeat split; constructor|]. cbn [skip]. destruct (Nat.leb_spec (stop m) (start c)).
  - exists (m :: pre). cbn. rewrite <- E. split; [reflexivity|]. split; [now constructor|exact H].
  - exists []. split; [reflexivity|]. split; [constructor|exact H0].
Qed.
Lemma chain_app_r pre l : Chain (pre ++ l) -> Chain l.
Proof. unfold Chain. induction pre as [|x pre IH]; [auto|]. cbn. intro H. inversion H; subst. now apply IH. Qed.
Lemma sweep_spec consts : forall muts, Forall le_range muts -> Chain muts -> StronglySorted (fun a b => start a <= start b) consts ->
  (sweep muts consts = true <-> exists m c, In m muts /\ In c consts /\ overlaps m c = true).
Proof.
  induction consts as [|c consts IH]; intros muts F Ch S; cbn [sweep]; [split; [discriminate|intros (m & c & _ & [] & _)]|].
  inversion S as [|? ? S' Sc]; subst. destruct (skip_suffix muts c) as (pre & E & Fp & H).
  assert (Skipped : forall m c', In m pre -> In c' (c :: consts) -> overlaps m c' = false).
  { intros m c' Hm Hc. rewrite Forall_forall in Fp, Sc. specialize (Fp _ Hm). assert (start c <= start c') by (destruct Hc as [<-|Hc]; [lia|now apply Sc]).
    unfold overlaps. apply andb_false_iff. right. apply Nat.ltb_ge. lia. }
  assert (Restrict : (exists m c0, In m muts /\ In c0 (c :: consts) /\ overlaps m c0 = true) <-> exists m c0, In m (skip muts c) /\ In c0 (c :: consts) /\ overlaps m c0 = true).
  { split; intros (m & c0 & Hm & Hc & Ho).
    - exists m, c0. split; [|auto]. rewrite E in Hm. apply in_app_or in Hm as [Hm|Hm]; [|exact Hm]. rewrite (Skipped _ _ Hm Hc) in Ho. discriminate.
    - exists m, c0. split; [rewrite E; apply in_or_app; now right|auto]. }
  rewrite Restrict. destruct (skip muts c) as [|m0 rest].
  - split; [discriminate|]. intros (m & c0 & [] & _).
  - assert (F' : Forall le_range (m0 :: rest)) by (rewrite E in F; apply Forall_app in F; tauto). assert (Ch' : Chain (m0 :: rest)) by (rewrite E in Ch; now apply chain_app_r in Ch).
    destruct (Nat.ltb_spec (start m0) (stop c)) as [Hlt|Hge].
    + split; [|reflexivity]. intros _. exists m0, c. split; [now left|]. split; [now left|]. unfold overlaps. apply andb_true_intro. split; apply Nat.ltb_lt; assumption.
    + rewrite IH by assumption. split; intros (m & c0 & Hm & Hc & Ho).
      * exists m, c0. split; [exact Hm|]. split; [now right|exact Ho].
      * destruct Hc as [<-|Hc]; [|now exists m, c0]. exfalso. unfold overlaps in Ho. apply andb_prop in Ho as [O1 O2]. apply Nat.ltb_lt in O1, O2.
        destruct Hm as [<-|Hm]; [lia|]. inversion Ch' as [|? ? _ C1]; subst. rewrite Forall_forall in C1. specialize (C1 _ Hm). inversion F' as [|? ? F0 _]; subst. unfold le_range in F0. lia.
Qed.

Definition some_pair (muts : list ptr) : Prop := exists i j p q, i < j /\ nth_error muts i = Some p /\ nth_error muts j = Some q /\ share_memory p q.
Lemma share_sym p q : share_memory p q <-> share_memory q p.
Proof. unfold share_memory. split; intros (a & H1 & H2); exists a; auto. Qed.
Lemma pair_order muts : (exists i j p q, i <> j /\ nth_error muts i = Some p /\ nth_error muts j = Some q /\ share_memory p q) <-> some_pair muts.
Proof.
  split; intros (i & j & p & q & H1 & H2 & H3 & H4).
  - destruct (lt_dec i j); [exists i, j, p, q; auto|]. exists j, i, q, p. rewrite share_sym. split; [lia|auto].
  - exists i, j, p, q. split; [lia|auto].
Qed.
Lemma some_pair_cons a l : some_pair (a :: l) <-> (exists q, In q l /\ share_memory a q) \/ some_pair l.
Proof.
  split.
  - intros (i & j & p & q & H1 & H2 & H3 & H4). destruct j as [|j]; [lia|]. destruct i as [|i].
    + left. cbn in H2. injection H2 as ->. exists q. split; [eapply nth_error_In; exact H3|exact H4].
    + right. exists i, j, p, q. split; [lia|auto].
  - intros [(q & Hq & Hs)|(i & j & p & q & H1 & H2 & H3 & H4)].
    + apply In_nth_error in Hq as [n Hn]. exists 0, (S n), a, q. split; [lia|auto].
    + exists (S i), (S j), p, q. split; [lia|auto].
Qed.
Lemma some_pair_perm l l' : Permutation l l' -> some_pair l -> some_pair l'.
Proof.
  induction 1 as [|x l l' P IH|x y l|l l' l'' P1 IH1 P2 IH2]; [auto| | |auto].
  - rewrite !some_pair_cons. intros [(q & Hq & Hs)|H]; [left|right; auto]. exists q. split; [|exact Hs]. eapply Permutation_in; eassumption.
  - rewrite !some_pair_cons. cbn. intros [(q & [<-|Hq] & Hs)|[(q & Hq & Hs)|H]].
    + left. exists y. split; [now left|]. now apply share_sym.
    + right. left. now exists q.
    + left. exists q. auto.
    + right. now right.
Qed.
(** The adjacent check finds an overlapping pair in a sorted list of proper ranges. *)
Lemma adjacent_spec l : Forall proper l -> StronglySorted (fun a b => start a <= start b) l -> (adjacent_alias l = true <-> some_pair l).
Proof.
  intros F S. destruct (adjacent_alias l) eqn:E.
  - split; [intros _|reflexivity]. clear - F S E. induction l as [|a l IH]; [discriminate|]. inversion F as [|? ? Fa Fl]; subst. inversion S as [|? ? Sl Sa]; subst.
    destruct l as [|b l]; [discriminate|]. cbn [adjacent_alias] in E. rewrite some_pair_cons. apply orb_prop in E as [E|E]; [|right; now apply IH].
    left. exists b. split; [now left|]. apply Nat.ltb_lt in E. inversion Sa as [|? ? Sab _]; subst. inversion Fl as [|? ? Fb _]; subst. exists (start b). unfold covers, proper in *. lia.
  - split; [discriminate|]. intros (i & j & p & q & Hij & Hp & Hq & (a & Ca & Cb)).
    apply adjacent_false in E; [|eapply Forall_impl; [|exact F]; apply proper_le]. exfalso. clear - E Hij Hp Hq Ca Cb. revert i j Hij Hp Hq. unfold Chain in E.
    induction E as [|x l S IH H]; intros i j Hij Hp Hq; [destruct i; discriminate|]. destruct j as [|j]; [lia|]. cbn in Hq. destruct i as [|i].
    + cbn in Hp. injection Hp as ->. apply nth_error_In in Hq. rewrite Forall_forall in H. specialize (H _ Hq). unfold covers in *. lia.
    + cbn in Hp. apply (IH i j); auto. lia.
Qed.
Lemma small_spec muts consts : Forall proper muts -> Forall proper consts -> (small_alias muts consts = true <-> aliased muts consts).
Proof.
  intros Fm Fc. unfold small_alias, aliased. rewrite orb_true_iff, pair_order. rewrite Forall_forall in Fc.
  assert (P : pairs_alias muts = true <-> some_pair muts).
  { induction Fm as [|a l Fa Fl IH]; [split; [discriminate|intros ([|?] & ? & ? & ? & _ & H & _); discriminate]|]. cbn [pairs_alias]. rewrite orb_true_iff, some_pair_cons, IH, existsb_exists. rewrite Forall_forall in Fl.
    split; (intros [(q & Hq & H)|H]; [left; exists q; split; [exact Hq|]|right; exact H]); apply (overlaps_spec a q Fa (Fl _ Hq)); exact H. }
  rewrite P, existsb_exists. rewrite Forall_forall in Fm. split; (intros [H|H]; [left; exact H|right]).
  - destruct H as (m & Hm & H). apply existsb_exists in H as (c & Hc & H). exists m, c. split; [exact Hm|]. split; [exact Hc|]. apply overlaps_spec; auto.
  - destruct H as (m & c & Hm & Hc & H). exists m. split; [exact Hm|]. apply existsb_exists. exists c. split; [exact Hc|]. apply overlaps_spec; auto.
Qed.
Lemma spans_spec sort muts consts : sorts sort -> Forall proper muts -> Forall proper consts ->
  (has_aliasing_spans sort muts consts = true <-> aliased muts consts).
Proof.
  intros HS Fm Fc. unfold has_aliasing_spans. destruct muts as [|m0 muts0] eqn:Em.
  { split; [discriminate|]. intros [(i & j & p & q & _ & H & _)|(p & q & [] & _)]. destruct i; discriminate. }
  rewrite <- Em in *. clear Em m0 muts0. destruct (HS muts) as [Pm Sm], (HS consts) as [Pc Sc].
  assert (Fm' : Forall proper (sort muts)) by (eapply Permutation_Forall; eassumption). assert (Fc' : Forall proper (sort consts)) by (eapply Permutation_Forall; eassumption).
  unfold aliased. rewrite pair_order. assert (Ep : some_pair muts <-> some_pair (sort muts)) by (split; apply some_pair_perm; [exact Pm|now symmetry]).
  destruct (adjacent_alias (sort muts)) eqn:E.
  - apply adjacent_spec in E; [|assumption|assumption]. split; [intros _; left; now apply Ep|reflexivity].
  - assert (Np : ~ some_pair muts) by (intro H; apply Ep in H; apply adjacent_spec in H; [congruence|assumption|assumption]).
    assert (Lm : Forall le_range (sort muts)) by (eapply Forall_impl; [|exact Fm']; apply proper_le).
    apply adjacent_false in E; [|exact Lm]. rewrite (sweep_spec _ _ Lm E Sc). rewrite Forall_forall in Fm', Fc'. split.
    + intros (m & c & Hm & Hc & Ho). right. exists m, c. split; [eapply Permutation_in; [symmetry; exact Pm|exact Hm]|]. split; [eapply Permutation_in; [symmetry; exact Pc|exact Hc]|]. apply overlaps_spec; auto.
    + intros [H|(m & c & Hm & Hc & H)]; [contradiction|]. assert (Hm' : In m (sort muts)) by (eapply Permutation_in; eassumption). assert (Hc' : In c (sort consts)) by (eapply Permutation_in; eassumption).
      exists m, c. split; [exact Hm'|]. split; [exact Hc'|]. apply overlaps_spec; auto.
Qed.

(** The check reports aliasing exactly when two arguments, one of them mutable, share a byte,
    however [std::sort] breaks ties and whichever of the two algorithms is chosen. *)
Theorem C28_exact : forall sort muts consts, sorts sort -> Forall proper muts -> Forall proper consts ->
  (has_aliasing sort muts consts = true <-> aliased muts consts) /\
  (has_aliasing_spans sort muts consts = true <-> aliased muts consts).
Proof.
  intros sort muts consts HS Fm Fc. split; [|now apply spans_spec]. unfold has_aliasing.
  destruct ((length muts =? 0) || (length muts =? 1) && (length consts =? 0)) eqn:E.
  - split; [discriminate|]. intro H. exfalso. apply orb_prop in E as [E|E].
    + apply Nat.eqb_eq in E. destruct muts; [|discriminate]. destruct H as [(i & j & p & q & _ & H & _)|(p & q & [] & _)]. destruct i; discriminate.
    + apply andb_prop in E as [E1 E2]. apply Nat.eqb_eq in E1, E2. destruct consts; [|discriminate]. destruct muts as [|m [|]]; try discriminate.
      destruct H as [(i & j & p & q & Hij & H1 & H2 & _)|(p & q & _ & [] & _)]. destruct i as [|[|]], j as [|[|]]; try discriminate; now apply Hij.
  - destruct ((length muts <=? 3) && (length consts <=? 3)); [now apply small_spec|now apply spans_spec].
Qed.
Print Assumptions C28_exact.
(** The process is stopped exactly when the arguments alias. *)
Theorem C28_check_stops_iff_aliased : forall sort muts consts, sorts sort -> Forall proper muts -> Forall proper consts ->
  (check_no_mutable_aliasing sort muts consts = false <-> aliased muts consts).
Proof.
  intros sort muts consts HS Fm Fc. destruct (C28_exact sort muts consts HS Fm Fc) as [H1 H2]. unfold check_no_mutable_aliasing. unfold has_aliasing in *.
  destruct ((length muts =? 0) || (length muts =? 1) && (length consts =? 0)); [rewrite <- H1; split; discriminate|].
  destruct ((length muts <=? 3) && (length consts <=? 3)); rewrite negb_false_iff; assumption.
Qed.
Print Assumptions C28_check_stops_iff_aliased.
(** The ranges made for objects and slices are proper. *)
Theorem C28_ranges_are_proper : forall address len size, 0 < address -> 0 < size ->
  proper (of_object address size) /\ proper (of_slice address len size).
Proof.
  intros a l s Ha Hs. split; [left; cbn; lia|]. unfold of_slice, proper. destruct (Nat.ltb_spec 0 l); cbn; [|assert (l = 0) by lia; subst l; right; cbn; lia].
  left. split; [exact Ha|]. assert (1 * 1 <= l * s) by (apply Nat.mul_le_mono; lia). lia.
Qed.
Print Assumptions C28_ranges_are_proper.
(** For other empty ranges (at a non-null address) the answer depends on how ties are sorted. *)
Definition insert_by (before : ptr -> ptr -> bool) (x : ptr) := fix ins (l : list ptr) : list ptr :=
  match l with [] => [x] | y :: l' => if before x y then x :: l else y :: ins l' end.
Definition isort (before : ptr -> ptr -> bool) (l : list ptr) : list ptr := fold_right (insert_by before) [] l.
Lemma insert_perm before x l : Permutation (x :: l) (insert_by before x l).
Proof. induction l as [|y l IH]; [reflexivity|]. cbn. destruct (before x y); [reflexivity|]. rewrite perm_swap. now constructor. Qed.
Lemma isort_sorts before : (forall x y, before x y = true -> start x <= start y) -> (forall x y, before x y = false -> start y <= start x) -> sorts (isort before).
Proof.
  intros H1 H2 l. induction l as [|x l [P S]]; [split; [constructor|constructor]|]. cbn [isort fold_right]. fold (isort before l). split.
  - rewrite <- insert_perm. now constructor.
  - clear P. induction S as [|y l0 S IH F]; cbn; [repeat constructor|]. destruct (before x y) eqn:E.
    + constructor; [constructor; assumption|]. constructor; [now apply H1|]. apply H1 in E. eapply Forall_impl; [|exact F]. cbn. intros; lia.
    + constructor; [exact IH|]. apply H2 in E. eapply Permutation_Forall; [apply insert_perm|]. constructor; [exact E|exact F].
Qed.
Theorem C28_empty_range_ties_refuted : exists sort1 sort2 muts, sorts sort1 /\ sorts sort2 /\
  Forall (fun p => start p <= stop p) muts /\ ~ aliased muts [] /\
  has_aliasing_spans sort1 muts [] = false /\ has_aliasing_spans sort2 muts [] = true.
Proof.
  exists (isort (fun a b => (start a <? start b) || ((start a =? start b) && (stop a <=? stop b)))),
         (isort (fun a b => (start a <? start b) || ((start a =? start b) && (stop b <=? stop a)))), [Ptr 5 5; Ptr 5 10].
  assert (B : forall f : ptr -> ptr -> bool, sorts (isort (fun a b => (start a <? start b) || ((start a =? start b) && f a b)))).
  { intro f. apply isort_sorts; intros x y H.
    - apply orb_prop in H as [H|H]; [apply Nat.ltb_lt in H; lia|]. apply andb_prop in H as [H _]. apply Nat.eqb_eq in H. lia.
    - apply orb_false_elim in H as [H _]. apply Nat.ltb_ge in H. exact H. }
  split; [apply (B (fun a b => stop a <=? stop b))|]. split; [apply (B (fun a b => stop b <=? stop a))|]. split; [repeat constructor; cbn; lia|].
  split; [|split; reflexivity].
  intros [(i & j & p & q & Hij & H1 & H2 & (a & C1 & C2))|(p & q & _ & [] & _)]. unfold covers in *.
  destruct i as [|[|[|]]], j as [|[|[|]]]; cbn in *; try discriminate; try (now apply Hij); injection H1 as <-; injection H2 as <-; cbn in *; lia.
Qed.
Print Assumptions C28_empty_range_ties_refuted.
Example C28_case : let muts := [of_object 100 8; of_slice 7 0 4; of_slice 200 3 4; of_object 300 1] in let consts := [of_object 300 4; of_slice 9 0 1] in
  let s := isort (fun a b => start a <=? start b) in
  sorts s /\ Forall proper muts /\ Forall proper consts /\ has_aliasing s muts consts = true /\ has_aliasing s muts [of_object 301 4] = false.
Proof.
  split; [apply isort_sorts; intros x y H; [now apply Nat.leb_le|apply Nat.leb_gt in H; lia]|].
  split; [repeat constructor; unfold proper; cbn; lia|]. split; [repeat constructor; unfold proper; cbn; lia|]. split; reflexivity.
Qed.
