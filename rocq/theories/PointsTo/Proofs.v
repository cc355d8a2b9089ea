(** Facts about sets and maps used by the property theorems. *)
From Coq Require Import List Arith ZArith Bool Lia.
From Verif.Lifetimes Require Model.
From Verif.PointsTo Require Import Model Spec.
Import ListNotations.

Lemma contains_spec s x : contains s x = true <-> In x s.
Proof. unfold contains. rewrite existsb_exists. split; [intros (y & Hy & E); apply Z.eqb_eq in E; now subst|intro H; exists x; split; [exact H|apply Z.eqb_refl]]. Qed.
Lemma contains_false s x : contains s x = false <-> ~ In x s.
Proof. rewrite <- contains_spec. destruct (contains s x); split; congruence. Qed.
Lemma add1_in s x y : In y (add1 s x) <-> In y s \/ y = x.
Proof. unfold add1. destruct (contains s x) eqn:E; [|cbn; intuition congruence]. apply contains_spec in E. split; [auto|]. intros [H|H]; [exact H|now subst]. Qed.
Lemma add1_nodup s x : NoDup s -> NoDup (add1 s x).
Proof. unfold add1. destruct (contains s x) eqn:E; [auto|]. apply contains_false in E. now constructor. Qed.
Lemma add_all_in other : forall s y, In y (add_all s other) <-> In y s \/ In y other.
Proof. unfold add_all. induction other as [|x o IH]; intros s y; cbn [fold_left]; [cbn; tauto|]. rewrite IH, add1_in. cbn. intuition congruence. Qed.
Lemma add_all_nodup other : forall s, NoDup s -> NoDup (add_all s other).
Proof. unfold add_all. induction other as [|x o IH]; intros s H; cbn [fold_left]; [exact H|]. apply IH, add1_nodup, H. Qed.
Lemma inter_in_gen other : forall s r y, In y (fold_left (fun r x => if contains other x then add1 r x else r) s r) <-> In y r \/ (In y s /\ In y other).
Proof.
  induction s as [|x s IH]; intros r y; cbn [fold_left]; [cbn; tauto|]. rewrite IH. destruct (contains other x) eqn:E.
  - apply contains_spec in E. rewrite add1_in. cbn. intuition congruence.
  - apply contains_false in E. cbn. intuition congruence.
Qed.
Lemma inter_in s other y : In y (oset_inter s other) <-> In y s /\ In y other.
Proof. unfold oset_inter. rewrite inter_in_gen. cbn. tauto. Qed.
Lemma inter_nodup s other : NoDup (oset_inter s other).
Proof.
  unfold oset_inter. assert (G : forall s r, NoDup r -> NoDup (fold_left (fun r x => if contains other x then add1 r x else r) s r)).
  { induction s0 as [|x t IH]; intros r H; cbn [fold_left]; [exact H|]. apply IH. destruct (contains other x); [now apply add1_nodup|exact H]. }
  apply G. constructor.
Qed.
Lemma oset_eqb_spec s t : NoDup s -> NoDup t -> (oset_eqb s t = true <-> forall x, In x s <-> In x t).
Proof.
  intros Hs Ht. unfold oset_eqb. rewrite andb_true_iff, Nat.eqb_eq, forallb_forall. split.
  - intros [L F] x. assert (I : incl s t) by (intros y Hy; now apply contains_spec, F). split; [apply I|]. apply NoDup_length_incl; [exact Hs|lia|exact I].
  - intro H. split; [|intros x Hx; now apply contains_spec, H]. apply Nat.le_antisymm; apply NoDup_incl_length; auto; intros x Hx; now apply H.
Qed.

Section Maps.
Context {K : Type} (eqk : K -> K -> bool).
Hypothesis eqk_spec : forall a b, eqk a b = true <-> a = b.
Lemma eqk_reflect a b : reflect (a = b) (eqk a b).
Proof. apply iff_reflect. symmetry. apply eqk_spec. Qed.
Lemma eqk_refl a : eqk a a = true.
Proof. now apply eqk_spec. Qed.
Definition wf (m : dmap K) : Prop := NoDup (map fst m) /\ forall k s, In (k, s) m -> NoDup s.
Definition get_or (o : option oset) : oset := match o with Some s => s | None => [] end.
Lemma lookup_update k k' f m : lookup eqk k (update eqk k' f m) = if eqk k k' then Some (f (get_or (lookup eqk k' m))) else lookup eqk k m.
Proof.
  induction m as [|[k0 s] m IH]; cbn [update lookup]; [now destruct (eqk k k')|].
  destruct (eqk_reflect k' k0) as [->|N]; cbn [lookup].
  - now destruct (eqk_reflect k k0).
  - destruct (eqk_reflect k k0) as [->|N0]; [|exact IH]. destruct (eqk_reflect k0 k'); [congruence|reflexivity].
Qed.
Lemma update_keys k f m x : In x (map fst (update eqk k f m)) <-> x = k \/ In x (map fst m).
Proof.
  induction m as [|[k0 s] m IH]; cbn [update]; [cbn; intuition congruence|]. destruct (eqk_reflect k k0) as [->|N]; cbn [map fst In]; [intuition congruence|]. rewrite IH. tauto.
Qed.
Lemma update_wf k f m : wf m -> (forall s, NoDup s -> NoDup (f s)) -> wf (update eqk k f m).
Proof.
  intros [N V] Hf. split.
  - clear V. induction m as [|[k0 s] m IH]; cbn [update]; [repeat constructor; auto|]. inversion N; subst. destruct (eqk_reflect k k0) as [->|Nk]; [exact N|]. cbn [map fst]. constructor; [|now apply IH]. rewrite update_keys. intros [->|H]; [congruence|contradiction].
  - clear N. revert V. induction m as [|[k0 s] m IH]; intros V k1 t; cbn [update].
    + intros [E|[]]. injection E as <- <-. apply Hf. constructor.
    + destruct (eqk_reflect k k0) as [->|Nk]; intros [E|H].
      * injection E as <- <-. apply Hf. eapply V. left. reflexivity.
      * eapply V. right. exact H.
      * injection E as <- <-. eapply V. left. reflexivity.
      * eapply IH; [|exact H]. intros ? ? Hq; eapply V; right; exact Hq.
Qed.
Lemma lookup_in m : wf m -> forall k s, lookup eqk k m = Some s <-> In (k, s) m.
Proof.
  intros [N _] k s. induction m as [|[k0 t] m IH]; cbn [lookup]; [cbn; split; [discriminate|contradiction]|]. inversion N as [|? ? N1 N2]; subst. destruct (eqk_reflect k k0) as [->|Nk].
  - split; [intro E; injection E as ->; now left|]. intros [E|H]; [now injection E as ->|]. exfalso. apply N1. change k0 with (fst (k0, s)). now apply in_map.
  - rewrite (IH N2). cbn. intuition congruence.
Qed.
Lemma lookup_known m k : lookup eqk k m <> None <-> In k (map fst m).
Proof. induction m as [|[k0 t] m IH]; cbn [lookup map fst In]; [tauto|]. destruct (eqk_reflect k k0) as [->|N]; [split; [auto|discriminate]|]. rewrite IH. intuition congruence. Qed.
Lemma lookup_nodup m k s : wf m -> lookup eqk k m = Some s -> NoDup s.
Proof. intros W E. apply (lookup_in _ W) in E. now apply W in E. Qed.
Lemma merge_lookup other : NoDup (map fst other) -> forall m k, lookup eqk k (merge eqk m other) =
  match lookup eqk k other with Some t => Some (add_all (get_or (lookup eqk k m)) t) | None => lookup eqk k m end.
Proof.
  unfold merge. induction other as [|[k0 t] other IH]; intros N m k; cbn [fold_left lookup fst snd]; [reflexivity|]. inversion N as [|? ? N1 N2]; subst. rewrite (IH N2), lookup_update.
  destruct (eqk_reflect k k0) as [->|Hne].
  - destruct (lookup eqk k0 other) eqn:E; [|reflexivity]. exfalso. apply N1, lookup_known. congruence.
  - reflexivity.
Qed.
Lemma merge_wf other : forall m, wf m -> wf (merge eqk m other).
Proof. unfold merge. induction other as [|[k0 t] other IH]; intros m W; cbn [fold_left]; [exact W|]. apply IH, update_wf; [exact W|]. intros; now apply add_all_nodup. Qed.
(** Entries that say the same. *)
Definition same_entry (a b : option oset) : Prop :=
  match a, b with Some s, Some t => forall x, In x s <-> In x t | None, None => True | _, _ => False end.
Lemma dmap_eqb_spec m o : wf m -> wf o -> (dmap_eqb eqk m o = true <-> forall k, same_entry (lookup eqk k m) (lookup eqk k o)).
Proof.
  intros Wm Wo. unfold dmap_eqb. rewrite andb_true_iff, Nat.eqb_eq, forallb_forall. split.
  - intros [L F] k. assert (I : incl (map fst m) (map fst o)).
    { intros x Hx. apply in_map_iff in Hx as ([k0 s] & <- & Hx). pose proof (F _ Hx) as E. cbn [fst snd] in *. apply lookup_known. destruct (lookup eqk k0 o); [discriminate|discriminate E]. }
    assert (I' : incl (map fst o) (map fst m)) by (apply NoDup_length_incl; [apply Wm|rewrite !map_length; lia|exact I]).
    destruct (lookup eqk k m) as [s|] eqn:E.
    + pose proof (F _ (proj1 (lookup_in _ Wm _ _) E)) as G. cbn [fst snd] in G. destruct (lookup eqk k o) as [t|] eqn:E'; [|discriminate]. cbn. apply oset_eqb_spec; [eapply lookup_nodup; [exact Wm|exact E]|eapply lookup_nodup; [exact Wo|exact E']|exact G].
    + destruct (lookup eqk k o) eqn:E'; [|exact Logic.I]. cbn. assert (H : In k (map fst o)) by (apply lookup_known; congruence). apply I', lookup_known in H. contradiction.
  - intro H. split.
    + rewrite <- (map_length fst m), <- (map_length fst o). assert (Q : forall x, In x (map fst m) <-> In x (map fst o)).
      { intro x. rewrite <- !lookup_known. specialize (H x). destruct (lookup eqk x m), (lookup eqk x o); cbn in H; try contradiction; split; congruence. }
      apply Nat.le_antisymm; apply NoDup_incl_length; try apply Wm; try apply Wo; intros x Hx; now apply Q.
    + intros [k s] Hk. cbn [fst snd]. apply (lookup_in _ Wm) in Hk. specialize (H k). rewrite Hk in H. destruct (lookup eqk k o) as [t|] eqn:E; [|contradiction]. apply oset_eqb_spec; [eapply lookup_nodup; [exact Wm|exact Hk]|eapply lookup_nodup; [exact Wo|exact E]|exact H].
Qed.
End Maps.

Lemma expr_eqb_spec a : forall b, expr_eqb a b = true <-> a = b.
Proof. induction a as [x|a IH]; intros [y|b]; cbn; try (split; discriminate); [rewrite Z.eqb_eq; split; congruence|]. rewrite IH. split; congruence. Qed.
Definition pwf (m : pmap) : Prop := wf (pointers m) /\ wf (exprs m).
Scheme osets_ind2 := Minimality for osets Sort Prop with pmaps_ind2 := Minimality for pmaps Sort Prop.
Combined Scheme built_ind from osets_ind2, pmaps_ind2.
Lemma set_wf m p s : pwf m -> NoDup s -> pwf (set m p s).
Proof. intros [A B] N. split; [|exact B]. cbn. apply update_wf; [exact Z.eqb_eq|exact A|auto]. Qed.
Lemma set_many_wf s ps : NoDup s -> forall m, pwf m -> pwf (set_many m ps s).
Proof. intro N. unfold set_many. induction ps as [|p ps IH]; intros m W; cbn [fold_left]; [exact W|]. apply IH, set_wf; assumption. Qed.
Lemma union_wf a b : pwf a -> pwf b -> pwf (union a b).
Proof. intros [A B] _. split; cbn; [apply merge_wf; [exact Z.eqb_eq|exact A]|apply merge_wf; [exact expr_eqb_spec|exact B]]. Qed.
Lemma get_many_gen m ps : forall r y, In y (fold_left (fun r p => match lookup Z.eqb p (pointers m) with Some s => add_all r s | None => r end) ps r) <-> In y r \/ exists p, In p ps /\ points m (Pointer p) y.
Proof.
  induction ps as [|p ps IH]; intros r y; cbn [fold_left]; [split; [auto|intros [H|(p & [] & _)]; exact H]|]. rewrite IH. unfold points. cbn [entry]. destruct (lookup Z.eqb p (pointers m)) as [s|] eqn:E.
  - rewrite add_all_in. split.
    + intros [[H|H]|(q & Hq & Hp)]; [auto|right; exists p; split; [now left|eauto]|right; exists q; split; [now right|exact Hp]].
    + intros [H|(q & [->|Hq] & (s' & E' & Hs))]; [auto|left; right; congruence|right; exists q; eauto].
  - split.
    + intros [H|(q & Hq & Hp)]; [auto|right; exists q; split; [now right|exact Hp]].
    + intros [H|(q & [->|Hq] & (s' & E' & Hs))]; [auto|congruence|right; exists q; eauto].
Qed.
Lemma get_many_nodup m ps : pwf m -> NoDup (get_many m ps).
Proof.
  intro W. unfold get_many. assert (G : forall r, NoDup r -> NoDup (fold_left (fun r p => match lookup Z.eqb p (pointers m) with Some s => add_all r s | None => r end) ps r)); [|apply G; constructor].
  induction ps as [|p ps IH]; intros r N; cbn [fold_left]; [exact N|]. apply IH. destruct (lookup Z.eqb p (pointers m)); [now apply add_all_nodup|exact N].
Qed.
Lemma built : (forall s, osets s -> NoDup s) /\ (forall m, pmaps m -> pwf m).
Proof.
  apply built_ind.
  - intro l. unfold of_list. apply (add_all_nodup l []). constructor.
  - intros; now apply add1_nodup.
  - intros; now apply add_all_nodup.
  - intros; apply inter_nodup.
  - intros; now apply get_many_nodup.
  - split; split; cbn; try constructor; contradiction.
  - intros; now apply set_wf.
  - intros; now apply set_many_wf.
  - intros m p s _ [A B] _ _. split; [|exact B]. cbn. apply update_wf; [exact Z.eqb_eq|exact A|]. intros; now apply add_all_nodup.
  - intros m e s _ [A B] _ N. split; [exact A|]. cbn. apply update_wf; [exact expr_eqb_spec|exact B|auto].
  - intros; now apply union_wf.
Qed.
Lemma union_entry a b x : pwf b -> entry (union a b) x = match entry b x with Some t => Some (add_all (get_or (entry a x)) t) | None => entry a x end.
Proof. intros [[A _] [B _]]. destruct x as [p|e]; cbn [entry union pointers exprs]; apply merge_lookup; auto using Z.eqb_eq, expr_eqb_spec. Qed.
Lemma union_known a b x : pwf b -> (known (union a b) x <-> known a x \/ known b x).
Proof. intro W. unfold known. rewrite (union_entry a b x W). destruct (entry b x); [|tauto]. split; [right; discriminate|discriminate]. Qed.
Lemma union_points a b x o : pwf b -> (points (union a b) x o <-> points a x o \/ points b x o).
Proof.
  intro W. unfold points. rewrite (union_entry a b x W). destruct (entry b x) as [t|].
  - split.
    + intros (s & E & H). injection E as <-. apply add_all_in in H as [H|H]; [|eauto]. destruct (entry a x) as [s|]; [eauto|destruct H].
    + intros [(s & E & H)|(s & E & H)]; eexists; (split; [reflexivity|]); apply add_all_in; [left; now rewrite E|right; congruence].
  - split; [auto|]. intros [H|(s & E & _)]; [exact H|discriminate].
Qed.
Lemma same_entry_spec a b x : same_entry (entry a x) (entry b x) <-> (known a x <-> known b x) /\ forall o, points a x o <-> points b x o.
Proof.
  unfold known, points. destruct (entry a x) as [s|], (entry b x) as [t|]; cbn.
  - split; [intro H; split; [split; discriminate|]; intro o; split; intros (u & E & Ho); injection E as <-; eexists; (split; [reflexivity|]); now apply H|].
    intros [_ H] y. split; intro Hy; [destruct (proj1 (H y)) as (u & E & Hu); [eauto|congruence]|destruct (proj2 (H y)) as (u & E & Hu); [eauto|congruence]].
  - split; [contradiction|]. intros [[H _] _]. exfalso. apply H; [discriminate|reflexivity].
  - split; [contradiction|]. intros [[_ H] _]. exfalso. apply H; [discriminate|reflexivity].
  - split; [|auto]. intros _. split; [tauto|]. intro o. split; intros (u & E & _); discriminate.
Qed.
Lemma pmap_eqb_spec a b : pwf a -> pwf b -> (pmap_eqb a b = true <-> same a b).
Proof.
  intros [A1 A2] [B1 B2]. unfold pmap_eqb. rewrite andb_true_iff, (dmap_eqb_spec Z.eqb Z.eqb_eq _ _ A1 B1), (dmap_eqb_spec expr_eqb expr_eqb_spec _ _ A2 B2). split.
  - intros [H1 H2]. assert (G : forall x, same_entry (entry a x) (entry b x)) by (intros [p|e]; [apply H1|apply H2]). split; intro x; destruct (proj1 (same_entry_spec a b x) (G x)); auto.
  - intros [H1 H2]. assert (G : forall x, same_entry (entry a x) (entry b x)) by (intro x; apply same_entry_spec; auto). split; intro k; [apply (G (Pointer k))|apply (G (Expr k))].
Qed.
