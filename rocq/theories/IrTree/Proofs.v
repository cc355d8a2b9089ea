(** The source order is a strict weak order; stable sorting. *)
From Coq Require Import ZArith NArith List Bool String Ascii Permutation Sorted Lia.
From Verif Require Import IrTree.Model IrTree.Spec.
Import ListNotations.
Local Open Scope Z_scope.
Local Open Scope list_scope.

Lemma ltb_name s : forall t, String.ltb s t = true <-> name_before s t.
Proof.
  unfold String.ltb. induction s as [|c s IH]; intros [|d t]; cbn.
  - split; [discriminate|inversion 1].
  - split; [constructor|reflexivity].
  - split; [discriminate|inversion 1].
  - unfold Ascii.compare. destruct (N.compare_spec (N_of_ascii c) (N_of_ascii d)) as [E|L|G].
    + assert (c = d) as -> by (rewrite <- (ascii_N_embedding c), <- (ascii_N_embedding d); congruence).
      rewrite IH. split; [constructor; assumption|]. inversion 1; subst; [lia|assumption].
    + split; [intros _; constructor; assumption|reflexivity].
    + split; [discriminate|]. inversion 1; subst; lia.
Qed.
Lemma name_irrefl s : ~ name_before s s.
Proof. induction s as [|c s IH]; intros H; inversion H; subst; [lia|auto]. Qed.
Lemma name_trans s : forall t u, name_before s t -> name_before t u -> name_before s u.
Proof.
  induction s as [|c s IH]; intros t u H1 H2; inversion H1; subst; inversion H2; subst; try (constructor; fail).
  - apply NameSmaller. lia.
  - apply NameSmaller. assumption.
  - apply NameSmaller. assumption.
  - apply NameLater. eapply IH; eassumption.
Qed.
Lemma name_total s : forall t, name_before s t \/ s = t \/ name_before t s.
Proof.
  induction s as [|c s IH]; intros [|d t]; [right; left; reflexivity|left; constructor|right; right; constructor|].
  destruct (N.lt_trichotomy (N_of_ascii c) (N_of_ascii d)) as [L|[E|G]].
  - left. constructor. exact L.
  - assert (c = d) as -> by (rewrite <- (ascii_N_embedding c), <- (ascii_N_embedding d); congruence).
    destruct (IH t) as [H|[->|H]]; [left; constructor; exact H|right; left; reflexivity|right; right; constructor; exact H].
  - right; right. constructor. exact G.
Qed.

Lemma range_valid_iff k : range_valid k = true <-> has_range k.
Proof. unfold range_valid, has_range, loc_valid. rewrite andb_true_iff, !negb_true_iff, !N.eqb_neq. tauto. Qed.
Lemma range_valid_false k : range_valid k = false <-> ~ has_range k.
Proof. rewrite <- range_valid_iff. destruct (range_valid k); split; intros; congruence. Qed.
Lemma by_order_iff a b : by_order a b = true <-> tie_broken a b.
Proof.
  unfold by_order, tie_broken. destruct (Z.ltb_spec (k_order a) (k_order b)); [tauto|].
  destruct (Z.ltb_spec (k_order b) (k_order a)).
  - split; [discriminate|intros [?|[? _]]; lia].
  - rewrite ltb_name. split; [right; split; [lia|assumption]|intros [?|[_ ?]]; [lia|assumption]].
Qed.
Lemma is_before_iff a b : is_before a b = true <-> precedes a b.
Proof.
  unfold is_before. destruct (range_valid a) eqn:Ea, (range_valid b) eqn:Eb; cbn [negb orb Bool.eqb andb];
    rewrite ?range_valid_iff, ?range_valid_false in Ea; rewrite ?range_valid_iff, ?range_valid_false in Eb.
  - destruct (N.eqb_spec (k_begin a) (k_begin b)) as [E1|N1]; cbn [negb].
    + destruct (N.eqb_spec (k_end a) (k_end b)) as [E2|N2]; cbn [negb].
      * rewrite by_order_iff. split; [intros T; apply PrecTie; assumption|]. inversion 1; subst; try tauto; lia.
      * rewrite N.ltb_lt. split; [intros L; apply PrecEnd; assumption|]. inversion 1; subst; try tauto; lia.
    + rewrite N.ltb_lt. split; [intros L; apply PrecBegin; assumption|]. inversion 1; subst; try tauto; lia.
  - split; [discriminate|]. inversion 1; tauto.
  - split; [intros _; apply PrecInvalid; assumption|reflexivity].
  - rewrite by_order_iff. split; [intros T; apply PrecTieInvalid; assumption|]. inversion 1; tauto.
Qed.
Lemma is_before_false a b : is_before a b = false <-> ~ precedes a b.
Proof. rewrite <- is_before_iff. destruct (is_before a b); split; intros; congruence. Qed.

Lemma tie_irrefl a : ~ tie_broken a a.
Proof. intros [H|[_ H]]; [lia|exact (name_irrefl _ H)]. Qed.
Lemma tie_trans a b c : tie_broken a b -> tie_broken b c -> tie_broken a c.
Proof.
  intros [H1|[E1 H1]] [H2|[E2 H2]]; [left; lia|left; lia|left; lia|].
  right. split; [lia|]. eapply name_trans; eassumption.
Qed.
Lemma tie_total a b : tie_broken a b \/ (k_order a = k_order b /\ k_name a = k_name b) \/ tie_broken b a.
Proof.
  unfold tie_broken. destruct (Z.lt_trichotomy (k_order a) (k_order b)) as [L|[E|G]]; [tauto| |tauto].
  destruct (name_total (k_name a) (k_name b)) as [H|[H|H]]; intuition lia.
Qed.
Lemma precedes_irrefl a : ~ precedes a a.
Proof. inversion 1; try tauto; try lia; eapply tie_irrefl; eassumption. Qed.
Lemma precedes_trans a b c : precedes a b -> precedes b c -> precedes a c.
Proof.
  intros H1 H2. destruct H1, H2; try tauto;
    first [ apply PrecInvalid; assumption
          | apply PrecBegin; try assumption; lia
          | apply PrecEnd; try assumption; lia
          | apply PrecTie; try assumption; try lia; eapply tie_trans; eassumption
          | apply PrecTieInvalid; try assumption; eapply tie_trans; eassumption ].
Qed.
(** Two keys that tie are the same in everything the order looks at. *)
Definition same_key (a b : key) : Prop :=
  (has_range a <-> has_range b) /\ (has_range a -> k_begin a = k_begin b /\ k_end a = k_end b) /\
  k_order a = k_order b /\ k_name a = k_name b.
Lemma precedes_total a b : precedes a b \/ same_key a b \/ precedes b a.
Proof.
  destruct (range_valid a) eqn:Ea, (range_valid b) eqn:Eb;
    rewrite ?range_valid_iff, ?range_valid_false in Ea; rewrite ?range_valid_iff, ?range_valid_false in Eb.
  - destruct (N.lt_trichotomy (k_begin a) (k_begin b)) as [L|[E|G]].
    + left. apply PrecBegin; assumption.
    + destruct (N.lt_trichotomy (k_end a) (k_end b)) as [L|[E'|G]].
      * left. apply PrecEnd; assumption.
      * destruct (tie_total a b) as [T|[[T1 T2]|T]].
        -- left. apply PrecTie; assumption.
        -- right; left. unfold same_key. tauto.
        -- right; right. apply PrecTie; try assumption; symmetry; assumption.
      * right; right. apply PrecEnd; try assumption. symmetry. exact E.
    + right; right. apply PrecBegin; assumption.
  - right; right. apply PrecInvalid; assumption.
  - left. apply PrecInvalid; assumption.
  - destruct (tie_total a b) as [T|[[T1 T2]|T]].
    + left. apply PrecTieInvalid; assumption.
    + right; left. unfold same_key. tauto.
    + right; right. apply PrecTieInvalid; assumption.
Qed.
Lemma same_tied a b : same_key a b -> ~ precedes a b.
Proof.
  intros (R & B & O & M) H. destruct H; try tauto.
  - specialize (B H). lia.
  - specialize (B H). lia.
  - destruct H3 as [?|[_ ?]]; [lia|]. rewrite M in *. eapply name_irrefl; eassumption.
  - destruct H1 as [?|[_ ?]]; [lia|]. rewrite M in *. eapply name_irrefl; eassumption.
Qed.
Lemma same_sym a b : same_key a b -> same_key b a.
Proof. intros (R & B & O & M). unfold same_key. intuition congruence. Qed.
(** Not preceding is transitive: the order is strict and weak. *)
Lemma same_precedes a b c : same_key a b -> precedes b c -> precedes a c.
Proof.
  intros (R & B & O & M) H. destruct H.
  - apply PrecInvalid; tauto.
  - assert (has_range a) by tauto. destruct (B H2). apply PrecBegin; try assumption. lia.
  - assert (has_range a) by tauto. destruct (B H3). apply PrecEnd; try assumption; lia.
  - assert (has_range a) by tauto. destruct (B H4). apply PrecTie; try assumption; try lia.
    unfold tie_broken in *. rewrite O, M. assumption.
  - apply PrecTieInvalid; try tauto. unfold tie_broken in *. rewrite O, M. assumption.
Qed.
Lemma weak_trans a b c : ~ precedes b a -> ~ precedes c b -> ~ precedes c a.
Proof.
  intros H1 H2 H3. destruct (precedes_total a b) as [H|[H|H]]; [ |apply H2 |tauto].
  - apply H2. eapply precedes_trans; eassumption.
  - destruct (precedes_total c b) as [G|[G|G]]; [exact G| |].
    + exfalso. apply (same_tied b a (same_sym _ _ H)). apply same_precedes with c; [apply same_sym; exact G|exact H3].
    + exfalso. apply H1. eapply precedes_trans; eassumption.
Qed.

Section Sort.
Context {A : Type}.
Implicit Types (x y : key * A) (l : list (key * A)).

Lemma insert_perm x l : Permutation (x :: l) (sort_insert x l).
Proof.
  induction l as [|y l IH]; cbn [sort_insert]; [reflexivity|]. destruct (is_before (fst y) (fst x)); [|reflexivity].
  rewrite perm_swap. constructor. exact IH.
Qed.
Lemma sort_perm l : Permutation l (stable_sort l).
Proof. induction l as [|x l IH]; cbn [stable_sort]; [constructor|]. rewrite <- insert_perm. constructor. exact IH. Qed.
Lemma insert_sorted x l : in_source_order l -> in_source_order (sort_insert x l).
Proof.
  unfold in_source_order. induction l as [|y l IH]; intros H; cbn [sort_insert]; [repeat constructor|].
  apply StronglySorted_inv in H. destruct H as [H F]. destruct (is_before (fst y) (fst x)) eqn:E.
  - constructor; [apply IH; exact H|]. apply (Permutation_Forall (insert_perm x l)). constructor; [|exact F].
    intros P. apply is_before_iff in E. apply (precedes_irrefl (fst x)). eapply precedes_trans; eassumption.
  - apply is_before_false in E. constructor; [constructor; assumption|]. constructor; [exact E|].
    eapply Forall_impl; [|exact F]. intros z Hz. cbn beta in *. eapply weak_trans; eassumption.
Qed.
Lemma sort_sorted l : in_source_order (stable_sort l).
Proof. induction l as [|x l IH]; cbn [stable_sort]; [constructor|]. apply insert_sorted. exact IH. Qed.
Lemma insert_filter f x l : (forall y z, f y = true -> f z = true -> ~ precedes (fst y) (fst z)) ->
  filter f (sort_insert x l) = filter f (x :: l).
Proof.
  intros Hf. induction l as [|y l IH]; cbn [sort_insert]; [reflexivity|]. destruct (is_before (fst y) (fst x)) eqn:E; [|reflexivity].
  apply is_before_iff in E. change (filter f (y :: sort_insert x l)) with (if f y then y :: filter f (sort_insert x l) else filter f (sort_insert x l)).
  rewrite IH. cbn [filter]. destruct (f y) eqn:Ey, (f x) eqn:Ex; try reflexivity.
  exfalso. exact (Hf y x Ey Ex E).
Qed.
Lemma sort_stable l : sorted_version l (stable_sort l).
Proof.
  split; [apply sort_perm|]. split; [apply sort_sorted|]. intros f Hf. induction l as [|x l IH]; cbn [stable_sort]; [reflexivity|].
  rewrite insert_filter by exact Hf. cbn [filter]. rewrite IH. reflexivity.
Qed.
(** A sorted list without ties is determined by its elements. *)
Lemma sorted_unique l : forall l1 l2, Permutation l1 l2 -> in_source_order l1 -> in_source_order l2 ->
  (forall x y, In x l -> In y l -> x = y \/ precedes (fst x) (fst y) \/ precedes (fst y) (fst x)) -> incl l1 l -> l1 = l2.
Proof.
  induction l1 as [|x l1 IH]; intros l2 P S1 S2 T I.
  - symmetry. apply Permutation_nil. exact P.
  - destruct l2 as [|y l2]; [apply Permutation_sym, Permutation_nil in P; discriminate|].
    apply StronglySorted_inv in S1, S2. destruct S1 as [S1 F1], S2 as [S2 F2]. rewrite Forall_forall in F1, F2.
    assert (x = y) as <-.
    { assert (Hy : In y (x :: l1)) by (apply (Permutation_in _ (Permutation_sym P)); left; reflexivity).
      assert (Hx : In x (y :: l2)) by (apply (Permutation_in _ P); left; reflexivity).
      destruct Hy as [E|Hy]; [exact E|]. destruct Hx as [E|Hx]; [symmetry; exact E|].
      destruct (T x y) as [E|[B|B]]; [apply I; left; reflexivity|apply I; right; exact Hy|exact E| |].
      - exfalso. exact (F2 x Hx B).
      - exfalso. exact (F1 y Hy B). }
    f_equal. apply IH; try assumption; [eapply Permutation_cons_inv; exact P|]. intros z Hz. apply I. right. exact Hz.
Qed.
End Sort.
Lemma sort_map {A B} (g : A -> B) l : stable_sort (map (fun x : key * A => (fst x, g (snd x))) l) = map (fun x => (fst x, g (snd x))) (stable_sort l).
Proof.
  induction l as [|x l IH]; cbn [map stable_sort]; [reflexivity|]. rewrite IH. generalize (stable_sort l). clear.
  induction l as [|y l IH]; cbn [map sort_insert fst]; [reflexivity|]. destruct (is_before (fst y) (fst x)); [|reflexivity].
  rewrite IH. reflexivity.
Qed.
