(** C32: points-to maps; C49: the state of the lifetime analysis. *)
From Coq Require Import List Arith ZArith Bool Lia.
From Verif.Lifetimes Require Model.
From Verif.Lifetimes Require Reach.
From Verif.PointsTo Require Import Model Spec Proofs.
Import ListNotations.

(** ** Sets *)
(** The operations on object sets are those of sets, for all sets that the operations build; [==] decides whether
    two sets have the same elements. *)
Theorem C32_object_sets : forall s t, osets s -> osets t ->
  (forall x, contains s x = true <-> In x s) /\ (contains_all s t = true <-> forall x, In x t -> In x s) /\
  (forall x, In x (oset_union s t) <-> In x s \/ In x t) /\ (forall x, In x (oset_inter s t) <-> In x s /\ In x t) /\
  (forall x y, In x (add1 s y) <-> In x s \/ x = y) /\ (forall l x, In x (of_list l) <-> In x l) /\
  (oset_eqb s t = true <-> forall x, In x s <-> In x t) /\ NoDup s.
Proof.
  intros s t Hs Ht. apply (proj1 built) in Hs as Ns. apply (proj1 built) in Ht as Nt. split; [apply contains_spec|]. split.
  { unfold contains_all. rewrite forallb_forall. split; intros H x Hx; now apply contains_spec, H. }
  split; [intro; apply add_all_in|]. split; [intro; apply inter_in|]. split; [intros; apply add1_in|]. split.
  { intros l x. unfold of_list. rewrite (add_all_in l [] x). cbn. tauto. }
  split; [now apply oset_eqb_spec|exact Ns].
Qed.
Print Assumptions C32_object_sets.

(** ** Maps *)
(** [==] says exactly whether two maps say the same. *)
Theorem C32_equality_is_semantic : forall a b, pmaps a -> pmaps b -> (pmap_eqb a b = true <-> same a b).
Proof. intros a b Ha Hb. apply pmap_eqb_spec; now apply built. Qed.
Print Assumptions C32_equality_is_semantic.
(** The union of two maps says what either says, and nothing else. *)
Theorem C32_union_is_exact : forall a b, pmaps a -> pmaps b ->
  (forall x, known (union a b) x <-> known a x \/ known b x) /\ forall x o, points (union a b) x o <-> points a x o \/ points b x o.
Proof. intros a b _ Hb. split; intros; [apply union_known|apply union_points]; now apply built. Qed.
Print Assumptions C32_union_is_exact.
(** So it is the least upper bound. *)
Theorem C32_union_is_least_upper_bound : forall a b, pmaps a -> pmaps b ->
  below a (union a b) /\ below b (union a b) /\ forall d, below a d -> below b d -> below (union a b) d.
Proof.
  intros a b Ha Hb. destruct (C32_union_is_exact a b Ha Hb) as [K P]. split; [split; intros; [apply K|apply P]; auto|]. split; [split; intros; [apply K|apply P]; auto|].
  intros d [A1 A2] [B1 B2]. split; [intros x H; apply K in H as [H|H]; auto|intros x o H; apply P in H as [H|H]; auto].
Qed.
Print Assumptions C32_union_is_least_upper_bound.
(** Commutative, associative, idempotent up to [==]. *)
Theorem C32_union_laws : forall a b d, pmaps a -> pmaps b -> pmaps d ->
  pmap_eqb (union a b) (union b a) = true /\ pmap_eqb (union (union a b) d) (union a (union b d)) = true /\ pmap_eqb (union a a) a = true /\ pmap_eqb (union a empty) a = true.
Proof.
  intros a b d Ha Hb Hd. pose proof PMEmpty as He.
  assert (U : forall x y, pmaps x -> pmaps y -> pmaps (union x y)) by (intros; now apply PMUnion).
  assert (W : forall x, pmaps x -> pwf x) by (intros; now apply built).
  repeat split; apply pmap_eqb_spec; auto; split; intros; rewrite ?union_known, ?union_points by auto; try tauto.
  - split; [intros [H|H]; [exact H|exfalso; apply H; now destruct x]|auto].
  - split; [intros [H|(s & E & _)]; [exact H|exfalso; destruct x; discriminate E]|auto].
Qed.
Print Assumptions C32_union_laws.
(** Updating one entity changes that entity only, and to exactly the given set; extending only adds. *)
Theorem C32_updates : forall m p s, pmaps m ->
  (forall x o, points (set m p s) x o <-> (x = Pointer p /\ In o s) \/ (x <> Pointer p /\ points m x o)) /\
  (forall x o, points (extend m p s) x o <-> (x = Pointer p /\ In o s) \/ points m x o) /\
  (forall x, known (set m p s) x <-> x = Pointer p \/ known m x) /\ (forall x, known (extend m p s) x <-> x = Pointer p \/ known m x) /\
  below m (extend m p s).
Proof.
  intros m p s _.
  assert (E1 : forall x, entry (set m p s) x = match x with Pointer q => if Z.eqb q p then Some s else entry m x | _ => entry m x end) by (intros [q|e]; [cbn; now rewrite (lookup_update Z.eqb Z.eqb_eq)|reflexivity]).
  assert (E2 : forall x, entry (extend m p s) x = match x with Pointer q => if Z.eqb q p then Some (add_all (get_or (entry m (Pointer p))) s) else entry m x | _ => entry m x end) by (intros [q|e]; [cbn; now rewrite (lookup_update Z.eqb Z.eqb_eq)|reflexivity]).
  assert (P2 : forall x o, points (extend m p s) x o <-> (x = Pointer p /\ In o s) \/ points m x o).
  { intros x o. unfold points. rewrite E2. destruct x as [q|e]; [|split; [auto|intros [[H _]|H]; [discriminate|exact H]]]. destruct (Z.eqb_spec q p) as [->|N].
    - split.
      + intros (u & E & H). injection E as <-. apply add_all_in in H as [H|H]; [|auto]. right. cbn [entry]. destruct (lookup Z.eqb p (pointers m)) as [u|]; [exists u; split; [reflexivity|exact H]|destruct H].
      + intros [[_ H]|(u & E & H)]; eexists; (split; [reflexivity|]); apply add_all_in; [auto|left; cbn [entry] in *; now rewrite E].
    - split; [auto|]. intros [[H _]|H]; [congruence|exact H]. }
  assert (K2 : forall x, known (extend m p s) x <-> x = Pointer p \/ known m x).
  { intros x. unfold known. rewrite E2. destruct x as [q|e]; [|intuition discriminate]. destruct (Z.eqb_spec q p) as [->|N]; [split; [auto|discriminate]|]. split; [auto|]. intros [H|H]; [congruence|exact H]. }
  split; [|split; [exact P2|split; [|split; [exact K2|]]]].
  - intros x o. unfold points. rewrite E1. destruct x as [q|e]; [|split; [right; split; [discriminate|assumption]|intros [[H _]|[_ H]]; [discriminate|exact H]]]. destruct (Z.eqb_spec q p) as [->|N].
    + split; [intros (u & E & H); injection E as <-; auto|]. intros [[_ H]|[H _]]; [eauto|congruence].
    + split; [intro H; right; split; [congruence|exact H]|]. intros [[H _]|[_ H]]; [congruence|exact H].
  - intros x. unfold known. rewrite E1. destruct x as [q|e]; [|intuition discriminate]. destruct (Z.eqb_spec q p) as [->|N]; [split; [auto|discriminate]|]. split; [auto|]. intros [H|H]; [congruence|exact H].
  - split; intros; [apply K2|apply P2]; now right.
Qed.
Print Assumptions C32_updates.
(** Setting many pointers sets each of them and nothing else; reading many pointers gives the union. *)
Theorem C32_many_pointers : forall m ps s, pmaps m ->
  (forall x o, points (set_many m ps s) x o <-> (exists p, x = Pointer p /\ In p ps) /\ In o s \/ (~ exists p, x = Pointer p /\ In p ps) /\ points m x o) /\
  (forall o, In o (get_many m ps) <-> exists p, In p ps /\ points m (Pointer p) o) /\ (forall p o, In o (get m p) <-> points m (Pointer p) o).
Proof.
  intros m ps s _. split; [|split].
  - unfold set_many. revert m. induction ps as [|p ps IH]; intros m x o; cbn [fold_left].
    + split; [intro H; right; split; [intros (p & _ & [])|exact H]|]. intros [[(p & _ & []) _]|[_ H]]. exact H.
    + rewrite IH. assert (E : points (set m p s) x o <-> (x = Pointer p /\ In o s) \/ (x <> Pointer p /\ points m x o)).
      { unfold points. destruct x as [q|e]; cbn [entry set pointers exprs].
        - rewrite (lookup_update Z.eqb Z.eqb_eq). destruct (Z.eqb_spec q p) as [->|N].
          + split; [intros (u & E & H); injection E as <-; auto|]. intros [[_ H]|[H _]]; [eauto|congruence].
          + split; [intro H; right; split; [congruence|exact H]|]. intros [[H _]|[_ H]]; [congruence|exact H].
        - split; [right; split; [discriminate|assumption]|intros [[H _]|[_ H]]; [discriminate|exact H]]. }
      rewrite E. assert (D : (exists q, x = Pointer q /\ In q ps) \/ ~ exists q, x = Pointer q /\ In q ps).
      { destruct x as [q|e]; [|right; intros (q & H & _); discriminate]. destruct (in_dec Z.eq_dec q ps) as [H|H]; [left; eauto|right]. intros (q' & Eq & Hq). injection Eq as <-. contradiction. }
      assert (D' : (exists q, x = Pointer q /\ In q (p :: ps)) <-> x = Pointer p \/ exists q, x = Pointer q /\ In q ps).
      { split; [intros (q & -> & [->|H]); [now left|right; eauto]|intros [->|(q & -> & H)]; eexists; (split; [reflexivity|]); [now left|now right]]. }
      rewrite D'. assert (D2 : x = Pointer p \/ x <> Pointer p) by (destruct x as [q|e]; [destruct (Z.eq_dec q p); [left|right]; congruence|right; discriminate]). tauto.
  - intro o. unfold get_many. rewrite get_many_gen. cbn. tauto.
  - intros p o. unfold get, points. cbn [entry]. destruct (lookup Z.eqb p (pointers m)) as [u|]; split; [eauto|intros (v & E & H); congruence|contradiction|intros (v & E & _); discriminate].
Qed.
Print Assumptions C32_many_pointers.
(** Pointers with a given lifetime: each once. *)
Theorem C32_pointers_with_lifetime : forall life m l, pmaps m -> NoDup (with_lifetime life m l) /\ forall p, In p (with_lifetime life m l) <-> known m (Pointer p) /\ life p = l.
Proof.
  intros life m l H. apply built in H as [[N _] _]. unfold with_lifetime, known. cbn [entry]. split.
  - induction (pointers m) as [|[k s] d IH]; [constructor|]. cbn [map fst] in N. inversion N; subst. cbn [filter fst]. destruct (Z.eqb (life k) l); [|auto]. cbn [map fst]. constructor; [|auto]. intro Hk. apply in_map_iff in Hk as ([k' s'] & E & Hk). cbn in E. subst k'. apply filter_In in Hk as [Hk _]. match goal with X : ~ In k _ |- _ => apply X end. change k with (fst (k, s')). now apply in_map.
  - intro p. rewrite (lookup_known Z.eqb Z.eqb_eq), in_map_iff. split.
    + intros ([k s] & <- & Hk). apply filter_In in Hk as [Hk E]. apply Z.eqb_eq in E. split; [now apply in_map|exact E].
    + intros [Hk E]. apply in_map_iff in Hk as ([k s] & <- & Hk). exists (k, s). split; [reflexivity|]. apply filter_In. split; [exact Hk|now apply Z.eqb_eq].
Qed.
Print Assumptions C32_pointers_with_lifetime.
(** Expressions without parentheses, or with one pair: the map has a set for them exactly when reading it succeeds, and
    what was set is what is read.  With two pairs the map says that it has a set and reading it stops the program. *)
Theorem C32_expressions_partial : forall m id s i e, e = Leaf i \/ e = Paren (Leaf i) ->
  (has_expr m e = true <-> get_expr m e <> None) /\
  (i = id -> get_expr (set_expr m (Leaf id) s) e = Some s) /\ (i <> id -> get_expr (set_expr m (Leaf id) s) e = get_expr m e).
Proof.
  intros m id s i e He. assert (G : forall m, get_expr m e = lookup expr_eqb (Leaf i) (exprs m)) by (intro; destruct He as [-> | ->]; reflexivity).
  assert (Hh : has_expr m e = match lookup expr_eqb (Leaf i) (exprs m) with Some _ => true | None => false end) by (destruct He as [-> | ->]; reflexivity).
  rewrite Hh, !G. cbn [set_expr exprs]. rewrite (lookup_update expr_eqb expr_eqb_spec). split; [destruct (lookup expr_eqb (Leaf i) (exprs m)); split; congruence|]. split.
  - intros ->. now rewrite (proj2 (expr_eqb_spec (Leaf id) (Leaf id)) eq_refl).
  - intro N. destruct (expr_eqb (Leaf i) (Leaf id)) eqn:E; [apply expr_eqb_spec in E; congruence|reflexivity].
Qed.
Print Assumptions C32_expressions_partial.
Theorem C32_two_pairs_of_parentheses_refuted : exists m e, pmaps m /\ has_expr m e = true /\ get_expr m e = None.
Proof. exists (set_expr empty (Leaf 1) (of_list [7%Z])), (Paren (Paren (Leaf 1))). split; [apply PMSetExpr; [apply PMEmpty|apply OSNew]|]. split; reflexivity. Qed.
Print Assumptions C32_two_pairs_of_parentheses_refuted.
Example C32_case : let a := extend (set empty 1%Z (of_list [5; 6]%Z)) 2%Z (of_list [7%Z]) in let b := set empty 1%Z (of_list [8%Z]) in
  pmaps a /\ pmaps b /\ get (union a b) 1%Z = [8; 6; 5]%Z /\ pmap_eqb a (union a b) = false.
Proof. cbv zeta. split; [apply PMExtend; [apply PMSet; [apply PMEmpty|apply OSNew]|apply OSNew]|]. split; [apply PMSet; [apply PMEmpty|apply OSNew]|]. split; reflexivity. Qed.

(** ** The state of the analysis *)
Lemma below_refl m : below m m.
Proof. split; auto. Qed.
Lemma below_same a b : below a b -> below b a -> same a b.
Proof. intros [A1 A2] [B1 B2]. split; split; auto. Qed.
Lemma lower_refl a : lower a a.
Proof. destruct a; cbn; [|exact I]. split; [apply below_refl|auto]. Qed.
Lemma lower_trans a b d : lower a b -> lower b d -> lower a d.
Proof.
  destruct a as [p c s|], b as [p' c' s'|], d as [p'' c'' s''|]; cbn; try tauto. intros ((A1 & A2) & A3 & A4) ((B1 & B2) & B3 & B4). split; [split; auto|split; auto].
Qed.
Lemma join_spec a b r e : states a -> states b -> join a b = (r, e) ->
  states r /\ lower a r /\ lower b r /\ (forall d, lower a d -> lower b d -> lower r d) /\ (e = Unchanged -> r = a) /\ (e = Changed -> ~ lower r a).
Proof.
  intros Sa Sb E. destruct a as [p c s|m].
  2:{ cbn in E. injection E as <- <-. split; [exact Sa|]. split; [apply lower_refl|]. split; [destruct b; exact I|]. split; [auto|]. split; [auto|discriminate]. }
  destruct b as [p' c' s'|m].
  2:{ cbn in E. injection E as <- <-. split; [exact Sb|]. split; [exact I|]. split; [exact I|]. split; [auto|]. split; [discriminate|]. intros _ H. exact H. }
  inversion Sa as [|? ? ? Pp Nc Ss]; subst. inversion Sb as [|? ? ? Pp' Nc' Ss']; subst. cbn [join] in E.
  destruct (Lifetimes.Model.join c c') as [c1 ch] eqn:Ej. apply Reach.C34_join_is_union in Ej as (J1 & J2 & J3 & J4).
  pose proof (C32_union_is_least_upper_bound p p' Pp Pp') as (U1 & U2 & U3). pose proof (C32_union_is_exact p p' Pp Pp') as (K1 & K2).
  pose proof (C32_equality_is_semantic p (union p p') Pp (PMUnion _ _ Pp Pp')) as Q.
  pose proof (C32_object_sets s (oset_inter s s') Ss (OSInter _ _ Ss Ss')) as (_ & _ & _ & _ & _ & _ & Qs & _).
  assert (Is : forall o, In o (oset_inter s s') <-> In o s /\ In o s') by (intro; apply inter_in).
  destruct (pmap_eqb p (union p p')) eqn:Ep, (oset_eqb s (oset_inter s s')) eqn:Es; cbn [negb] in E; injection E as <- <-.
  - assert (Same : same p (union p p')) by now apply Q. assert (Si : forall x, In x s <-> In x (oset_inter s s')) by now apply Qs.
    split; [constructor; auto|]. split; [split; [apply below_refl|split; [intros q Hq; apply J1; auto|auto]]|]. split; [split; [|split; [intros q Hq; apply J1; auto|intros o Ho; apply Si, Is in Ho; tauto]]|].
    + destruct Same as [S1 S2], U2 as [V1 V2]. split; [intros x Hx; now apply S1, V1|intros x o Hx; now apply S2, V2].
    + split; [|split].
      * intros d. destruct d as [p2 c2 s2|]; cbn; [|auto]. intros ((A1 & A2) & A3 & A4) (_ & B3 & B4). split; [split; auto|]. split; [intros q Hq; apply J1 in Hq as [Hq|Hq]; auto|auto].
      * destruct ch; [discriminate|]. intros _. now rewrite (J3 eq_refl).
      * destruct ch; [|discriminate]. intros _ (_ & L & _). apply J2; [reflexivity|]. intro q. rewrite J1. split; [auto|]. intros [H|H]; [exact H|]. apply L. rewrite J1. auto.
  - split; [constructor; auto; now constructor|]. split; [split; [apply below_refl|split; [intros q Hq; apply J1; auto|intros o Ho; now apply Is in Ho]]|].
    assert (Same : same p (union p p')) by now apply Q. split; [split; [|split; [intros q Hq; apply J1; auto|intros o Ho; now apply Is in Ho]]|].
    + destruct Same as [S1 S2], U2 as [V1 V2]. split; [intros x Hx; now apply S1, V1|intros x o Hx; now apply S2, V2].
    + split; [|split; [discriminate|]].
      * intros d. destruct d as [p2 c2 s2|]; cbn; [|auto]. intros ((A1 & A2) & A3 & A4) (_ & B3 & B4). split; [split; auto|]. split; [intros q Hq; apply J1 in Hq as [Hq|Hq]; auto|]. intros o Ho. apply Is. auto.
      * intros _ (_ & _ & L). assert (false = true); [|discriminate]. apply Qs. intro x. split; [apply L|]. intro H. now apply Is in H.
  - assert (Si : forall x, In x s <-> In x (oset_inter s s')) by now apply Qs.
    split; [constructor; auto; now constructor|]. split; [split; [exact U1|split; [intros q Hq; apply J1; auto|auto]]|]. split; [split; [exact U2|split; [intros q Hq; apply J1; auto|intros o Ho; apply Si, Is in Ho; tauto]]|].
    split; [|split; [discriminate|]].
    + intros d. destruct d as [p2 c2 s2|]; cbn; [|auto]. intros (A1 & A3 & A4) (B1 & B3 & B4). split; [auto|]. split; [intros q Hq; apply J1 in Hq as [Hq|Hq]; auto|auto].
    + intros _ (L & _). assert (false = true); [|discriminate]. apply Q. now apply below_same.
  - split; [constructor; auto; now constructor|]. split; [split; [exact U1|split; [intros q Hq; apply J1; auto|intros o Ho; now apply Is in Ho]]|]. split; [split; [exact U2|split; [intros q Hq; apply J1; auto|intros o Ho; now apply Is in Ho]]|].
    split; [|split; [discriminate|]].
    + intros d. destruct d as [p2 c2 s2|]; cbn; [|auto]. intros (A1 & A3 & A4) (B1 & B3 & B4). split; [auto|]. split; [intros q Hq; apply J1 in Hq as [Hq|Hq]; auto|]. intros o Ho. apply Is. auto.
    + intros _ (L & _). assert (false = true); [|discriminate]. apply Q. now apply below_same.
Qed.
(** C49 (1): joining gives the least state above both; an error wins and the first one stays. *)
Theorem C49_join_is_least_upper_bound : forall a b, states a -> states b -> let r := fst (join a b) in
  states r /\ lower a r /\ lower b r /\ (forall d, lower a d -> lower b d -> lower r d) /\
  (forall m, a = Err m -> r = a) /\ (forall m p c s, a = Ok p c s -> b = Err m -> r = b).
Proof.
  intros a b Sa Sb. destruct (join a b) as [r e] eqn:E. cbn [fst]. destruct (join_spec a b r e Sa Sb E) as (H1 & H2 & H3 & H4 & _). repeat split; auto.
  - intros m ->. cbn in E. congruence.
  - intros m p c s -> ->. cbn in E. congruence.
Qed.
Print Assumptions C49_join_is_least_upper_bound.
(** C49 (2): the reported effect is exact: Unchanged leaves the state as it was, Changed means that it is strictly
    higher; so Unchanged is reported exactly when the other state was already covered. *)
Theorem C49_effect_is_exact : forall a b r e, states a -> states b -> join a b = (r, e) ->
  (e = Unchanged <-> equivalent a r) /\ (e = Unchanged -> r = a) /\ (e = Unchanged <-> lower b a).
Proof.
  intros a b r e Sa Sb E. destruct (join_spec a b r e Sa Sb E) as (H1 & H2 & H3 & H4 & H5 & H6). split; [|split; [exact H5|]].
  - split; [intro H; rewrite (H5 H); split; apply lower_refl|]. intros [_ H]. destruct e; [reflexivity|]. exfalso. now apply H6.
  - split; [intro H; rewrite (H5 H) in H3; exact H3|]. intro H. destruct e; [reflexivity|]. exfalso. apply H6; [reflexivity|]. apply H4; [apply lower_refl|exact H].
Qed.
Print Assumptions C49_effect_is_exact.

Lemma count_le {A} (f g : A -> bool) l : (forall x, In x l -> f x = true -> g x = true) -> length (filter f l) <= length (filter g l).
Proof.
  induction l as [|x l IH]; intro H; [auto|]. cbn [filter]. assert (Hx := H x (or_introl eq_refl)). assert (IH' := IH (fun y Hy => H y (or_intror Hy))). destruct (f x), (g x); cbn [length]; solve [lia|now specialize (Hx eq_refl)].
Qed.
Lemma count_eq {A} (f g : A -> bool) l : (forall x, In x l -> f x = true -> g x = true) -> length (filter f l) = length (filter g l) -> forall x, In x l -> g x = true -> f x = true.
Proof.
  induction l as [|x l IH]; intros H E y Hy; [destruct Hy|]. cbn [filter] in E. assert (Hx := H x (or_introl eq_refl)). pose proof (count_le f g l (fun y Hy => H y (or_intror Hy))) as Le.
  intro Hg. assert (Hl : In y l -> length (filter f l) = length (filter g l) -> f y = true) by (intros Hin El; exact (IH (fun y Hy => H y (or_intror Hy)) El y Hin Hg)).
  destruct (f x) eqn:Ef, (g x) eqn:Eg; cbn [length] in E.
  - destruct Hy as [->|Hy]; [exact Ef|apply Hl; [exact Hy|lia]].
  - now specialize (Hx eq_refl).
  - lia.
  - destruct Hy as [->|Hy]; [congruence|apply Hl; [exact Hy|lia]].
Qed.
Definition known_b (p : pmap) (x : entity) : bool := match entry p x with Some _ => true | None => false end.
Definition points_b (p : pmap) (xo : entity * object) : bool := match entry p (fst xo) with Some s => contains s (snd xo) | None => false end.
Lemma known_b_spec p x : known_b p x = true <-> known p x.
Proof. unfold known_b, known. destruct (entry p x); split; congruence. Qed.
Lemma points_b_spec p x o : points_b p (x, o) = true <-> points p x o.
Proof. unfold points_b, points. cbn [fst snd]. destruct (entry p x) as [s|]; [rewrite contains_spec|]; split; [eauto|intros (t & E & H); congruence|discriminate|intros (t & E & _); discriminate]. Qed.
Definition height (ents : list entity) (objs : list object) (cons : list (Z * Z)) (a : lattice) : nat :=
  match a with
  | Err _ => length ents + length ents * length objs + length cons + length objs + 1
  | Ok p c s => length (filter (known_b p) ents) + length (filter (points_b p) (list_prod ents objs)) + length (filter (fun q => Lifetimes.Model.has_constraint q c) cons) + length (filter (fun o => negb (contains s o)) objs)
  end.
Lemma filter_le {A} (f : A -> bool) l : length (filter f l) <= length l.
Proof. induction l as [|x l IH]; [auto|]. cbn [filter]. destruct (f x); cbn [length]; lia. Qed.
Lemma height_bound ents objs cons a : height ents objs cons a <= length ents + length ents * length objs + length cons + length objs + 1.
Proof.
  destruct a as [p c s|]; cbn [height]; [|lia]. pose proof (filter_le (known_b p) ents). pose proof (filter_le (points_b p) (list_prod ents objs)) as Hp. rewrite prod_length in Hp. pose proof (filter_le (fun q => Lifetimes.Model.has_constraint q c) cons). pose proof (filter_le (fun o => negb (contains s o)) objs). unfold object, Lifetimes.Model.lifetime in *. lia.
Qed.
Lemma height_mono ents objs cons a b : within ents objs cons a -> within ents objs cons b -> lower a b ->
  height ents objs cons a <= height ents objs cons b /\ (height ents objs cons a = height ents objs cons b -> lower b a).
Proof.
  intros Wa Wb L. destruct a as [p c s|m], b as [p' c' s'|m']; try contradiction.
  2:{ cbn [height]. pose proof (filter_le (known_b p) ents). pose proof (filter_le (points_b p) (list_prod ents objs)) as Hp. rewrite prod_length in Hp. pose proof (filter_le (fun q => Lifetimes.Model.has_constraint q c) cons). pose proof (filter_le (fun o => negb (contains s o)) objs). unfold object, Lifetimes.Model.lifetime in *; split; [lia|intro; lia]. }
  2:{ split; [cbn; lia|intros; exact I]. }
  destruct L as ((L1 & L2) & L3 & L4), Wa as (Wa1 & Wa2 & Wa3 & Wa4), Wb as (Wb1 & Wb2 & Wb3 & Wb4). cbn [height].
  assert (M1 : forall x, In x ents -> known_b p x = true -> known_b p' x = true) by (intros x _; rewrite !known_b_spec; auto).
  assert (M2 : forall x, In x (list_prod ents objs) -> points_b p x = true -> points_b p' x = true) by (intros [x o] _; rewrite !points_b_spec; auto).
  assert (M3 : forall q, In q cons -> Lifetimes.Model.has_constraint q c = true -> Lifetimes.Model.has_constraint q c' = true) by (intros q _; rewrite !Reach.has_constraint_spec; auto).
  assert (M4 : forall o, In o objs -> negb (contains s o) = true -> negb (contains s' o) = true) by (intros o _; rewrite !negb_true_iff, !contains_false; auto).
  pose proof (count_le _ _ _ M1) as N1. pose proof (count_le _ _ _ M2) as N2. pose proof (count_le _ _ _ M3) as N3. pose proof (count_le _ _ _ M4) as N4. unfold object, Lifetimes.Model.lifetime in *. split; [lia|]. intro E.
  assert (Q1 := count_eq _ _ _ M1 ltac:(lia)). assert (Q2 := count_eq _ _ _ M2 ltac:(lia)). assert (Q3 := count_eq _ _ _ M3 ltac:(lia)). assert (Q4 := count_eq _ _ _ M4 ltac:(lia)). cbn [lower]. split; [split|split].
  - intros x Hx. apply known_b_spec, Q1; [auto|now apply known_b_spec].
  - intros x o Hx. apply points_b_spec, Q2; [|now apply points_b_spec]. apply in_prod; [|eauto]. apply Wb1. destruct Hx as (u & Eu & _). unfold known. congruence.
  - intros q Hq. apply Reach.has_constraint_spec, Q3; [auto|now apply Reach.has_constraint_spec].
  - intros o Ho. destruct (contains s' o) eqn:Eo; [now apply contains_spec|]. exfalso. assert (H : negb (contains s o) = true) by (apply Q4; [auto|now rewrite Eo]). apply negb_true_iff, contains_false in H. contradiction.
Qed.
Lemma join_within ents objs cons a b r e : states a -> states b -> within ents objs cons a -> within ents objs cons b -> join a b = (r, e) -> within ents objs cons r.
Proof.
  intros Sa Sb Wa Wb E. destruct (join_spec a b r e Sa Sb E) as (Sr & _ & _ & Lub & Un & _).
  destruct a as [p c s|m]; [|cbn in E; injection E as <- <-; exact I]. destruct b as [p' c' s'|m]; [|cbn in E; injection E as <- <-; exact I].
  destruct r as [p1 c1 s1|]; [|exact I]. inversion Sa as [|? ? ? Pp Nc Ss]; subst. inversion Sb as [|? ? ? Pp' Nc' Ss']; subst.
  pose proof (C32_union_is_exact p p' Pp Pp') as (K1 & K2). destruct Wa as (Wa1 & Wa2 & Wa3 & Wa4), Wb as (Wb1 & Wb2 & Wb3 & Wb4).
  assert (L : lower (Ok p1 c1 s1) (Ok (union p p') (fst (Lifetimes.Model.join c c')) (oset_inter s s'))).
  { pose proof (C32_union_is_least_upper_bound p p' Pp Pp') as (U1 & U2 & _). destruct (Lifetimes.Model.join c c') as [cj ch] eqn:Ej. apply Reach.C34_join_is_union in Ej as (J1 & _). cbn [fst]. apply Lub; cbn; (split; [assumption|]); (split; [intros q Hq; apply J1; auto|intros o Ho; now apply inter_in in Ho]). }
  destruct (Lifetimes.Model.join c c') as [cj ch] eqn:Ej. apply Reach.C34_join_is_union in Ej as (J1 & _). cbn [fst] in L. destruct L as ((L1 & L2) & L3 & L4). cbn [within]. split; [|split; [|split]].
  - intros x Hx. apply L1, K1 in Hx as [Hx|Hx]; auto.
  - intros x o Hx. apply L2, K2 in Hx as [Hx|Hx]; eauto.
  - intros q Hq. apply L3, J1 in Hq as [Hq|Hq]; auto.
  - intros o Ho. destruct (join_spec _ _ _ _ Sa Sb E) as (_ & (_ & _ & La) & _). auto.
Qed.
(** C49 (3): an analysis over finitely many entities, objects and constraints cannot go on for ever: in any history of
    joins, whatever is joined, only so many joins report a change. *)
Theorem C49_finitely_many_changes : forall ents objs cons others a, states a -> within ents objs cons a ->
  (forall b, In b others -> states b /\ within ents objs cons b) ->
  changes a others <= length ents + length ents * length objs + length cons + length objs + 1.
Proof.
  intros ents objs cons others a Sa Wa H. pose (B := length ents + length ents * length objs + length cons + length objs + 1).
  assert (G : changes a others + height ents objs cons a <= B); [|unfold B in G; lia]. revert a Sa Wa. induction others as [|b others IH]; intros a Sa Wa; cbn [changes].
  - apply height_bound.
  - destruct (join a b) as [r e] eqn:E. destruct (H b (or_introl eq_refl)) as [Sb Wb]. destruct (join_spec a b r e Sa Sb E) as (Sr & La & _ & _ & Un & Ch).
    pose proof (join_within _ _ _ _ _ _ _ Sa Sb Wa Wb E) as Wr. assert (G := IH (fun b' Hb => H b' (or_intror Hb)) r Sr Wr). destruct (height_mono ents objs cons a r Wa Wr La) as [M1 M2]. destruct e.
    + lia.
    + assert (height ents objs cons a <> height ents objs cons r) by (intro Q; apply (Ch eq_refl), M2, Q). lia.
Qed.
Print Assumptions C49_finitely_many_changes.
(** C49 (4): [==] takes states for equal that differ in their single-valued objects: a join can report a change and
    yet leave a state that compares equal to the old one.  (clang's fixpoint loop compares states with [==].) *)
Theorem C49_equality_ignores_single_valued_objects_refuted : exists a b r, states a /\ states b /\ join a b = (r, Changed) /\ lattice_eqb a r = true /\ ~ equivalent a r.
Proof.
  exists (Ok empty [] (of_list [1%Z])), (Ok empty [] (of_list [])), (Ok empty [] []). split; [constructor; [apply PMEmpty|constructor|apply OSNew]|]. split; [constructor; [apply PMEmpty|constructor|apply OSNew]|]. split; [reflexivity|]. split; [reflexivity|].
  intros [_ (_ & _ & H)]. destruct (H 1%Z). now left.
Qed.
Print Assumptions C49_equality_ignores_single_valued_objects_refuted.
(** What [==] does decide. *)
Theorem C49_equality_otherwise : forall p c s p' c' s', states (Ok p c s) -> states (Ok p' c' s') ->
  (lattice_eqb (Ok p c s) (Ok p' c' s') = true <-> same p p' /\ (forall q, In q c <-> In q c')).
Proof.
  intros p c s p' c' s' Sa Sb. inversion Sa as [|? ? ? Pp Nc Ss]; subst. inversion Sb as [|? ? ? Pp' Nc' Ss']; subst. cbn [lattice_eqb]. rewrite andb_true_iff, (C32_equality_is_semantic p p' Pp Pp').
  assert (Q : constraints_eqb c c' = true <-> forall q, In q c <-> In q c'); [|now rewrite Q]. unfold constraints_eqb. rewrite andb_true_iff, Nat.eqb_eq, forallb_forall. split.
  - intros [L F] q. assert (Hi : incl c c') by (intros y Hy; now apply Reach.has_constraint_spec, F). split; [apply Hi|]. apply NoDup_length_incl; [exact Nc|lia|exact Hi].
  - intro H. split; [|intros q Hq; now apply Reach.has_constraint_spec, H]. apply Nat.le_antisymm; apply NoDup_incl_length; auto; intros x Hx; now apply H.
Qed.
Print Assumptions C49_equality_otherwise.
Example C49_case : let a := Ok (set empty 1%Z (of_list [5%Z])) [(2, 3)%Z] (of_list [1; 2]%Z) in let b := Ok (set empty 1%Z (of_list [6%Z])) [] (of_list [2%Z]) in
  states a /\ states b /\ snd (join a b) = Changed /\ snd (join (fst (join a b)) b) = Unchanged /\ changes a [b; a; b; Err 0; a] = 2.
Proof. cbv zeta. split; [constructor; [apply PMSet; [apply PMEmpty|apply OSNew]|repeat constructor; intros []|apply OSNew]|]. split; [constructor; [apply PMSet; [apply PMEmpty|apply OSNew]|constructor|apply OSNew]|]. repeat split. Qed.
