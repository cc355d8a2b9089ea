(** C33, C34: closure and join of constraints. *)
From Coq Require Import List Arith ZArith Bool Lia Relations.
From Verif.Lifetimes Require Import Model Spec.
Import ListNotations.
Local Open Scope Z_scope.

Lemma mem_spec x s : mem x s = true <-> In x s.
Proof. unfold mem. rewrite existsb_exists. split; [intros (y & Hy & E); apply Z.eqb_eq in E; now subst|intro H; exists x; split; [exact H|apply Z.eqb_refl]]. Qed.
Lemma mem_false x s : mem x s = false <-> ~ In x s.
Proof. rewrite <- mem_spec. destruct (mem x s); split; congruence. Qed.
Lemma erase_spec x s y : In y (erase x s) <-> In y s /\ y <> x.
Proof. unfold erase. rewrite filter_In, negb_true_iff, Z.eqb_neq. intuition congruence. Qed.
Lemma longer_spec c v m : In m (longer_than c v) <-> In (v, m) c.
Proof.
  unfold longer_than. rewrite in_map_iff. split.
  - intros ([a b] & <- & H). apply filter_In in H as [H E]. apply Z.eqb_eq in E. cbn in *. now subst.
  - intro H. exists (v, m). split; [reflexivity|]. apply filter_In. split; [exact H|apply Z.eqb_refl].
Qed.
Lemma filter_length_le' {A} (f : A -> bool) l : (length (filter f l) <= length l)%nat.
Proof. induction l as [|x l IH]; [reflexivity|]. cbn [filter]. destruct (f x); cbn [length]; lia. Qed.
(** Work left: what is on the stack, and the constraints of lifetimes not visited yet. *)
Definition unvisited (c : constraints) (visited : list lifetime) : list (lifetime * lifetime) := filter (fun p => negb (mem (fst p) visited)) c.
Lemma unvisited_visit c v visited : mem v visited = false ->
  (length (unvisited c (v :: visited)) + length (longer_than c v) = length (unvisited c visited))%nat.
Proof.
  intro H. unfold unvisited, longer_than. rewrite map_length. induction c as [|[a b] c IH]; [reflexivity|]. cbn [filter fst]. unfold mem at 1. cbn [existsb]. fold (mem a visited).
  destruct (Z.eqb_spec a v) as [->|Hne]; cbn [orb negb].
  - rewrite H. cbn [negb length]. lia.
  - destruct (mem a visited); cbn [negb length]; lia.
Qed.
Lemma walk_total c : forall fuel stack visited, (length stack + length (unvisited c visited) <= fuel)%nat -> exists r, walk fuel c stack visited = Some r.
Proof.
  induction fuel as [|fuel IH]; intros [|v stack] visited H; cbn [walk]; [now eexists|cbn [length] in H; lia|now eexists|].
  destruct (mem v visited) eqn:E; [apply IH; cbn [length] in H; lia|]. apply IH. rewrite app_length, rev_length. pose proof (unvisited_visit c v visited E) as U. cbn [length] in H. unfold lifetime in *. lia.
Qed.
Lemma walk_exact c l : forall fuel stack visited r, walk fuel c stack visited = Some r ->
  (forall x, In x stack \/ In x visited -> outlives c l x) -> In l stack \/ In l visited ->
  (forall x y, In x visited -> In (x, y) c -> In y stack \/ In y visited) ->
  NoDup visited -> NoDup r /\ forall x, In x r <-> outlives c l x.
Proof.
  assert (Done : forall visited, (forall x, In x (@nil Z) \/ In x visited -> outlives c l x) -> In l (@nil Z) \/ In l visited ->
    (forall x y, In x visited -> In (x, y) c -> In y (@nil Z) \/ In y visited) -> forall x, In x visited <-> outlives c l x).
  { intros visited H1 H2 H3 x. split; [intro H; apply H1; now right|]. intro H. destruct H2 as [[]|H2]. apply clos_rt_rt1n in H. clear H1. induction H as [|a b d E T IH]; [exact H2|]. apply IH. destruct (H3 a b H2 E) as [[]|Hb]; exact Hb. }
  induction fuel as [|fuel IH]; intros [|v stack] visited r E H1 H2 H3 ND; cbn [walk] in E; try discriminate.
  - injection E as <-. split; [exact ND|]. now apply Done.
  - injection E as <-. split; [exact ND|]. now apply Done.
  - destruct (mem v visited) eqn:Em.
    + apply mem_spec in Em. apply (IH stack visited r E); [intros x [Hx|Hx]; apply H1; [left; now right|now right]| | |exact ND].
      * destruct H2 as [[->|H2]|H2]; auto.
      * intros x y Hx Hy. destruct (H3 x y Hx Hy) as [[->|H]|H]; auto.
    + apply mem_false in Em. apply (IH _ (v :: visited) r E); [| | |constructor; assumption].
      * assert (Hv : outlives c l v) by (apply H1; left; now left). intros x [Hx|[<-|Hx]]; [|exact Hv|apply H1; now right]. apply in_app_or in Hx as [Hx|Hx]; [|apply H1; left; now right]. apply in_rev, longer_spec in Hx. eapply rt_trans; [exact Hv|now apply rt_step].
      * destruct H2 as [[->|H2]|H2]; [right; now left|left; apply in_or_app; now right|right; now right].
      * intros x y [->|Hx] Hy; [left; apply in_or_app; left; rewrite <- in_rev; now apply longer_spec|]. destruct (H3 x y Hx Hy) as [[->|H]|H]; [right; now left|left; apply in_or_app; now right|right; now right].
Qed.
Lemma outlives_mono c c' l m : (forall p, In p c -> In p c') -> outlives c l m -> outlives c' l m.
Proof. intros H O. unfold outlives in *. induction O as [x y Hxy|x|x y z _ IH1 _ IH2]; [apply rt_step; now apply H|apply rt_refl|eapply rt_trans; [exact IH1|exact IH2]]. Qed.
(** [GetOutlivingLifetimes] always terminates and returns exactly the other lifetimes that the constraints, taken
    transitively, say outlive [l]; cycles do no harm. *)
Theorem C33_outliving_is_transitive_closure : forall c l, exists out, outliving c l = Some out /\ NoDup out /\
  forall m, In m out <-> m <> l /\ outlives c l m.
Proof.
  intros c l. unfold outliving. destruct (walk_total c (1 + length c) [l] []) as [v E].
  { assert (H : (length (unvisited c []) <= length c)%nat) by (unfold unvisited; apply filter_length_le'). cbn [length]. lia. }
  rewrite E. destruct (walk_exact c l _ _ _ _ E) as [ND H]; [intros x [[<-|[]]|[]]; apply rt_refl|left; now left|contradiction|constructor|].
  eexists. split; [reflexivity|]. split; [unfold erase; now apply NoDup_filter|]. intro m. rewrite erase_spec, H. tauto.
Qed.
Print Assumptions C33_outliving_is_transitive_closure.
(** The order in which constraints were added, and repetitions, are irrelevant. *)
Theorem C33_depends_on_the_set : forall c c' l out out', same c c' -> outliving c l = Some out -> outliving c' l = Some out' -> forall m, In m out <-> In m out'.
Proof.
  intros c c' l out out' S E E' m. destruct (C33_outliving_is_transitive_closure c l) as (o & Eo & _ & H), (C33_outliving_is_transitive_closure c' l) as (o' & Eo' & _ & H'). assert (o = out) by congruence. assert (o' = out') by congruence. subst. rewrite H, H'.
  pose proof (fun c c' (S : same c c') => outlives_mono c c' l m (fun p => proj1 (S p))) as G.
  assert (S' : same c' c) by (intro p; symmetry; apply S). split; intros [HA HB]; (split; [exact HA|]); [exact (G c c' S HB)|exact (G c' c S' HB)].
Qed.
Print Assumptions C33_depends_on_the_set.
Example C33_case : outliving [(2, 3); (3, 4); (4, 2); (5, 2); (4, -1)] 2 = Some [3; 4; -1] \/ outliving [(2, 3); (3, 4); (4, 2); (5, 2); (4, -1)] 2 = Some [-1; 4; 3].
Proof. vm_compute. auto. Qed.

Lemma has_constraint_spec p c : has_constraint p c = true <-> In p c.
Proof.
  unfold has_constraint. rewrite existsb_exists. destruct p as [a b]. split.
  - intros ([a' b'] & H & E). apply andb_prop in E as [E1 E2]. apply Z.eqb_eq in E1, E2. cbn in *. now subst.
  - intro H. exists (a, b). split; [exact H|]. cbn. now rewrite !Z.eqb_refl.
Qed.
Lemma insert_spec p c c' s : insert p c = (c', s) -> (forall q, In q c' <-> q = p \/ In q c) /\ (s = true <-> ~ In p c) /\ (s = false -> c' = c) /\ (NoDup c -> NoDup c').
Proof.
  unfold insert. destruct (has_constraint p c) eqn:E; intro H; injection H as <- <-.
  - apply has_constraint_spec in E. split; [intro q; split; [tauto|intros [->|Hq]; assumption]|]. split; [split; [discriminate|contradiction]|]. auto.
  - assert (N : ~ In p c) by (rewrite <- has_constraint_spec; congruence). split; [intro q; cbn; intuition congruence|]. split; [tauto|]. split; [discriminate|]. intro ND. now constructor.
Qed.
Lemma join_loop_spec : forall other c ch c' ch', join_loop c ch other = (c', ch') ->
  (forall p, In p c' <-> In p c \/ In p other) /\ (ch' = true <-> ch = true \/ exists p, In p other /\ ~ In p c) /\ (ch' = false -> c' = c) /\ (NoDup c -> NoDup c').
Proof.
  induction other as [|p other IH]; intros c ch c' ch' E; cbn [join_loop] in E.
  - injection E as <- <-. split; [cbn; tauto|]. split; [split; [auto|intros [H|(p & [] & _)]; exact H]|]. auto.
  - destruct (insert p c) as [c1 s] eqn:Ei. destruct (insert_spec _ _ _ _ Ei) as (I1 & I2 & I3 & I4). destruct (IH _ _ _ _ E) as (J1 & J2 & J3 & J4). split; [|split; [|split]].
    + intro q. rewrite J1, I1. cbn. intuition.
    + rewrite J2, orb_true_iff. split.
      * intros [[H|H]|(q & Hq & Nq)]; [auto|right; exists p; split; [now left|now apply I2]|]. right. exists q. split; [now right|]. intro H. apply Nq. apply I1. now right.
      * intros [H|(q & [<-|Hq] & Nq)]; [auto|left; right; now apply I2|]. destruct (s) eqn:Es; [auto|]. right. exists q. split; [exact Hq|]. now rewrite (I3 eq_refl).
    + intro H. assert (s = false) by (destruct s; [|reflexivity]; assert (ch' = true) by (apply J2; left; apply orb_true_r); congruence). rewrite (J3 H). auto.
    + auto.
Qed.
(** [join] makes the union of both sets and reports a change exactly when the set grew. *)
Theorem C34_join_is_union : forall c other c' changed, join c other = (c', changed) ->
  (forall p, In p c' <-> In p c \/ In p other) /\
  (changed = true <-> ~ same c c') /\ (changed = false -> c' = c) /\ (NoDup c -> NoDup c').
Proof.
  intros c other c' ch E. destruct (join_loop_spec _ _ _ _ _ E) as (H1 & H2 & H3 & H4). split; [exact H1|]. split; [|auto]. rewrite H2. split.
  - intros [H|(p & Hp & Np)]; [discriminate|]. intro S. apply Np, S, H1. now right.
  - intro N. destruct ch; [now apply H2|]. rewrite (H3 eq_refl) in N. exfalso. apply N. intro p. reflexivity.
Qed.
Print Assumptions C34_join_is_union.
(** As sets: commutative, associative, idempotent. *)
Theorem C34_join_laws : forall a b d, same (fst (join a b)) (fst (join b a)) /\
  same (fst (join (fst (join a b)) d)) (fst (join a (fst (join b d)))) /\ join a a = (a, false) /\ snd (join (fst (join a b)) b) = false.
Proof.
  assert (J : forall a b p, In p (fst (join a b)) <-> In p a \/ In p b) by (intros a b p; destruct (join a b) as [x y] eqn:E; apply C34_join_is_union in E as [H _]; apply H).
  intros a b d. split; [intro p; rewrite !J; tauto|]. split; [intro p; rewrite !J; tauto|]. split.
  - destruct (join a a) as [x y] eqn:E. apply C34_join_is_union in E as (H1 & H2 & H3 & _). destruct y; [|now rewrite H3]. exfalso. apply H2; [reflexivity|]. intro p. rewrite H1. tauto.
  - destruct (join (fst (join a b)) b) as [x y] eqn:E. apply C34_join_is_union in E as (H1 & H2 & _). cbn. destruct y; [|reflexivity]. exfalso. apply H2; [reflexivity|]. intro p. rewrite H1, J. tauto.
Qed.
Print Assumptions C34_join_laws.
Example C34_case : snd (join [(2, 3)] [(2, 3); (3, 4)]) = true /\ snd (join [(2, 3); (3, 4)] [(3, 4)]) = false.
Proof. split; reflexivity. Qed.
