(** Members added to their classes, and iteration orders. *)
From Coq Require Import ZArith NArith List Bool String Permutation Sorted Lia.
From Verif Require Import IrTree.Model IrTree.Spec IrTree.Proofs IrTree.Proofs2 IrTree.Proofs3.
Import ListNotations.
Local Open Scope Z_scope.
Local Open Scope list_scope.

Lemma children_app m m' q : children_of (m ++ m') q = match children_of m q with Some l => Some l | None => children_of m' q end.
Proof. induction m as [|[k l] m IH]; cbn [app children_of]; [reflexivity|]. destruct (k =? q); [reflexivity|exact IH]. Qed.
Lemma children_touch m p q : children_of (touch m p) q = if q =? p then Some (kids m p) else children_of m q.
Proof.
  unfold touch, kids. destruct (children_of m p) as [l|] eqn:E.
  - destruct (Z.eqb_spec q p) as [->|N]; [exact E|reflexivity].
  - rewrite children_app. cbn [children_of]. destruct (Z.eqb_spec q p) as [->|N].
    + rewrite E, Z.eqb_refl. reflexivity.
    + destruct (Z.eqb_spec p q); [congruence|]. destruct (children_of m q); reflexivity.
Qed.
Lemma children_push m p c q : children_of (push_child m p c) q = if q =? p then Some (kids m p ++ [c]) else children_of m q.
Proof.
  unfold kids. induction m as [|[k l] m IH]; cbn [push_child children_of].
  - rewrite (Z.eqb_sym p q). destruct (q =? p); reflexivity.
  - destruct (Z.eqb_spec k p) as [->|N]; cbn [children_of].
    + rewrite (Z.eqb_sym p q). destruct (q =? p); reflexivity.
    + destruct (Z.eqb_spec k q) as [->|N']; [|exact IH]. destruct (Z.eqb_spec q p); [contradiction|reflexivity].
Qed.
Definition in_class (p : Z) (d : decl) : bool := match d_ctx d with CRecord q => q =? p | _ => false end.
Definition step (alien : Z -> bool) (o : option (list Z)) (d : decl) : option (list Z) :=
  let l := match o with Some l => l | None => [] end in
  Some (if negb (alien (d_id d)) && negb (existsb (Z.eqb (d_id d)) l) then l ++ [d_id d] else l).
Lemma children_add alien m d q : children_of (add_member alien m d) q = if in_class q d then step alien (children_of m q) d else children_of m q.
Proof.
  unfold add_member, in_class, step. destruct (d_ctx d) as [|i|p]; try reflexivity. rewrite (Z.eqb_sym p q).
  assert (E : children_of (touch m p) p = Some (kids m p)) by (rewrite children_touch, Z.eqb_refl; reflexivity).
  rewrite E. destruct (negb (alien (d_id d)) && negb (existsb (Z.eqb (d_id d)) (kids m p))) eqn:C.
  - rewrite children_push. unfold kids at 1. rewrite E. destruct (Z.eqb_spec q p) as [->|N].
    + fold (kids m p). rewrite C. reflexivity.
    + rewrite children_touch. destruct (Z.eqb_spec q p); [contradiction|reflexivity].
  - rewrite children_touch. destruct (Z.eqb_spec q p) as [->|N]; [|reflexivity]. fold (kids m p). rewrite C. reflexivity.
Qed.
Lemma children_fold alien q l : forall m, children_of (fold_left (add_member alien) l m) q = fold_left (step alien) (filter (in_class q) l) (children_of m q).
Proof.
  induction l as [|d l IH]; intros m; cbn [fold_left filter]; [reflexivity|]. rewrite IH, children_add. destruct (in_class q d); reflexivity.
Qed.
Lemma nodup_join (a b : list Z) : NoDup a -> NoDup b -> (forall x, In x b -> ~ In x a) -> NoDup (a ++ b).
Proof.
  induction a as [|x a IH]; intros Na Nb D; [exact Nb|]. inversion Na; subst. cbn [app]. constructor.
  - intros I. apply in_app_or in I. destruct I as [I|I]; [contradiction|]. apply (D x I). left. reflexivity.
  - apply IH; try assumption. intros y I K. apply (D y I). right. exact K.
Qed.
Lemma fold_step alien l : forall o, l <> [] -> exists l', fold_left (step alien) l o = Some l' /\
  exists new, l' = match o with Some l0 => l0 | None => [] end ++ new /\ NoDup new /\
    (forall x, In x new -> ~ In x (match o with Some l0 => l0 | None => [] end)) /\
    (forall d, In d l -> alien (d_id d) = false -> In (d_id d) l') /\
    (forall x, In x new -> exists d, In d l /\ d_id d = x /\ alien x = false).
Proof.
  induction l as [|d l IH]; intros o N; [contradiction|]. cbn [fold_left].
  set (l0 := match o with Some l0 => l0 | None => [] end).
  assert (E1 : step alien o d = Some (if negb (alien (d_id d)) && negb (existsb (Z.eqb (d_id d)) l0) then l0 ++ [d_id d] else l0)) by reflexivity.
  rewrite E1. remember (if negb (alien (d_id d)) && negb (existsb (Z.eqb (d_id d)) l0) then l0 ++ [d_id d] else l0) as l1 eqn:El1.
  assert (H1 : exists n1, l1 = l0 ++ n1 /\ NoDup n1 /\ (forall x, In x n1 -> ~ In x l0) /\ (alien (d_id d) = false -> In (d_id d) l1) /\ (forall x, In x n1 -> d_id d = x /\ alien x = false)).
  { destruct (alien (d_id d)) eqn:Ea; cbn [negb andb] in El1.
    - exists []. rewrite app_nil_r. split; [exact El1|]. split; [constructor|]. split; [intros ? []|]. split; [discriminate|intros ? []].
    - destruct (existsb (Z.eqb (d_id d)) l0) eqn:Ee; cbn [negb] in El1.
      + exists []. rewrite app_nil_r. split; [exact El1|]. split; [constructor|]. split; [intros ? []|]. split; [intros _; rewrite El1; apply existsb_id; exact Ee|intros ? []].
      + exists [d_id d]. split; [exact El1|]. split; [constructor; [intros []|constructor]|]. split.
        * intros x [<-|[]] K. apply existsb_id in K. congruence.
        * split; [intros _; rewrite El1; apply in_or_app; right; left; reflexivity|]. intros x [<-|[]]. split; [reflexivity|exact Ea]. }
  clear El1 E1. destruct H1 as (n1 & E1 & N1 & D1 & A1 & O1). destruct l as [|d' l].
  - cbn [fold_left]. exists l1. split; [reflexivity|]. exists n1. split; [exact E1|]. split; [exact N1|]. split; [exact D1|]. split.
    + intros x [<-|[]]. exact A1.
    + intros x I. exists d. destruct (O1 x I). cbn [In]. auto.
  - destruct (IH (Some l1)) as (l' & E' & new & En & Nn & Dn & An & On); [discriminate|]. exists l'. split; [exact E'|].
    exists (n1 ++ new). split; [rewrite En, E1, app_assoc; reflexivity|]. split; [|split; [|split]].
    + apply nodup_join; [exact N1|exact Nn|]. intros x I K. apply (Dn x I). rewrite E1. apply in_or_app. right. exact K.
    + intros x I K. apply in_app_or in I. destruct I as [I|I]; [exact (D1 x I K)|]. apply (Dn x I). rewrite E1. apply in_or_app. left. exact K.
    + intros x [<-|I] Ax; [rewrite En; apply in_or_app; left; auto|auto].
    + intros x I. apply in_app_or in I. destruct I as [I|I]; [exists d; destruct (O1 x I); cbn [In]; auto|].
      destruct (On x I) as (e & Ie & Ee & Ae). exists e. split; [right; exact Ie|auto].
Qed.

Definition sorted_members (cache : Z -> option (ikind * Z)) (imported : list decl) : list (key * decl) :=
  stable_sort (map (fun d => (decl_key d, d)) (filter (record_member cache) imported)).
Lemma record_member_iff cache d : record_member cache d = true <-> exists p t, d_ctx d = CRecord p /\ cache p = Some (IRecord, t).
Proof.
  unfold record_member. destruct (d_ctx d) as [|i|p]; try (split; [discriminate|intros (? & ? & ? & _); discriminate]).
  destruct (cache p) as [[[| | |] t]|] eqn:E; split; try discriminate; try reflexivity; try (intros (q & t' & [= <-] & K); congruence).
  intros _. exists p, t. auto.
Qed.
Lemma sorted_members_in cache imported p d : In d (filter (in_class p) (map snd (sorted_members cache imported))) <-> member cache imported p d.
Proof.
  unfold sorted_members, member. rewrite filter_In, in_map_iff. unfold in_class. split.
  - intros [([k d'] & <- & I) C]. cbn [snd] in *. apply (Permutation_in _ (Permutation_sym (sort_perm _))) in I.
    apply in_map_iff in I. destruct I as (d & [= <- <-] & I). apply filter_In in I. destruct I as [I R]. apply record_member_iff in R.
    destruct R as (q & t & Eq & Et). rewrite Eq in C. apply Z.eqb_eq in C. subst q. eauto.
  - intros (I & Ec & t & Et). split; [|rewrite Ec; apply Z.eqb_refl]. exists (decl_key d, d). split; [reflexivity|].
    apply (Permutation_in _ (sort_perm _)). apply in_map_iff. exists d. split; [reflexivity|]. apply filter_In. split; [exact I|].
    apply record_member_iff. eauto.
Qed.
Lemma perm_filter {A} (f : A -> bool) l l' : Permutation l l' -> Permutation (filter f l) (filter f l').
Proof.
  induction 1; cbn [filter]; try (destruct (f x)); try (destruct (f y)); try (constructor; assumption); try assumption; try reflexivity; try apply perm_swap.
  etransitivity; eassumption.
Qed.
Lemma sorted_filter {A} (f : key * A -> bool) l : in_source_order l -> in_source_order (filter f l).
Proof.
  unfold in_source_order. induction l as [|x l IH]; intros H; cbn [filter]; [constructor|]. apply StronglySorted_inv in H. destruct H as [H F].
  destruct (f x); [|auto]. constructor; [auto|]. rewrite Forall_forall in *. intros y I. apply filter_In in I. apply F. tauto.
Qed.
Lemma filter_map_snd {A B} (f : B -> bool) (l : list (A * B)) : filter f (map snd l) = map snd (filter (fun x => f (snd x)) l).
Proof. induction l as [|x l IH]; cbn [map filter]; [reflexivity|]. destruct (f (snd x)); cbn [map]; rewrite IH; reflexivity. Qed.
Lemma members_order cache imported imported' p : Permutation imported imported' ->
  (forall d d', member cache imported p d -> member cache imported p d' -> d = d' \/ precedes (decl_key d) (decl_key d') \/ precedes (decl_key d') (decl_key d)) ->
  filter (in_class p) (map snd (sorted_members cache imported)) = filter (in_class p) (map snd (sorted_members cache imported')).
Proof.
  intros P T. rewrite !filter_map_snd. f_equal.
  apply (sorted_unique (filter (fun x => in_class p (snd x)) (sorted_members cache imported))).
  - apply perm_filter. unfold sorted_members. rewrite <- !sort_perm. apply Permutation_map. apply perm_filter. exact P.
  - apply sorted_filter. apply sort_sorted.
  - apply sorted_filter. apply sort_sorted.
  - assert (K : forall x, In x (filter (fun x => in_class p (snd x)) (sorted_members cache imported)) -> member cache imported p (snd x) /\ fst x = decl_key (snd x)).
    { intros x I. split.
      - apply sorted_members_in. rewrite filter_map_snd. apply in_map. exact I.
      - apply filter_In in I. destruct I as [I _]. apply (Permutation_in _ (Permutation_sym (sort_perm _))) in I.
        apply in_map_iff in I. destruct I as (d & <- & _). reflexivity. }
    intros x y Ix Iy. destruct (K x Ix) as [Mx Kx], (K y Iy) as [My Ky]. destruct (T _ _ Mx My) as [E|H]; [left|right; rewrite Kx, Ky; exact H].
    destruct x, y; cbn in *; congruence.
  - intros x I. exact I.
Qed.
Lemma same_children m m' q : same_map m m' -> children_of m q = children_of m' q.
Proof.
  intros [N P]. assert (K : forall l, NoDup (map fst l) -> forall x, children_of l q = Some x <-> In (q, x) l).
  { clear. induction l as [|[k y] l IH]; intros N x; cbn [children_of map fst] in *; [split; [discriminate|intros []]|].
    inversion N as [|? ? Nk N']; subst. destruct (Z.eqb_spec k q) as [->|Nq].
    - split; [intros [= ->]; left; reflexivity|]. intros [[= ->]|I]; [reflexivity|]. exfalso. apply Nk. apply (in_map fst) in I. exact I.
    - rewrite (IH N' x). cbn [In]. split; [auto|intros [[= ? _]|I]; [contradiction|exact I]]. }
  assert (N' : NoDup (map fst m')) by (eapply Permutation_NoDup; [apply Permutation_map; exact P|exact N]).
  destruct (children_of m q) as [x|] eqn:E.
  - apply (K m N) in E. symmetry. apply (K m' N'). eapply Permutation_in; eassumption.
  - destruct (children_of m' q) as [x|] eqn:E'; [|reflexivity]. apply (K m' N') in E'. apply (Permutation_in _ (Permutation_sym P)) in E'.
    apply (K m N) in E'. congruence.
Qed.
Lemma same_items s s' q : same_map s s' -> find_item s q = find_item s' q.
Proof.
  intros [N P]. assert (K : forall l, NoDup (map fst l) -> forall x, find_item l q = Some x <-> In (q, x) l).
  { clear. induction l as [|[k y] l IH]; intros N x; cbn [find_item map fst] in *; [split; [discriminate|intros []]|].
    inversion N as [|? ? Nk N']; subst. destruct (Z.eqb_spec k q) as [->|Nq].
    - split; [intros [= ->]; left; reflexivity|]. intros [[= ->]|I]; [reflexivity|]. exfalso. apply Nk. apply (in_map fst) in I. exact I.
    - rewrite (IH N' x). cbn [In]. split; [auto|intros [[= ? _]|I]; [contradiction|exact I]]. }
  assert (N' : NoDup (map fst s')) by (eapply Permutation_NoDup; [apply Permutation_map; exact P|exact N]).
  destruct (find_item s q) as [x|] eqn:E.
  - apply (K s N) in E. symmetry. apply (K s' N'). eapply Permutation_in; eassumption.
  - destruct (find_item s' q) as [x|] eqn:E'; [|reflexivity]. apply (K s' N') in E'. apply (Permutation_in _ (Permutation_sym P)) in E'.
    apply (K s N) in E'. congruence.
Qed.
