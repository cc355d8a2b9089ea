From Coq Require Import List Arith Bool Lia Permutation Relations.
From Verif.Toposort Require Import Model Spec.
Import ListNotations.

Set Implicit Arguments.

Section Proofs.
  Context {A : Type}.
  Variable eq_dec : forall x y : A, {x = y} + {x <> y}.
  Notation get := (get eq_dec).
  Notation set := (set eq_dec).
  Notation remove := (remove eq_dec).

  (** ** Association-list facts *)
  Lemma get_set g k n k' :
    get (set g k n) k' =
      if eq_dec k' k then match get g k with Some _ => Some n | None => None end else get g k'.
  Proof.
    induction g as [|[a m] g IH]; cbn.
    - destruct (eq_dec k' k); reflexivity.
    - destruct (eq_dec k a) as [->|Hka]; cbn.
      + destruct (eq_dec k' a) as [->|]; [destruct (eq_dec a a); congruence|].
        reflexivity.
      + rewrite IH. destruct (eq_dec k' a) as [->|].
        * destruct (eq_dec a k); [congruence|reflexivity].
        * reflexivity.
  Qed.

  Lemma keys_set g k n : keys (set g k n) = keys g.
  Proof.
    induction g as [|[a m] g IH]; cbn; [reflexivity|].
    destruct (eq_dec k a); cbn; [reflexivity|]. unfold keys in IH; now rewrite IH.
  Qed.

  Lemma get_remove g k k' :
    get (remove g k) k' = if eq_dec k' k then None else get g k'.
  Proof.
    induction g as [|[a m] g IH]; cbn.
    - destruct (eq_dec k' k); reflexivity.
    - destruct (eq_dec k a) as [->|Hka]; cbn; rewrite IH.
      + destruct (eq_dec k' a); reflexivity.
      + destruct (eq_dec k' a) as [->|]; [|reflexivity].
        destruct (eq_dec a k); [congruence|reflexivity].
  Qed.

  Lemma get_In_keys g k : (exists n, get g k = Some n) <-> In k (keys g).
  Proof.
    induction g as [|[a m] g IH]; cbn; [split; [intros [? H]; discriminate|tauto]|].
    destruct (eq_dec k a) as [->|H]; [split; eauto|].
    rewrite IH. unfold keys. split; [auto|]. intros [->|]; [congruence|auto].
  Qed.
  Lemma get_None_keys g k : get g k = None <-> ~ In k (keys g).
  Proof.
    rewrite <- get_In_keys. destruct (get g k) as [n|]; split; intro H; try congruence.
    - exfalso; eauto.
    - intros [? ?]; congruence.
  Qed.

  Lemma keys_remove_In g k x : In x (keys (remove g k)) <-> In x (keys g) /\ x <> k.
  Proof.
    rewrite <- !get_In_keys. rewrite get_remove. destruct (eq_dec x k) as [->|].
    - split; [intros [? ?]; discriminate|intros [? ?]; congruence].
    - tauto.
  Qed.
  Lemma keys_remove_NoDup g k : NoDup (keys g) -> NoDup (keys (remove g k)).
  Proof.
    induction g as [|[a m] g IH]; cbn; [auto|]. intro H; inversion H; subst.
    destruct (eq_dec k a); cbn; [auto|]. constructor; [|auto].
    fold (keys (remove g k)). rewrite keys_remove_In. tauto.
  Qed.

  Lemma get_In g k n : get g k = Some n -> In (k, n) g.
  Proof.
    induction g as [|[a m] g IH]; cbn; [discriminate|].
    destruct (eq_dec k a) as [->|]; [intros [= ->]; auto|auto].
  Qed.
  Lemma In_get g k n : NoDup (keys g) -> In (k, n) g -> get g k = Some n.
  Proof.
    induction g as [|[a m] g IH]; cbn; [tauto|]. intros H [[= -> ->]|Hin].
    - destruct (eq_dec k k); congruence.
    - inversion H; subst. destruct (eq_dec k a) as [->|]; [|auto].
      exfalso. match goal with Hn : ~ In a _ |- _ => apply Hn end.
      apply in_map_iff. exists (a, n); auto.
  Qed.

  Lemma get_app g h k : get (g ++ h) k = match get g k with Some n => Some n | None => get h k end.
  Proof.
    induction g as [|[a m] g IH]; cbn; [reflexivity|]. destruct (eq_dec k a); auto.
  Qed.

  Lemma get_insert g k n k' :
    get (insert eq_dec g k n) k' = if eq_dec k' k then Some n else get g k'.
  Proof.
    unfold insert. destruct (get g k) as [m|] eqn:E.
    - rewrite get_set, E. reflexivity.
    - rewrite get_app. cbn. destruct (eq_dec k' k) as [->|]; [now rewrite E|].
      destruct (get g k'); reflexivity.
  Qed.
  Lemma NoDup_insert g k n : NoDup (keys g) -> NoDup (keys (insert eq_dec g k n)).
  Proof.
    intro H. unfold insert. destruct (get g k) as [m|] eqn:E.
    - now rewrite keys_set.
    - unfold keys. rewrite map_app. cbn.
      apply Permutation_NoDup with (l := k :: map fst g).
      + apply Permutation_cons_append.
      + constructor; [|assumption]. apply get_None_keys in E. exact E.
  Qed.

  (** ** The graph after [build] *)
  Lemma build_from_NoDup nodes : forall i g, NoDup (keys g) -> NoDup (keys (build_from eq_dec i nodes g)).
  Proof.
    induction nodes as [|x nodes IH]; cbn; intros i g H; [exact H|].
    apply IH, NoDup_insert, H.
  Qed.

  Lemma build_from_get nodes : forall i g k,
    get (build_from eq_dec i nodes g) k =
      match get (build_from eq_dec i nodes []) k with Some n => Some n | None => get g k end.
  Proof.
    induction nodes as [|x nodes IH]; cbn [build_from]; intros i g k; [reflexivity|].
    rewrite (IH (S i) (insert eq_dec g x (GNode 0 [] i)) k).
    rewrite (IH (S i) (insert eq_dec [] x (GNode 0 [] i)) k).
    destruct (get (build_from eq_dec (S i) nodes []) k); [reflexivity|].
    rewrite !get_insert. cbn. destruct (eq_dec k x); reflexivity.
  Qed.

  Lemma build_from_spec nodes : forall i k n,
    get (build_from eq_dec i nodes []) k = Some n ->
    count n = 0 /\ succs n = [] /\
    exists j, input_index n = i + j /\ last_position nodes k j.
  Proof.
    induction nodes as [|x nodes IH]; cbn [build_from]; intros i k n H; [discriminate|].
    rewrite build_from_get in H.
    destruct (get (build_from eq_dec (S i) nodes []) k) as [m|] eqn:E.
    - injection H as ->. destruct (IH _ _ _ E) as (H1 & H2 & j & H3 & H4 & H5).
      split; [exact H1|]. split; [exact H2|]. exists (S j). split; [lia|]. split; [exact H4|].
      intros [|j'] Hj; [lia|]. cbn in Hj. specialize (H5 _ Hj). lia.
    - rewrite get_insert in H. cbn in H. destruct (eq_dec k x) as [->|]; [|discriminate].
      injection H as <-. cbn. repeat split; auto. exists 0. split; [lia|]. split; [reflexivity|].
      intros [|j] Hj; [lia|]. cbn in Hj. exfalso.
      apply get_None_keys in E. apply E. clear -Hj.
      enough (Hg : forall nodes i, In x nodes -> exists n, get (build_from eq_dec i nodes []) x = Some n).
      { apply get_In_keys, Hg. now apply nth_error_In in Hj. }
      clear. induction nodes as [|y nodes IH]; cbn [build_from]; intros i H; [destruct H|].
      rewrite build_from_get. destruct (get (build_from eq_dec (S i) nodes []) x) eqn:E; [eauto|].
      rewrite get_insert. cbn. destruct (eq_dec x y); [eauto|].
      destruct H as [->|H]; [congruence|]. destruct (IH (S i) H) as [m Hm]. congruence.
  Qed.

  Lemma build_keys nodes k : In k (keys (build eq_dec nodes)) <-> In k nodes.
  Proof.
    unfold build. rewrite <- get_In_keys. split.
    - intros [n H]. destruct (build_from_spec _ _ _ H) as (_ & _ & j & _ & H4 & _).
      now apply nth_error_In in H4.
    - generalize 0. induction nodes as [|y nodes IH]; cbn [build_from]; intros i H; [destruct H|].
      rewrite build_from_get. destruct (get (build_from eq_dec (S i) nodes []) k) eqn:E; [eauto|].
      rewrite get_insert. cbn. destruct (eq_dec k y); [eauto|].
      destruct H as [->|H]; [congruence|]. destruct (IH (S i) H) as [m Hm]. congruence.
  Qed.

  (** ** The graph after [add_deps] *)
  Definition eqb (x y : A) : bool := if eq_dec x y then true else false.
  Lemma eqb_true x y : eqb x y = true <-> x = y.
  Proof. unfold eqb. destruct (eq_dec x y); split; congruence. Qed.
  Definition inb (x : A) (l : list A) : bool := if in_dec eq_dec x l then true else false.
  Lemma inb_true x l : inb x l = true <-> In x l.
  Proof. unfold inb. destruct (in_dec eq_dec x l); split; auto; congruence. Qed.
  Lemma inb_false x l : inb x l = false <-> ~ In x l.
  Proof. unfold inb. destruct (in_dec eq_dec x l); split; auto; congruence. Qed.

  (** number of dependencies into [k] whose predecessor is not in [dn] *)
  Definition pending (deps : list (A * A)) (dn : list A) (k : A) : nat :=
    length (filter (fun d => eqb (snd d) k && negb (inb (fst d) dn)) deps).
  Definition succ_list (deps : list (A * A)) (k : A) : list A :=
    map snd (filter (fun d => eqb (fst d) k) deps).

  (** nodes of [g] carry the data of the dependency list [ds] *)
  Definition GInv (nodes : list A) (ds : list (A * A)) (g : graph) : Prop :=
    NoDup (keys g) /\ (forall k, In k (keys g) <-> In k nodes) /\
    forall k n, get g k = Some n ->
      count n = pending ds [] k /\ succs n = succ_list ds k /\ last_position nodes k (input_index n).

  Lemma build_inv nodes : GInv nodes [] (build eq_dec nodes).
  Proof.
    split; [apply build_from_NoDup; constructor|]. split; [apply build_keys|].
    intros k n H. destruct (build_from_spec _ _ _ H) as (H1 & H2 & j & H3 & H4).
    cbn in H3. subst j. auto.
  Qed.

  Lemma pending_snoc ds p s dn k :
    pending (ds ++ [(p, s)]) dn k =
      pending ds dn k + (if eqb s k && negb (inb p dn) then 1 else 0).
  Proof.
    unfold pending. rewrite filter_app, app_length. cbn.
    destruct (eqb s k && negb (inb p dn)); reflexivity.
  Qed.
  Lemma succ_list_snoc ds p s k :
    succ_list (ds ++ [(p, s)]) k = succ_list ds k ++ (if eqb p k then [s] else []).
  Proof.
    unfold succ_list. rewrite filter_app, map_app. cbn. destruct (eqb p k); reflexivity.
  Qed.

  Lemma add_dep_ok nodes ds g p s :
    GInv nodes ds g -> In p nodes -> In s nodes ->
    exists g', add_dep eq_dec g (p, s) = Done g' /\ GInv nodes (ds ++ [(p, s)]) g'.
  Proof.
    intros (Hnd & Hk & Hg) Hp Hs. cbn.
    apply Hk, get_In_keys in Hs as Hs'. destruct Hs' as [ns Ens]. rewrite Ens.
    apply Hk, get_In_keys in Hp as Hp'. destruct Hp' as [np Enp].
    rewrite get_set, Ens, Enp.
    set (g1 := set g s _).
    destruct (eq_dec p s) as [->|Hps].
    - eexists. split; [reflexivity|]. split; [|split].
      + unfold g1. now rewrite !keys_set.
      + unfold g1. intro k. rewrite !keys_set. apply Hk.
      + intros k n. rewrite get_set. unfold g1. rewrite !get_set, Ens. cbn.
        rewrite Ens in Enp. injection Enp as <-.
        destruct (eq_dec s s) as [_|]; [|congruence].
        destruct (eq_dec k s) as [->|Hks].
        * intros [= <-]. cbn. destruct (Hg _ _ Ens) as (H1 & H2 & H3).
          rewrite pending_snoc, succ_list_snoc.
          replace (eqb s s) with true by (symmetry; apply eqb_true; reflexivity).
          cbn. rewrite H1, H2. repeat split; try lia; apply H3.
        * intro E. destruct (Hg _ _ E) as (H1 & H2 & H3).
          rewrite pending_snoc, succ_list_snoc.
          replace (eqb s k) with false
            by (symmetry; unfold eqb; destruct (eq_dec s k); congruence).
          cbn. rewrite app_nil_r. repeat split; try lia; try assumption; apply H3.
    - eexists. split; [reflexivity|]. split; [|split].
      + unfold g1. now rewrite !keys_set.
      + unfold g1. intro k. rewrite !keys_set. apply Hk.
      + intros k n. rewrite get_set. unfold g1. rewrite !get_set, Ens, Enp.
        destruct (eq_dec p s) as [|_]; [congruence|].
        rewrite pending_snoc, succ_list_snoc.
        destruct (eq_dec k p) as [->|Hkp].
        * intros [= <-]. cbn. destruct (Hg _ _ Enp) as (H1 & H2 & H3).
          replace (eqb s p) with false by (symmetry; unfold eqb; destruct (eq_dec s p); congruence).
          replace (eqb p p) with true by (symmetry; apply eqb_true; reflexivity).
          cbn. rewrite H1, H2. repeat split; try lia; apply H3.
        * replace (eqb p k) with false by (symmetry; unfold eqb; destruct (eq_dec p k); congruence).
          rewrite app_nil_r.
          destruct (eq_dec k s) as [->|Hks].
          -- intros [= <-]. cbn. destruct (Hg _ _ Ens) as (H1 & H2 & H3).
             replace (eqb s s) with true by (symmetry; apply eqb_true; reflexivity).
             cbn. rewrite H1. repeat split; try lia; try assumption; apply H3.
          -- intro E. destruct (Hg _ _ E) as (H1 & H2 & H3).
             replace (eqb s k) with false by (symmetry; unfold eqb; destruct (eq_dec s k); congruence).
             cbn. repeat split; try lia; try assumption; apply H3.
  Qed.

  Lemma add_deps_ok nodes : forall deps ds g,
    GInv nodes ds g -> (forall p s, In (p, s) deps -> In p nodes /\ In s nodes) ->
    exists g', add_deps eq_dec g deps = Done g' /\ GInv nodes (ds ++ deps) g'.
  Proof.
    induction deps as [|[p s] deps IH]; intros ds g Hg Hd.
    - rewrite app_nil_r. cbn. eauto.
    - destruct (Hd p s (or_introl eq_refl)) as [Hp Hs].
      destruct (add_dep_ok p s Hg Hp Hs) as (g' & E & Hg').
      destruct (IH _ _ Hg') as (g'' & E' & Hg''); [intros; apply Hd; now right|].
      exists g''. cbn [add_deps]. rewrite E. cbn [obind]. split; [exact E'|].
      now rewrite <- app_assoc in Hg''.
  Qed.

  Lemma add_deps_bad nodes : forall deps ds g,
    GInv nodes ds g -> ~ (forall p s, In (p, s) deps -> In p nodes /\ In s nodes) ->
    add_deps eq_dec g deps = Panicked BadSuccessor \/ add_deps eq_dec g deps = Panicked BadPredecessor.
  Proof.
    induction deps as [|[p s] deps IH]; intros ds g Hg Hd.
    - exfalso. apply Hd. intros p s [].
    - destruct (in_dec eq_dec s nodes) as [Hs|Hs].
      + destruct (in_dec eq_dec p nodes) as [Hp|Hp].
        * destruct (add_dep_ok p s Hg Hp Hs) as (g' & E & Hg').
          cbn [add_deps]. rewrite E. cbn [obind]. apply (IH _ _ Hg').
          intro H. apply Hd. intros p' s' [[= <- <-]|Hin]; auto.
        * right. cbn [add_deps]. unfold add_dep. destruct Hg as (Hnd & Hk & Hg).
          apply Hk, get_In_keys in Hs. destruct Hs as [ns Ens]. rewrite Ens.
          rewrite get_set, Ens. rewrite <- Hk in Hp. apply get_None_keys in Hp. rewrite Hp.
          destruct (eq_dec p s) as [->|]; [congruence|]. reflexivity.
      + left. cbn [add_deps]. unfold add_dep. destruct Hg as (Hnd & Hk & Hg).
        rewrite <- Hk in Hs. apply get_None_keys in Hs. rewrite Hs. reflexivity.
  Qed.

  (** ** The main loop *)
  Variable cmp : A -> A -> comparison.
  Variable pop : list (@heap_node A) -> option (@heap_node A * list (@heap_node A)).
  Hypothesis Hpop : heap_contract pop.
  Variable nodes : list A.
  Variable deps : list (A * A).
  Hypothesis Hdeps : forall p s, In (p, s) deps -> In p nodes /\ In s nodes.

  (** [dn]: nodes already emitted (in order); [ss]: successors of the last emitted
      node still to be relaxed. *)
  Record LInv (g : graph) (ready : list (@heap_node A)) (dn : list A) (ss : list A) : Prop := {
    L_nd : NoDup (keys g);
    L_keys : forall k, In k (keys g) <-> In k nodes /\ ~ In k dn;
    L_node : forall k n, get g k = Some n ->
      count n = pending deps dn k + count_occ eq_dec ss k /\
      succs n = succ_list deps k /\ last_position nodes k (input_index n);
    L_rnd : NoDup (map (@hid A) ready);
    L_ready : forall h, In h ready ->
      exists n, get g (hid h) = Some n /\ count n = 0 /\ hidx h = input_index n;
    L_ready' : forall k n, get g k = Some n -> count n = 0 -> In k (map (@hid A) ready);
    L_dnd : NoDup dn;
    L_dn : forall x, In x dn -> In x nodes;
    L_ord : forall l1 x l2, dn = l1 ++ x :: l2 -> forall p, In (p, x) deps -> In p l1;
    L_ss : forall s, In s ss -> In s nodes /\ ~ In s dn
  }.

  Lemma relax_ok : forall ss g ready dn,
    LInv g ready dn ss ->
    exists g' ready', relax eq_dec g ready ss = Done (g', ready') /\ LInv g' ready' dn [].
  Proof.
    induction ss as [|s ss IH]; intros g ready dn H.
    - cbn. eauto.
    - cbn [relax]. destruct H as [Hnd Hkeys Hnode Hrnd Hready Hready' Hdnd Hdn Hord Hss].
      destruct (Hss s (or_introl eq_refl)) as [Hs1 Hs2].
      assert (Hsk : In s (keys g)) by (apply Hkeys; auto).
      apply get_In_keys in Hsk. destruct Hsk as [n En]. rewrite En.
      destruct (Hnode _ _ En) as (Hc & Hsu & Hlp).
      cbn [count_occ] in Hc. destruct (eq_dec s s) as [_|]; [|congruence].
      destruct (count n) as [|c] eqn:Ec; [lia|].
      apply IH. constructor; auto.
      + now rewrite keys_set.
      + intro k. rewrite keys_set. apply Hkeys.
      + intros k m. rewrite get_set, En. destruct (eq_dec k s) as [->|Hks].
        * intros [= <-]. cbn. repeat split; auto; try lia; apply Hlp.
        * intro E. destruct (Hnode _ _ E) as (H1 & H2 & H3). cbn [count_occ] in H1.
          destruct (eq_dec s k); [congruence|]. auto.
      + destruct c; [|exact Hrnd]. cbn. constructor; [|exact Hrnd].
        intro Hin. apply in_map_iff in Hin. destruct Hin as (h & <- & Hh).
        destruct (Hready _ Hh) as (m & Em & Hm0 & _). congruence.
      + intros h Hh.
        assert (Hh' : (c = 0 /\ h = HNode s (input_index n)) \/ In h ready).
        { destruct c; [destruct Hh as [<-|Hh]; auto|auto]. }
        destruct Hh' as [[-> ->]|Hh'].
        * cbn. rewrite get_set, En. destruct (eq_dec s s); [|congruence]. eexists; split; [reflexivity|auto].
        * destruct (Hready _ Hh') as (m & Em & Hm0 & Hi).
          exists m. rewrite get_set. destruct (eq_dec (hid h) s) as [E|]; [|auto].
          rewrite E in Em. congruence.
      + intros k m. rewrite get_set, En. destruct (eq_dec k s) as [->|Hks].
        * intros [= <-]. cbn. intros ->. cbn. auto.
        * intros E E0. pose proof (Hready' _ _ E E0) as Hin. destruct c; [right|]; exact Hin.
      + intros s' Hs'. apply Hss. now right.
  Qed.

  Lemma pending_cons dn k x :
    ~ In x dn ->
    pending deps dn k = pending deps (dn ++ [x]) k + count_occ eq_dec (succ_list deps x) k.
  Proof.
    intro Hx. unfold pending, succ_list. clear Hdeps.
    induction deps as [|[p s] ds IH]; [reflexivity|]. cbn.
    assert (Hin : inb p (dn ++ [x]) = inb p dn || eqb p x).
    { destruct (inb p (dn ++ [x])) eqn:E.
      - apply inb_true, in_app_iff in E. symmetry. apply orb_true_iff. rewrite inb_true, eqb_true.
        destruct E as [|[|[]]]; auto.
      - symmetry. apply orb_false_iff. apply inb_false in E. rewrite in_app_iff in E.
        split; [apply inb_false; tauto|]. unfold eqb. destruct (eq_dec p x); [|reflexivity].
        exfalso; apply E; cbn; auto. }
    rewrite Hin. clear Hin.
    assert (Hpx : eqb p x = true \/ eqb p x = false) by (destruct (eqb p x); auto).
    assert (Hsk : eqb s k = true \/ eqb s k = false) by (destruct (eqb s k); auto).
    destruct Hpx as [Hpx|Hpx]; rewrite Hpx; destruct Hsk as [Hsk|Hsk]; rewrite Hsk; cbn.
    - apply eqb_true in Hpx, Hsk. subst p s. apply inb_false in Hx. rewrite Hx. cbn.
      destruct (eq_dec k k); [|congruence]. lia.
    - assert (s <> k) by (intro E0; apply eqb_true in E0; congruence).
      destruct (eq_dec s k); [congruence|]. lia.
    - rewrite orb_false_r. destruct (inb p dn); cbn; lia.
    - lia.
  Qed.

  Lemma pending_0 dn k : pending deps dn k = 0 -> forall p, In (p, k) deps -> In p dn.
  Proof.
    unfold pending. intros H p Hp. destruct (inb p dn) eqn:E; [now apply inb_true|].
    exfalso. assert (Hin : In (p, k) (filter (fun d => eqb (snd d) k && negb (inb (fst d) dn)) deps)).
    { apply filter_In. split; [exact Hp|]. cbn. rewrite E.
      replace (eqb k k) with true by (symmetry; now apply eqb_true). reflexivity. }
    destruct (filter _ _); [contradiction|discriminate].
  Qed.
  Lemma pending_0' dn k : (forall p, In (p, k) deps -> In p dn) -> pending deps dn k = 0.
  Proof.
    intro H. unfold pending.
    destruct (filter (fun d => eqb (snd d) k && negb (inb (fst d) dn)) deps) as [|[p s] l] eqn:E;
      [reflexivity|]. exfalso.
    assert (Hin : In (p, s) (filter (fun d => eqb (snd d) k && negb (inb (fst d) dn)) deps))
      by (rewrite E; now left).
    apply filter_In in Hin. cbn in Hin. destruct Hin as [Hin Hb]. apply andb_prop in Hb as [Hb1 Hb2].
    apply eqb_true in Hb1. subst s. apply H in Hin. apply inb_true in Hin. rewrite Hin in Hb2. discriminate.
  Qed.

  (** The state right after popping [h] satisfies the relax invariant. *)
  Lemma pop_step g ready dn h r n :
    LInv g ready dn [] -> pop ready = Some (h, r) -> get g (hid h) = Some n ->
    LInv (remove g (hid h)) r (dn ++ [hid h]) (succs n).
  Proof.
    intros [Hnd Hkeys Hnode Hrnd Hready Hready' Hdnd Hdn Hord _] Ep En.
    destruct Hpop as [_ Hperm]. apply Hperm in Ep.
    assert (Hh : In h ready) by (eapply Permutation_in; [symmetry; exact Ep|now left]).
    assert (Hkk : In (hid h) (keys g)) by (apply get_In_keys; eauto).
    apply Hkeys in Hkk as [Hhn Hhd].
    destruct (Hnode _ _ En) as (Hc & Hsu & _). cbn in Hc.
    destruct (Hready _ Hh) as (n' & En' & Hc0 & _). assert (n' = n) by congruence. subst n'.
    assert (Hpreds : forall p, In (p, hid h) deps -> In p dn) by (apply pending_0; lia).
    assert (Hrnd2 : NoDup (hid h :: map (@hid A) r)).
    { eapply Permutation_NoDup; [|exact Hrnd]. apply (Permutation_map (@hid A)) in Ep. exact Ep. }
    constructor.
    - now apply keys_remove_NoDup.
    - intro k. rewrite keys_remove_In, Hkeys, in_app_iff. cbn.
      split; [intros [[? ?] ?]; split; auto; intros [|[|[]]]; auto; congruence|].
      intros [? H]. repeat split; auto.
    - intros k m. rewrite get_remove. destruct (eq_dec k (hid h)); [discriminate|].
      intro E. destruct (Hnode _ _ E) as (H1 & H2 & H3). rewrite Hsu.
      rewrite <- pending_cons by assumption. cbn in H1. rewrite H1, Nat.add_0_r. auto.
    - now inversion Hrnd2.
    - intros h' Hh'. destruct (Hready h') as (m & Em & Hm0 & Hi).
      { eapply Permutation_in; [symmetry; exact Ep|now right]. }
      exists m. rewrite get_remove. destruct (eq_dec (hid h') (hid h)) as [E|]; [|auto].
      exfalso. inversion Hrnd2 as [|? ? Hni _]; subst. apply Hni. rewrite <- E. now apply in_map.
    - intros k m. rewrite get_remove. destruct (eq_dec k (hid h)) as [|Hne]; [discriminate|].
      intros E E0. specialize (Hready' _ _ E E0).
      assert (Hin : In k (hid h :: map (@hid A) r)).
      { eapply Permutation_in; [|exact Hready']. apply (Permutation_map (@hid A)) in Ep. exact Ep. }
      destruct Hin as [<-|]; [congruence|assumption].
    -
      apply Permutation_NoDup with (l := hid h :: dn); [apply Permutation_cons_append|].
      constructor; auto.
    - intros x. rewrite in_app_iff. cbn. intros [|[<-|[]]]; auto.
    - intros l1 x l2 E p Hp.
      destruct (@exists_last _ (x :: l2)) as (l2' & z & E2); [discriminate|].
      rewrite E2, app_assoc in E. apply app_inj_tail in E. destruct E as [E <-].
      destruct l2' as [|x' l2']; cbn in E2.
      + injection E2 as -> ->. rewrite app_nil_r in E. subst l1. now apply Hpreds.
      + injection E2 as <- E2. eapply Hord; eauto.
    - intros s Hs. rewrite Hsu in Hs. unfold succ_list in Hs. apply in_map_iff in Hs.
      destruct Hs as ([p s'] & E & Hf). cbn in E. subst s'. apply filter_In in Hf. cbn in Hf.
      destruct Hf as [Hin Hb]. apply eqb_true in Hb. subst p.
      split; [now apply (Hdeps _ _ Hin)|]. rewrite in_app_iff. cbn.
      intros [H|[H|[]]].
      + apply in_split in H. destruct H as (l1 & l2 & E). specialize (Hord _ _ _ E _ Hin).
        apply Hhd. rewrite E. apply in_app_iff. auto.
      + rewrite <- H in Hin. apply Hpreds in Hin. auto.
  Qed.

  (** A node is available exactly when it is in the ready heap. *)
  Lemma ready_available g ready dn :
    LInv g ready dn [] -> forall k, In k (map (@hid A) ready) <-> available nodes deps dn k.
  Proof.
    intros [Hnd Hkeys Hnode Hrnd Hready Hready' Hdnd Hdn Hord _] k. split.
    - intro H. apply in_map_iff in H. destruct H as (h & <- & Hh).
      destruct (Hready _ Hh) as (n & En & Hn0 & _).
      assert (Hk : In (hid h) (keys g)) by (apply get_In_keys; eauto).
      apply Hkeys in Hk. destruct Hk. repeat split; auto.
      destruct (Hnode _ _ En) as (Hc & _). cbn in Hc. apply pending_0. lia.
    - intros (H1 & H2 & H3). assert (Hk : In k (keys g)) by (apply Hkeys; auto).
      apply get_In_keys in Hk. destruct Hk as [n En]. apply (Hready' _ _ En).
      destruct (Hnode _ _ En) as (Hc & _). cbn in Hc. rewrite pending_0' in Hc by assumption. lia.
  Qed.

  (** Greediness of the emitted prefix (needs the lawful contract). *)
  Definition greedy_prefix (dn : list A) : Prop :=
    forall l1 x l2, dn = l1 ++ x :: l2 ->
     available nodes deps l1 x /\
     forall y, available nodes deps l1 y -> y = x \/ preferred cmp nodes x y.

  Definition lawful_heap := lawful cmp /\ heap_max_contract cmp pop.

  Lemma last_position_fun (x : A) i j : last_position nodes x i -> last_position nodes x j -> i = j.
  Proof. intros [H1 H2] [H3 H4]. apply H2 in H3. apply H4 in H1. lia. Qed.

  Lemma heap_pref h h' :
    lawful cmp ->
    last_position nodes (hid h) (hidx h) -> last_position nodes (hid h') (hidx h') ->
    heap_cmp cmp h' h <> Gt -> hid h' = hid h \/ preferred cmp nodes (hid h) (hid h').
  Proof.
    intros [Hopp Htr] L1 L2. unfold heap_cmp. rewrite (Hopp (hid h) (hid h')).
    destruct (cmp (hid h) (hid h')) eqn:E; cbn.
    - intro H. destruct (Nat.compare_spec (hidx h) (hidx h')); try congruence.
      + left. destruct L1 as [L1 _], L2 as [L2 _]. congruence.
      + right. right. split; [exact E|]. eauto.
    - intros _. right. now left.
    - congruence.
  Qed.

  Lemma greedy_step g ready dn h r :
    lawful_heap -> LInv g ready dn [] -> pop ready = Some (h, r) ->
    greedy_prefix dn -> greedy_prefix (dn ++ [hid h]).
  Proof.
    intros [Hlaw Hmax] HL Ep HG l1 x l2 E.
    destruct Hpop as [_ Hperm]. pose proof (Hperm _ _ _ Ep) as HP.
    destruct (@exists_last _ (x :: l2)) as (l2' & z & E2); [discriminate|].
    rewrite E2, app_assoc in E. apply app_inj_tail in E. destruct E as [E <-].
    destruct l2' as [|x' l2']; cbn in E2; [|injection E2 as <- E2; eapply HG; eauto].
    injection E2 as -> ->. rewrite app_nil_r in E. subst l1.
    assert (Hh : In h ready) by (eapply Permutation_in; [symmetry; exact HP|now left]).
    split; [apply (ready_available HL); now apply in_map|].
    intros y Hy. apply (ready_available HL) in Hy. apply in_map_iff in Hy.
    destruct Hy as (h' & <- & Hh').
    destruct HL as [Hnd Hkeys Hnode Hrnd Hready Hready' Hdnd Hdn Hord _].
    assert (Hpos : forall h, In h ready -> last_position nodes (hid h) (hidx h)).
    { intros h0 Hh0. destruct (Hready _ Hh0) as (n & En & _ & Hi). rewrite Hi.
      apply (Hnode _ _ En). }
    eapply Permutation_in in Hh' as Hin; [|exact HP]. destruct Hin as [<-|Hin]; [now left|].
    apply heap_pref; auto. eapply Hmax; eauto.
  Qed.

  Lemma main_loop_ok : forall fuel g ready dn,
    LInv g ready dn [] -> length (keys g) <= fuel ->
    exists g' out, main_loop eq_dec pop fuel g ready dn = Done (g', out) /\
      LInv g' [] out [] /\ (lawful_heap -> greedy_prefix dn -> greedy_prefix out).
  Proof.
    induction fuel as [|fuel IH]; intros g ready dn HL Hf; cbn [main_loop].
    - destruct (pop ready) as [[h r]|] eqn:Ep.
      + exfalso. destruct (L_ready HL h) as (n & En & _).
        { destruct Hpop as [_ Hperm]. eapply Permutation_in; [symmetry; eapply Hperm; exact Ep|now left]. }
        assert (Hin : In (hid h) (keys g)) by (apply get_In_keys; eauto).
        destruct (keys g); [contradiction|cbn in Hf; lia].
      + apply (proj1 Hpop) in Ep. subst ready. eauto.
    - destruct (pop ready) as [[h r]|] eqn:Ep.
      + destruct (L_ready HL h) as (n & En & _).
        { destruct Hpop as [_ Hperm]. eapply Permutation_in; [symmetry; eapply Hperm; exact Ep|now left]. }
        rewrite En. pose proof (pop_step HL Ep En) as HL'.
        destruct (relax_ok HL') as (g' & r' & Er & HL''). rewrite Er. cbn [obind fst snd].
        destruct (IH g' r' (dn ++ [hid h]) HL'') as (g'' & out & E & HLf & HGf).
        { assert (Hlt : length (keys g') < length (keys g)).
          { assert (Hincl : forall k, In k (keys g') -> In k (keys g) /\ k <> hid h).
            { intros k Hk. apply (L_keys HL'') in Hk. rewrite in_app_iff in Hk. cbn in Hk.
              split; [apply (L_keys HL); tauto|]. intros ->. tauto. }
            assert (Hh : In (hid h) (keys g)) by (apply get_In_keys; eauto).
            apply in_split in Hh. destruct Hh as (k1 & k2 & Ek).
            rewrite Ek. apply Nat.le_lt_trans with (length (k1 ++ k2));
              [|rewrite !app_length; cbn; lia].
            apply NoDup_incl_length; [apply (L_nd HL'')|]. intros k Hk.
            destruct (Hincl k Hk) as [Hk1 Hk2]. rewrite Ek in Hk1.
            apply in_app_iff in Hk1. apply in_app_iff. destruct Hk1 as [|[|]]; auto. congruence. }
          lia. }
        exists g'', out. split; [exact E|]. split; [exact HLf|].
        intros Hlaw HG. apply HGf; [exact Hlaw|]. eapply greedy_step; eauto.
      + apply (proj1 Hpop) in Ep. subst ready. eauto.
  Qed.

  Variable it1 : @graph A -> @graph A.
  Variable it2 : list A -> list A.
  Hypothesis Hit1 : iter_contract it1.
  Hypothesis Hit2 : iter_contract it2.

  Lemma initial_inv g : GInv nodes deps g -> LInv g (initial_ready it1 g) [] [].
  Proof.
    intros (Hnd & Hk & Hg).
    assert (Hmem : forall h, In h (initial_ready it1 g) <->
              exists k n, h = HNode k (input_index n) /\ get g k = Some n /\ count n = 0).
    { intro h. unfold initial_ready. rewrite in_map_iff. split.
      - intros ([k n] & <- & Hf). apply filter_In in Hf. destruct Hf as [Hin Hb].
        cbn in *. apply Nat.eqb_eq in Hb. exists k, n. split; [reflexivity|].
        split; [|exact Hb]. apply In_get; [exact Hnd|].
        eapply Permutation_in; [symmetry; apply Hit1|exact Hin].
      - intros (k & n & -> & E & E0). exists (k, n). split; [reflexivity|].
        apply filter_In. cbn. rewrite E0. split; [|reflexivity].
        eapply Permutation_in; [apply Hit1|]. now apply get_In in E. }
    constructor; auto.
    - intro k. rewrite Hk. cbn. tauto.
    - intros k n E. destruct (Hg _ _ E) as (H1 & H2 & H3). cbn. rewrite Nat.add_0_r. auto.
    - unfold initial_ready. rewrite map_map. cbn.
      assert (HP : NoDup (map fst (it1 g))).
      { eapply Permutation_NoDup; [|exact Hnd]. apply Permutation_map, Hit1. }
      clear -HP. induction (it1 g) as [|[k n] l IH]; cbn; [constructor|].
      inversion HP as [|? ? Hni HP']; subst. destruct (Nat.eqb (count n) 0); cbn; [|auto].
      constructor; [|auto]. intro H. apply Hni. apply in_map_iff in H.
      destruct H as ([k' n'] & E & Hf). cbn in E. subst k'. apply filter_In in Hf.
      apply in_map_iff. exists (k, n'). tauto.
    - intros h Hh. apply Hmem in Hh. destruct Hh as (k & n & -> & E & E0). cbn. eauto.
    - intros k n E E0. apply in_map_iff. exists (HNode k (input_index n)). split; [reflexivity|].
      apply Hmem. eauto.
    - constructor.
    - intros x [].
    - intros l1 x l2 E. destruct l1; discriminate.
    - intros s [].
  Qed.

  (** ** Sorting *)
  Lemma sort_insert_perm x l : Permutation (x :: l) (sort_insert cmp x l).
  Proof.
    induction l as [|y l IH]; cbn; [reflexivity|]. destruct (cmp x y); try reflexivity.
    rewrite perm_swap. now constructor.
  Qed.
  Lemma sort_by_perm l : Permutation l (sort_by cmp l).
  Proof.
    induction l as [|x l IH]; cbn; [reflexivity|].
    rewrite <- sort_insert_perm. now constructor.
  Qed.

  Fixpoint ssorted (l : list A) : Prop :=
    match l with
    | [] => True
    | x :: l' => (forall y, In y l' -> cmp x y <> Gt) /\ ssorted l'
    end.
  Lemma sort_insert_sorted x l : lawful cmp -> ssorted l -> ssorted (sort_insert cmp x l).
  Proof.
    intros [Hopp Htr]. induction l as [|y l IH]; cbn; [intros; split; [intros ? []|exact I]|].
    intros [Hy Hl]. destruct (cmp x y) eqn:E; cbn.
    - split; [|auto]. intros z [<-|Hz]; [congruence|]. apply Htr with y; [congruence|auto].
    - split; [|auto]. intros z [<-|Hz]; [congruence|]. apply Htr with y; [congruence|auto].
    - split; [|auto]. intros z Hz. eapply Permutation_in in Hz; [|symmetry; apply sort_insert_perm].
      destruct Hz as [<-|Hz]; [|auto]. rewrite Hopp, E. discriminate.
  Qed.
  Lemma sort_by_sorted l : lawful cmp -> ssorted (sort_by cmp l).
  Proof.
    intro H. induction l as [|x l IH]; cbn; [exact I|]. now apply sort_insert_sorted.
  Qed.
  Lemma ssorted_sorted_by l : ssorted l -> sorted_by cmp l.
  Proof.
    intros H l1. revert l H. induction l1 as [|z l1 IH]; intros l H x l2 y l3 ->; cbn in H.
    - destruct H as [H _]. apply H. apply in_app_iff. right. now left.
    - destruct H as [_ H]. eapply IH; eauto.
  Qed.

  (** two sorted permutations agree when the order is antisymmetric on the elements *)
  Lemma sorted_unique l : forall l', Permutation l l' -> ssorted l -> ssorted l' ->
    (forall x y, In x l -> In y l -> cmp x y <> Gt -> cmp y x <> Gt -> x = y) -> l = l'.
  Proof.
    induction l as [|x l IH]; intros l' HP H1 H2 Ha.
    - now apply Permutation_nil in HP.
    - destruct l' as [|y l']; [symmetry in HP; now apply Permutation_nil in HP|].
      assert (x = y).
      { assert (Hx : In x (y :: l')) by (eapply Permutation_in; [exact HP|now left]).
        assert (Hy : In y (x :: l)) by (eapply Permutation_in; [symmetry; exact HP|now left]).
        destruct Hx as [|Hx]; [auto|]. destruct Hy as [|Hy]; [auto|].
        apply Ha; cbn; auto; [now apply H1|now apply H2]. }
      subst y. f_equal. apply IH.
      + now apply Permutation_cons_inv in HP.
      + apply H1.
      + apply H2.
      + intros; apply Ha; cbn; auto.
  Qed.

  (** ** Characterisation of the whole function *)
  Notation tsort := (toposort eq_dec cmp pop it1 it2).

  Lemma toposort_char :
    exists out fl, tsort nodes deps = Done (out, fl) /\
      NoDup out /\ NoDup fl /\
      (forall x, In x fl <-> In x nodes /\ ~ In x out) /\
      (forall x, In x out -> In x nodes) /\
      (forall l1 x l2, out = l1 ++ x :: l2 -> forall p, In (p, x) deps -> In p l1) /\
      (forall y, ~ available nodes deps out y) /\
      (lawful_heap -> greedy_prefix out) /\
      (lawful cmp -> ssorted fl) /\
      exists rest, Permutation rest fl /\ NoDup rest /\ fl = sort_by cmp (it2 rest).
  Proof.
    destruct (@add_deps_ok nodes deps [] (build eq_dec nodes) (build_inv nodes) Hdeps) as (g & Eg & Hg).
    cbn in Hg. pose proof (initial_inv Hg) as HL.
    destruct (@main_loop_ok (length nodes) g (initial_ready it1 g) [] HL) as (g' & out & E & HLf & HG).
    { apply NoDup_incl_length; [apply Hg|]. intros k Hk. now apply Hg. }
    exists out, (sort_by cmp (it2 (keys g'))). unfold toposort. rewrite Eg. cbn [obind].
    rewrite E. cbn [obind].
    assert (HPf : Permutation (keys g') (sort_by cmp (it2 (keys g')))).
    { transitivity (it2 (keys g')); [apply Hit2|apply sort_by_perm]. }
    split; [reflexivity|]. split; [apply (L_dnd HLf)|].
    split; [eapply Permutation_NoDup; [exact HPf|apply (L_nd HLf)]|].
    split.
    { intro x. rewrite <- (L_keys HLf). split; apply Permutation_in; [now symmetry|exact HPf]. }
    split; [apply (L_dn HLf)|]. split; [apply (L_ord HLf)|].
    split; [intros y Hy; now apply (ready_available HLf) in Hy|].
    split; [intro Hl; apply HG; [exact Hl|intros l1 ? ? E0; destruct l1; discriminate]|].
    split; [intro Hl; now apply sort_by_sorted|].
    exists (keys g'). split; [exact HPf|]. split; [apply (L_nd HLf)|reflexivity].
  Qed.

  (** ** Cycles *)
  Lemma before_edges out : NoDup out ->
    (forall l1 x l2, out = l1 ++ x :: l2 -> forall p, In (p, x) deps -> In p l1) ->
    forall p x, clos_trans A (edge deps) p x -> In x out -> before out p x.
  Proof.
    intros Hnd Hord p x Ht. apply clos_trans_tn1 in Ht. induction Ht as [y E|y z E _ IH]; intro Hin.
    - apply in_split in Hin. destruct Hin as (l1 & l2 & Eo). pose proof (Hord _ _ _ Eo _ E) as Hp.
      apply in_split in Hp. destruct Hp as (a & b & ->). exists a, b, l2.
      rewrite Eo, <- app_assoc. reflexivity.
    - apply in_split in Hin. destruct Hin as (l1 & l2 & Eo). pose proof (Hord _ _ _ Eo _ E) as Hy.
      assert (Hyo : In y out) by (rewrite Eo; apply in_app_iff; auto).
      destruct (IH Hyo) as (a & b & c & Eb).
      apply in_split in Hy. destruct Hy as (d & e & ->).
      assert (Hsplit : a ++ p :: b = d /\ c = e ++ z :: l2).
      { assert (E3 : (a ++ p :: b) ++ y :: c = d ++ y :: (e ++ z :: l2)).
        { rewrite <- app_assoc. cbn. rewrite <- Eb, Eo, <- app_assoc. reflexivity. }
        assert (Hnd' : NoDup ((a ++ p :: b) ++ y :: c)).
        { rewrite <- app_assoc. cbn. rewrite <- Eb. exact Hnd. }
        clear -E3 Hnd'. revert d E3. generalize dependent (a ++ p :: b).
        induction l as [|w l IH]; intros Hnd [|v d] E3; cbn in *.
        - injection E3 as E3. auto.
        - injection E3 as <- E3. exfalso. inversion Hnd as [|? ? Hn _].
          apply Hn. rewrite E3. apply in_app_iff. right. now left.
        - injection E3 as -> E3. exfalso. inversion Hnd as [|? ? Hn _].
          apply Hn. apply in_app_iff. right. now left.
        - injection E3 as -> E3. inversion Hnd; subst. destruct (IH ltac:(assumption) d E3). subst. auto. }
      destruct Hsplit as [<- ->]. exists a, (b ++ y :: e), l2.
      rewrite Eb. rewrite <- !app_assoc. reflexivity.
  Qed.

  Lemma before_irrefl (out : list A) x : NoDup out -> ~ before out x x.
  Proof.
    intros Hnd (l1 & l2 & l3 & E). rewrite E in Hnd. apply NoDup_remove_2 in Hnd.
    apply Hnd. apply in_app_iff. right. apply in_app_iff. right. now left.
  Qed.

  (** In a finite set closed under "has a predecessor in the set", every element
      is behind a cycle. *)
  Fixpoint chain (l : list A) : Prop :=   (* each element is a predecessor of the next *)
    match l with
    | [] => True
    | x :: l' => match l' with [] => True | y :: _ => In (x, y) deps end /\ chain l'
    end.
  Lemma chain_rt l2 : forall x y l3, chain (x :: l2 ++ y :: l3) -> clos_trans A (edge deps) x y.
  Proof.
    induction l2 as [|z l2 IH]; intros x y l3 [H1 H2]; cbn in *.
    - now apply t_step.
    - apply t_trans with z; [now apply t_step|]. eapply IH. exact H2.
  Qed.
  Lemma chain_app_r l1 l2 : chain (l1 ++ l2) -> chain l2.
  Proof. induction l1 as [|x l1 IH]; cbn; [auto|]. intros [_ H]. auto. Qed.

  Lemma long_chain (S0 : list A) :
    (forall x, In x S0 -> exists p, In p S0 /\ In (p, x) deps) ->
    forall n x, In x S0 -> exists l, length l = n /\ chain (l ++ [x]) /\ (forall y, In y (l ++ [x]) -> In y S0).
  Proof.
    intros HS n. induction n as [|n IH]; intros x Hx.
    - exists []. cbn. intuition (subst; auto).
    - destruct (IH x Hx) as (l & Hl & Hc & Hall).
      assert (Hhd : exists y l', l ++ [x] = y :: l') by (destruct l; cbn; eauto).
      destruct Hhd as (y & l' & E). destruct (HS y) as (p & Hp & Hpy).
      { apply Hall. rewrite E. now left. }
      exists (p :: l). cbn. split; [lia|]. split.
      + rewrite E in *. split; [exact Hpy|exact Hc].
      + intros z [<-|Hz]; auto.
  Qed.

  Lemma dup_split (l : list A) : ~ NoDup l -> exists l1 x l2 l3, l = l1 ++ x :: l2 ++ x :: l3.
  Proof.
    induction l as [|a l IH]; intro H; [exfalso; apply H; constructor|].
    destruct (in_dec eq_dec a l) as [Hin|Hin].
    - apply in_split in Hin. destruct Hin as (l2 & l3 & ->). exists [], a, l2, l3. reflexivity.
    - destruct IH as (l1 & x & l2 & l3 & ->).
      + intro Hn. apply H. now constructor.
      + exists (a :: l1), x, l2, l3. reflexivity.
  Qed.

  Lemma closed_set_cycle (S0 : list A) :
    (forall x, In x S0 -> exists p, In p S0 /\ In (p, x) deps) ->
    forall x, In x S0 -> stuck_behind_cycle deps x.
  Proof.
    intros HS x Hx. destruct (@long_chain S0 HS (length S0) x Hx) as (l & Hl & Hc & Hall).
    destruct (@dup_split (l ++ [x])) as (l1 & c & l2 & l3 & E).
    { intro Hnd. apply NoDup_incl_length with (l' := S0) in Hnd; [|exact Hall].
      rewrite app_length in Hnd. cbn in Hnd. lia. }
    rewrite E in Hc. apply chain_app_r in Hc. exists c. split.
    - eapply chain_rt. exact Hc.
    - apply (chain_app_r (c :: l2)) in Hc.
      destruct l3 as [|z l3] using rev_ind.
      + replace (l1 ++ c :: l2 ++ [c]) with ((l1 ++ c :: l2) ++ [c]) in E
          by (rewrite <- app_assoc; reflexivity).
        apply app_inj_tail in E. destruct E as [_ ->]. apply rt_refl.
      + clear IHl3.
        replace (l1 ++ c :: l2 ++ c :: l3 ++ [z]) with ((l1 ++ c :: l2 ++ c :: l3) ++ [z]) in E
          by (rewrite <- !app_assoc; cbn; rewrite <- app_assoc; reflexivity).
        apply app_inj_tail in E. destruct E as [_ ->].
        apply chain_rt in Hc. clear -Hc.
        induction Hc; [now apply rt_step|eapply rt_trans; eauto].
  Qed.

  Lemma failed_iff_stuck out fl :
    NoDup out ->
    (forall x, In x fl <-> In x nodes /\ ~ In x out) ->
    (forall l1 x l2, out = l1 ++ x :: l2 -> forall p, In (p, x) deps -> In p l1) ->
    (forall y, ~ available nodes deps out y) ->
    forall x, In x fl <-> In x nodes /\ stuck_behind_cycle deps x.
  Proof.
    intros Hnd Hfl Hord Hno x. split.
    - intro Hx. split; [now apply Hfl|]. apply closed_set_cycle with fl; [|exact Hx].
      clear x Hx. intros x Hx. apply Hfl in Hx as [Hx1 Hx2].
      destruct (Forall_Exists_dec (fun p => In p out) (fun p => in_dec eq_dec p out)
                  (map fst (filter (fun d => eqb (snd d) x) deps))) as [Hall|Hex].
      + exfalso. apply (Hno x). repeat split; auto. intros p Hp.
        rewrite Forall_forall in Hall. apply Hall. apply in_map_iff. exists (p, x).
        split; [reflexivity|]. apply filter_In. split; [exact Hp|]. now apply eqb_true.
      + apply Exists_exists in Hex. destruct Hex as (p & Hp & Hpn).
        apply in_map_iff in Hp. destruct Hp as ([p' x'] & E & Hf). cbn in E. subst p'.
        apply filter_In in Hf. destruct Hf as [Hin Hb]. apply eqb_true in Hb. cbn in Hb. subst x'.
        exists p. split; [|exact Hin]. apply Hfl. split; [|exact Hpn]. now apply (Hdeps _ _ Hin).
    - intros [Hx (c & Hcc & Hcx)]. apply Hfl. split; [exact Hx|]. intro Hin.
      assert (Hc : In c out).
      { clear -Hcx Hin Hord. apply clos_rt_rt1n in Hcx. induction Hcx as [|a b z E _ IH]; [exact Hin|].
        specialize (IH Hin). apply in_split in IH. destruct IH as (l1 & l2 & Eo).
        rewrite Eo. apply in_app_iff. left. eapply Hord; eauto. }
      apply (before_irrefl (x := c) Hnd). now apply before_edges.
  Qed.

End Proofs.

(** ** Uniqueness of the greedy order *)
Section Greedy.
  Context {A : Type}.
  Variable cmp : A -> A -> comparison.
  Variable nodes : list A.
  Variable deps : list (A * A).
  Hypothesis Hlaw : lawful cmp.

  Lemma preferred_asym x y : preferred cmp nodes x y -> preferred cmp nodes y x -> False.
  Proof.
    destruct Hlaw as [Hopp _]. unfold preferred. rewrite (Hopp x y).
    intros [H|(H & i & j & Hi & Hj & Hij)] [H'|(H' & i' & j' & Hi' & Hj' & Hij')];
      rewrite H in H'; try discriminate.
    destruct Hi as [Hi1 Hi2], Hj as [Hj1 Hj2], Hi' as [Hi1' Hi2'], Hj' as [Hj1' Hj2'].
    specialize (Hi2 _ Hj1'). specialize (Hj2 _ Hi1').
    specialize (Hi2' _ Hj1). specialize (Hj2' _ Hi1). lia.
  Qed.

  Lemma greedy_unique out out' :
    greedy cmp nodes deps out -> greedy cmp nodes deps out' -> out = out'.
  Proof.
    intros [H1 H1'] [H2 H2'].
    enough (Hgen : forall b a a', out = a ++ b -> out' = a ++ a' -> b = a')
      by (apply (Hgen out [] out'); reflexivity).
    induction b as [|x b IH]; intros a a' E E'.
    - destruct a' as [|y a']; [reflexivity|]. exfalso.
      destruct (H2 _ _ _ E') as [Hav _]. apply (H1' y). rewrite app_nil_r in E. now subst.
    - destruct a' as [|y a'].
      + exfalso. destruct (H1 _ _ _ E) as [Hav _]. apply (H2' x). rewrite app_nil_r in E'. now subst.
      + destruct (H1 _ _ _ E) as [Hx Hxm]. destruct (H2 _ _ _ E') as [Hy Hym].
        assert (x = y).
        { destruct (Hxm y Hy) as [|Hp]; [auto|]. destruct (Hym x Hx) as [|Hp']; [auto|].
          exfalso. eapply preferred_asym; eauto. }
        subst y. f_equal. apply (IH (a ++ [x]) a').
        * rewrite E, <- app_assoc. reflexivity.
        * rewrite E', <- app_assoc. reflexivity.
  Qed.

  (** A list that contains all nodes once, is sorted by preference and is
      topological, is greedy. *)
  Lemma sorted_topological_greedy l :
    NoDup l -> (forall x, In x l <-> In x nodes) ->
    (forall x y, before l x y -> preferred cmp nodes x y) ->
    (forall l1 x l2, l = l1 ++ x :: l2 -> forall p, In (p, x) deps -> In p l1) ->
    greedy cmp nodes deps l.
  Proof.
    intros Hnd Hin Hs Ht. split.
    - intros l1 x l2 E. split.
      + split; [apply Hin; rewrite E; apply in_app_iff; right; now left|].
        split; [|eauto]. rewrite E in Hnd. apply NoDup_remove_2 in Hnd.
        intro H. apply Hnd. apply in_app_iff. auto.
      + intros y (Hy & Hyn & _). apply Hin in Hy. rewrite E in Hy. apply in_app_iff in Hy.
        destruct Hy as [|[|Hy]]; [contradiction|auto|]. right. apply Hs.
        apply in_split in Hy. destruct Hy as (a & b & ->). exists l1, a, b. exact E.
    - intros y (Hy & Hyn & _). apply Hyn. now apply Hin.
  Qed.
End Greedy.

(** The scan heap used in the examples meets the contracts. *)
Lemma scan_max_perm {A} (cmp : A -> A -> comparison) : forall l b m r,
  scan_max cmp b l = (m, r) -> Permutation (b :: l) (m :: r).
Proof.
  induction l as [|x l IH]; cbn; intros b m r H.
  - injection H as -> <-. reflexivity.
  - destruct (heap_cmp cmp x b).
    1,2: destruct (scan_max cmp b l) as [m' r'] eqn:E; injection H as -> <-;
      rewrite perm_swap, (IH _ _ _ E); apply perm_swap.
    destruct (scan_max cmp x l) as [m' r'] eqn:E; injection H as -> <-.
    rewrite (IH _ _ _ E). apply perm_swap.
Qed.
Lemma scan_pop_contract {A} (cmp : A -> A -> comparison) : heap_contract (scan_pop cmp).
Proof.
  split.
  - intros [|x l]; cbn; split; congruence.
  - intros [|x l] h r; cbn; [discriminate|]. intros [= E]. now apply scan_max_perm in E.
Qed.

Lemma heap_cmp_trans {A} (cmp : A -> A -> comparison) :
  lawful cmp -> forall a b c, heap_cmp cmp a b <> Gt -> heap_cmp cmp b c <> Gt -> heap_cmp cmp a c <> Gt.
Proof.
  intros [Hopp Htr] a b c. unfold heap_cmp.
  pose proof (Hopp (hid a) (hid b)) as O1. pose proof (Hopp (hid b) (hid c)) as O2.
  pose proof (Hopp (hid a) (hid c)) as O3.
  pose proof (Htr (hid a) (hid b) (hid c)) as T1. pose proof (Htr (hid c) (hid b) (hid a)) as T2.
  pose proof (Htr (hid b) (hid a) (hid c)) as T3. pose proof (Htr (hid b) (hid c) (hid a)) as T4.
  pose proof (Htr (hid a) (hid c) (hid b)) as T5. pose proof (Htr (hid c) (hid a) (hid b)) as T6.
  destruct (cmp (hid a) (hid b)), (cmp (hid b) (hid c)), (cmp (hid a) (hid c));
    cbn in *; rewrite ?O1, ?O2, ?O3 in *; cbn in *;
    first [ congruence
          | (rewrite !Nat.compare_gt_iff; lia)
          | (exfalso; first [solve [apply T1; congruence]|solve [apply T2; congruence]|solve [apply T3; congruence]|solve [apply T4; congruence]|solve [apply T5; congruence]|solve [apply T6; congruence]]) ].
Qed.
Lemma heap_cmp_opp {A} (cmp : A -> A -> comparison) :
  lawful cmp -> forall a b, heap_cmp cmp b a = CompOpp (heap_cmp cmp a b).
Proof.
  intros [Hopp _] a b. unfold heap_cmp. rewrite (Hopp (hid a) (hid b)).
  destruct (cmp (hid a) (hid b)); cbn; try reflexivity. now rewrite <- Nat.compare_antisym.
Qed.
Lemma scan_max_max {A} (cmp : A -> A -> comparison) : lawful cmp -> forall l b m r,
  scan_max cmp b l = (m, r) -> heap_cmp cmp b m <> Gt /\ forall x, In x r -> heap_cmp cmp x m <> Gt.
Proof.
  intros Hl. assert (Hrefl : forall b, heap_cmp cmp b b <> Gt).
  { intros b E. pose proof (heap_cmp_opp Hl b b) as H. rewrite E in H. discriminate. }
  induction l as [|x l IH]; cbn; intros b m r H.
  - injection H as -> <-. split; [apply Hrefl|intros ? []].
  - destruct (heap_cmp cmp x b) eqn:Exb.
    1,2: destruct (scan_max cmp b l) as [m' r'] eqn:E; injection H as -> <-;
      destruct (IH _ _ _ E) as [H1 H2]; split; [exact H1|];
      intros y [<-|Hy]; [|auto]; apply heap_cmp_trans with b; auto; congruence.
    destruct (scan_max cmp x l) as [m' r'] eqn:E; injection H as -> <-.
    destruct (IH _ _ _ E) as [H1 H2].
    assert (Hbm : heap_cmp cmp b m <> Gt).
    { apply heap_cmp_trans with x; auto. rewrite (heap_cmp_opp Hl), Exb. discriminate. }
    split; [exact Hbm|]. intros y [<-|Hy]; auto.
Qed.
Lemma scan_pop_max {A} (cmp : A -> A -> comparison) : lawful cmp -> heap_max_contract cmp (scan_pop cmp).
Proof.
  intros Hl [|x l] h r; cbn; [discriminate|]. intros [= E] h' Hh'.
  now apply (scan_max_max Hl) in E as [_ E]; auto.
Qed.

Lemma Classical_free_deps_known {A} (eq_dec : forall x y : A, {x = y} + {x <> y}) nodes (deps : list (A * A)) :
  (forall p s, In (p, s) deps -> In p nodes /\ In s nodes) \/
  ~ (forall p s, In (p, s) deps -> In p nodes /\ In s nodes).
Proof.
  induction deps as [|[p s] deps IH].
  - left. intros p s [].
  - destruct IH as [IH|IH].
    + destruct (in_dec eq_dec p nodes) as [Hp|Hp]; [destruct (in_dec eq_dec s nodes) as [Hs|Hs]|].
      * left. intros p' s' [[= <- <-]|H]; auto.
      * right. intro H. exact (Hs (proj2 (H p s (or_introl eq_refl)))).
      * right. intro H. exact (Hp (proj1 (H p s (or_introl eq_refl)))).
    + right. intro H. apply IH. intros p' s' H'. apply H. now right.
Qed.

Lemma split_unique {A} (x : A) : forall l1 l2 d e,
  NoDup (l1 ++ x :: l2) -> l1 ++ x :: l2 = d ++ x :: e -> l1 = d.
Proof.
  induction l1 as [|w l1 IH]; intros l2 [|v d] e Hnd E; cbn in *.
  - reflexivity.
  - injection E as <- E. inversion Hnd as [|? ? Hn _]. exfalso. apply Hn. rewrite E.
    apply in_app_iff. right. now left.
  - injection E as -> E. inversion Hnd as [|? ? Hn _]. exfalso. apply Hn.
    apply in_app_iff. right. now left.
  - injection E as -> E. inversion Hnd; subst. f_equal. eapply IH; eauto.
Qed.

Lemma before_asym {A} (l : list A) p s : NoDup l -> before l p s -> before l s p -> False.
Proof.
  intros Hnd (a & b & c & E) (a' & b' & c' & E').
  assert (Ha : a = a' ++ s :: b').
  { eapply (@split_unique A p a (b ++ s :: c) (a' ++ s :: b') c').
    - now rewrite <- E.
    - rewrite <- app_assoc. cbn. now rewrite <- E, <- E'. }
  rewrite E in Hnd. rewrite Ha in Hnd. rewrite <- app_assoc in Hnd. cbn in Hnd.
  apply NoDup_remove_2 in Hnd. apply Hnd.
  rewrite !in_app_iff. right. right. right. apply in_app_iff. right. now left.
Qed.
