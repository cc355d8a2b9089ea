(** From the well-formed IR to the contents of the map and the numbering. *)
From Coq Require Import ZArith List Bool String Lia Permutation.
From Verif.NsEmit Require Import Model Spec Proofs.
Import ListNotations.
Local Open Scope Z_scope.
Local Open Scope list_scope.

(** ** Occurrences and ids *)
Lemma occurs_preorder l e ok i : Occurs l e ok i -> In i (flat_map preorder l).
Proof.
  induction 1 as [l i Hi|l b ch e ok i Hi _ IH]; apply in_flat_map.
  - exists i. split; [exact Hi|]. destruct i; left; reflexivity.
  - exists (Ns b ch). split; [exact Hi|]. right. exact IH.
Qed.

Lemma preorder_occurs l i : In i (flat_map preorder l) -> exists e ok, Occurs l e ok i.
Proof.
  intros H. apply in_flat_map in H. destruct H as (r & Hr & Hi).
  assert (HH : forall r l, In r l -> In i (preorder r) -> exists e ok, Occurs l e ok i).
  { clear. intros r. induction r as [id t o|b ch IH] using item_ind'; intros l Hr Hi.
    - cbn [preorder] in Hi. destruct Hi as [<- |[]]. exists [], true. constructor. exact Hr.
    - cbn [preorder] in Hi. destruct Hi as [<- |Hi]; [exists [], true; constructor; exact Hr|].
      apply in_flat_map in Hi. destruct Hi as (c & Hc & Hi).
      rewrite Forall_forall in IH. destruct (IH c Hc ch Hc Hi) as (e & ok & Ho).
      exists (b_canon b :: e), (b_attr_ok b && ok). econstructor; eassumption. }
  eauto.
Qed.

Lemma flat_map_ext_in' {A B} (f g : A -> list B) l :
  (forall x, In x l -> f x = g x) -> flat_map f l = flat_map g l.
Proof.
  induction l as [|x l IH]; intros H; [reflexivity|]. cbn [flat_map].
  rewrite (H x) by (left; reflexivity). f_equal. apply IH. intros y Hy. apply H. right. exact Hy.
Qed.

Lemma map_flat_map {A B C} (g : B -> C) (f : A -> list B) l :
  map g (flat_map f l) = flat_map (fun x => map g (f x)) l.
Proof. induction l as [|x l IH]; [reflexivity|]. cbn [flat_map]. rewrite map_app, IH. reflexivity. Qed.

Lemma flat_map_flat_map {A B C} (g : B -> list C) (f : A -> list B) l :
  flat_map g (flat_map f l) = flat_map (fun x => flat_map g (f x)) l.
Proof. induction l as [|x l IH]; [reflexivity|]. cbn [flat_map]. rewrite flat_map_app, IH. reflexivity. Qed.

Lemma ids_preorder i : map item_id (preorder i) = ids_of i.
Proof.
  induction i as [id t o|b ch IH] using item_ind'; [reflexivity|].
  cbn [preorder map item_id ids_of]. f_equal. rewrite map_flat_map.
  apply flat_map_ext_in'. rewrite Forall_forall in IH. exact IH.
Qed.

Lemma ids_preorder_l l : map item_id (flat_map preorder l) = flat_map ids_of l.
Proof. rewrite map_flat_map. apply flat_map_ext_in'. intros x _. apply ids_preorder. Qed.

Lemma nodup_map_inj {A B} (f : A -> B) l x y :
  NoDup (map f l) -> In x l -> In y l -> f x = f y -> x = y.
Proof.
  induction l as [|a l IH]; cbn [map In]; intros Hn Hx Hy E; [tauto|].
  inversion Hn; subst.
  destruct Hx as [-> |Hx], Hy as [-> |Hy]; [reflexivity| | |auto].
  - exfalso. apply H1. rewrite E. apply in_map. exact Hy.
  - exfalso. apply H1. rewrite <- E. apply in_map. exact Hx.
Qed.

Lemma nodup_app_inv {A} (l1 l2 : list A) :
  NoDup (l1 ++ l2) -> NoDup l1 /\ NoDup l2 /\ (forall x, In x l1 -> ~ In x l2).
Proof.
  induction l1 as [|a l1 IH]; cbn [app]; intros H.
  - split; [constructor|]. split; [exact H|]. intros x [].
  - inversion H; subst. destruct (IH H3) as (N1 & N2 & D). split.
    + constructor; [|exact N1]. intros Hi. apply H2. apply in_or_app. auto.
    + split; [exact N2|]. intros x [<- |Hx]; [|auto]. intros Hi. apply H2. apply in_or_app. auto.
Qed.

Lemma nodup_app_intro {A} (l1 l2 : list A) :
  NoDup l1 -> NoDup l2 -> (forall x, In x l1 -> ~ In x l2) -> NoDup (l1 ++ l2).
Proof.
  induction 1 as [|a l1 Ha H1 IH]; intros H2 D; [exact H2|]. cbn [app]. constructor.
  - intros Hi. apply in_app_or in Hi. destruct Hi as [Hi|Hi]; [auto|]. apply (D a); [left; reflexivity|exact Hi].
  - apply IH; [exact H2|]. intros x Hx. apply D. right. exact Hx.
Qed.

Lemma nodup_flat_map_incl {A B} (f g : A -> list B) l :
  (forall x, In x l -> NoDup (g x) -> NoDup (f x) /\ incl (f x) (g x)) ->
  NoDup (flat_map g l) -> NoDup (flat_map f l) /\ incl (flat_map f l) (flat_map g l).
Proof.
  induction l as [|x l IH]; intros H Hn; cbn [flat_map] in *; [split; [constructor|intros y []]|].
  apply nodup_app_inv in Hn. destruct Hn as (N1 & N2 & D).
  destruct (H x (or_introl eq_refl) N1) as [F1 I1].
  destruct IH as [F2 I2]; [intros y Hy; apply H; right; exact Hy|exact N2|].
  split.
  - apply nodup_app_intro; [exact F1|exact F2|]. intros y Hy Hy'. apply (D y); auto.
  - intros y Hy. apply in_app_or in Hy. apply in_or_app. destruct Hy; [left|right]; auto.
Qed.

Lemma nodup_flat_map_in {A B} (f : A -> list B) l x : NoDup (flat_map f l) -> In x l -> NoDup (f x).
Proof.
  induction l as [|a l IH]; cbn [flat_map In]; intros Hn Hx; [tauto|].
  apply nodup_app_inv in Hn. destruct Hx as [-> |Hx]; [tauto|]. apply IH; tauto.
Qed.

Lemma occurs_child l b ch e ok i :
  In (Ns b ch) l -> Occurs ch e ok i -> Occurs l (b_canon b :: e) (b_attr_ok b && ok) i.
Proof. intros. econstructor; eassumption. Qed.

Lemma occurs_sub l e ok b ch e' ok' i :
  Occurs l e ok (Ns b ch) -> Occurs ch e' ok' i ->
  Occurs l (e ++ b_canon b :: e') (ok && (b_attr_ok b && ok')) i.
Proof.
  intros H. remember (Ns b ch) as x. revert Heqx. induction H as [l x Hx|l b0 ch0 e ok x Hx _ IH]; intros -> Hi.
  - cbn [app andb]. apply occurs_child with (ch := ch); assumption.
  - cbn [app]. rewrite <- andb_assoc. apply occurs_child with (ch := ch0); [exact Hx|]. apply IH; auto.
Qed.

Lemma occurs_incl l l' e ok i : (forall x, In x l -> In x l') -> Occurs l e ok i -> Occurs l' e ok i.
Proof. intros H Ho. destruct Ho; [constructor; auto|econstructor; eauto]. Qed.

(** ** What the top-level items of the target satisfy *)
Record Top (cur : Z) (T : list item) : Prop := {
  top_ids : NoDup (flat_map ids_of T);
  top_target : forall e ok b ch, Occurs T e ok (Ns b ch) -> b_target b = cur;
  top_scope : forall e ok b ch e' ok' b' ch',
      Occurs T e ok (Ns b ch) -> Occurs T e' ok' (Ns b' ch') -> b_canon b = b_canon b' -> e = e';
  top_canon : forall e ok b ch e' ok' i,
      Occurs T e ok (Ns b ch) -> Occurs T e' ok' i -> item_id i = b_canon b ->
      exists b' ch', i = Ns b' ch' /\ b_canon b' = b_canon b }.

Lemma top_level_in cur t : top_level cur t = [] \/ In (cur, top_level cur t) t.
Proof.
  induction t as [|[k l] t IH]; cbn [top_level]; [left; reflexivity|].
  destruct (Z.eqb_spec k cur) as [-> |]; [right; left; reflexivity|].
  destruct IH as [->|IH]; [left; reflexivity|right; right; exact IH].
Qed.

Lemma occurs_all k l (t : ir) e ok i : In (k, l) t -> Occurs l e ok i -> In i (all_items t).
Proof.
  intros Hk Ho. unfold all_items. apply in_flat_map. exists (k, l). split; [exact Hk|].
  cbn [snd]. apply occurs_preorder in Ho. exact Ho.
Qed.

Lemma ids_all (t : ir) : map item_id (all_items t) = flat_map (fun p => flat_map ids_of (snd p)) t.
Proof.
  unfold all_items. rewrite map_flat_map. apply flat_map_ext_in'. intros p _. apply ids_preorder_l.
Qed.

Lemma top_of_wf cur t : WellFormed cur t -> Top cur (top_level cur t).
Proof.
  intros W. destruct (top_level_in cur t) as [E|Hin].
  - rewrite E. split.
    + constructor.
    + intros e ok b ch H. inversion H as [? ? Hi|? ? ? ? ? ? Hi]; destruct Hi.
    + intros e ok b ch ? ? ? ? H. inversion H as [? ? Hi|? ? ? ? ? ? Hi]; destruct Hi.
    + intros e ok b ch ? ? ? H. inversion H as [? ? Hi|? ? ? ? ? ? Hi]; destruct Hi.
  - split.
    + pose proof (nodup_flat_map_in _ _ _ (wf_ids _ _ W) Hin) as H. exact H.
    + intros e ok b ch H. exact (wf_target _ _ W _ _ _ _ _ _ Hin H).
    + intros e ok b ch e' ok' b' ch' H H' E. exact (wf_scope _ _ W _ _ _ _ _ _ _ _ _ _ _ _ Hin H Hin H' E).
    + intros e ok b ch e' ok' i H H' E.
      destruct (wf_canon _ _ W _ _ _ _ _ _ Hin H) as (k1 & l1 & e1 & ok1 & cb & ch1 & Hk1 & Ho1 & E1 & E2).
      exists cb, ch1. split; [|exact E2].
      apply (nodup_map_inj item_id (all_items t)).
      * rewrite ids_all. exact (wf_ids _ _ W).
      * apply (occurs_all _ _ _ _ _ _ Hin H').
      * apply (occurs_all _ _ _ _ _ _ Hk1 Ho1).
      * cbn [item_id]. congruence.
Qed.

(** ** Keys *)
Lemma evl_key cur po i k g :
  In (k, g) (evl cur po i) ->
  exists e ok i', Occurs [i] e ok i' /\
    (item_id i' = k \/ (exists b ch, i' = Ns b ch /\ b_canon b = k)).
Proof.
  revert po. induction i as [id t o|b ch IH] using item_ind'; intros po H.
  - cbn [evl] in H. destruct (is_foreign cur t); [destruct H|]. destruct o; [|destruct H].
    destruct H as [[= <- _]|[]]. exists [], true, (Leaf id t (Some e)). split; [constructor; left; reflexivity|].
    left. reflexivity.
  - cbn [evl] in H. destruct (is_foreign cur (Some (b_target b))); [destruct H|].
    assert (Hself : Occurs [Ns b ch] [] true (Ns b ch)) by (constructor; left; reflexivity).
    destruct (po && b_attr_ok b).
    + apply in_app_or in H. destruct H as [H|H].
      * apply in_flat_map in H. destruct H as (c & Hc & H). rewrite Forall_forall in IH.
        destruct (IH c Hc _ H) as (e & ok & i' & Ho & Hk).
        exists (b_canon b :: e), (b_attr_ok b && ok), i'. split; [|exact Hk].
        apply occurs_child with (ch := ch); [left; reflexivity|].
        apply (occurs_incl [c]); [|exact Ho]. intros x [<- |[]]. exact Hc.
      * apply in_app_or in H. destruct H as [H|H].
        -- destruct (b_id b =? b_canon b); [destruct H|]. destruct H as [[= <- _]|[]].
           exists [], true, (Ns b ch). split; [exact Hself|]. left. reflexivity.
        -- destruct H as [[= <- _]|[]]. exists [], true, (Ns b ch). split; [exact Hself|].
           right. eauto.
    + destruct H as [[= <- _]|[]]. exists [], true, (Ns b ch). split; [exact Hself|]. left. reflexivity.
Qed.

Lemma evl_key_l cur po l k :
  In k (map fst (flat_map (evl cur po) l)) ->
  exists e ok i', Occurs l e ok i' /\
    (item_id i' = k \/ (exists b ch, i' = Ns b ch /\ b_canon b = k)).
Proof.
  intros H. apply in_map_iff in H. destruct H as ([k' g] & <- & H). cbn [fst].
  apply in_flat_map in H. destruct H as (i & Hi & H).
  destruct (evl_key _ _ _ _ _ H) as (e & ok & i' & Ho & Hk).
  exists e, ok, i'. split; [|exact Hk]. apply (occurs_incl [i]); [|exact Ho].
  intros x [<- |[]]. exact Hi.
Qed.

Lemma app_cons_neq {A} (e : list A) x e' : e <> e ++ x :: e'.
Proof. intros H. apply (f_equal (@List.length A)) in H. rewrite app_length in H. cbn [List.length] in H. lia. Qed.

Lemma ids_occurs_unique T : NoDup (flat_map ids_of T) -> forall e ok b ch e' ok' i,
  Occurs T e ok (Ns b ch) -> Occurs ch e' ok' i -> item_id i <> b_id b.
Proof.
  intros Hn e ok b ch e' ok' i H Hi E.
  assert (HN : NoDup (ids_of (Ns b ch))).
  { clear Hi E. remember (Ns b ch) as x eqn:Ex. induction H as [l i0 H0|l b0 ch0 e0 ok0 i0 H0 _ IH].
    - exact (nodup_flat_map_in _ _ _ Hn H0).
    - apply IH; [|exact Ex]. apply (nodup_flat_map_in _ _ _ Hn) in H0. cbn [ids_of] in H0.
      inversion H0; assumption. }
  cbn [ids_of] in HN. inversion HN as [|? ? Hni _]; subst. apply Hni. rewrite <- E.
  rewrite <- ids_preorder_l. apply in_map. apply (occurs_preorder _ _ _ _ Hi).
Qed.

Lemma tame_occurs cur T : Top cur T -> forall i e ok, Occurs T e ok i -> Tame i.
Proof.
  intros HT i. induction i as [id t o|b ch IH] using item_ind'; intros e ok Ho; [exact Logic.I|].
  apply tame_ns. split.
  - rewrite Forall_forall in IH |- *. intros c Hc. eapply IH; [exact Hc|].
    eapply occurs_sub; [exact Ho|]. constructor. exact Hc.
  - intros cur' po. split; intros H; apply evl_key_l in H; destruct H as (e' & ok' & i' & Hi & Hk);
      pose proof (occurs_sub _ _ _ _ _ _ _ _ Ho Hi) as Hs; destruct Hk as [Hk|(b' & ch' & -> & Hk)].
    + exact (ids_occurs_unique T (top_ids _ _ HT) _ _ _ _ _ _ _ Ho Hi Hk).
    + destruct (top_canon _ _ HT _ _ _ _ _ _ _ Hs Ho) as (b2 & ch2 & [= <- <-] & E2).
      { cbn [item_id]. congruence. }
      apply (app_cons_neq e (b_canon b) e'). exact (top_scope _ _ HT _ _ _ _ _ _ _ _ Ho Hs E2).
    + destruct (top_canon _ _ HT _ _ _ _ _ _ _ Ho Hs Hk) as (b2 & ch2 & -> & E2).
      apply (app_cons_neq e (b_canon b) e'). apply (top_scope _ _ HT _ _ _ _ _ _ _ _ Ho Hs). congruence.
    + apply (app_cons_neq e (b_canon b) e'). apply (top_scope _ _ HT _ _ _ _ _ _ _ _ Ho Hs). congruence.
Qed.

(** ** Mergeable *)
Definition is_own (p : Z * gitem) : bool := match snd p with GCanonical _ _ => false | _ => true end.

Lemma okeys_app l1 l2 : map fst (filter is_own (l1 ++ l2)) =
  map fst (filter is_own l1) ++ map fst (filter is_own l2).
Proof. rewrite filter_app, map_app. reflexivity. Qed.

Lemma okeys_flat_map {A} (f : A -> list (Z * gitem)) l :
  map fst (filter is_own (flat_map f l)) = flat_map (fun x => map fst (filter is_own (f x))) l.
Proof. induction l as [|x l IH]; [reflexivity|]. cbn [flat_map]. rewrite okeys_app, IH. reflexivity. Qed.

Lemma okeys_item cur i : forall po, NoDup (ids_of i) ->
  NoDup (map fst (filter is_own (evl cur po i))) /\
  incl (map fst (filter is_own (evl cur po i))) (ids_of i).
Proof.
  induction i as [id t o|b ch IH] using item_ind'; intros po Hn; cbn [evl].
  - destruct (is_foreign cur t); [split; [constructor|intros y []]|].
    destruct o; cbn [filter map fst is_own snd]; [|split; [constructor|intros y []]].
    split; [constructor; [intros []|constructor]|intros y Hy; exact Hy].
  - destruct (is_foreign cur (Some (b_target b))); [split; [constructor|intros y []]|].
    cbn [ids_of] in Hn. inversion Hn as [|? ? Hni Hn']; subst.
    destruct (po && b_attr_ok b).
    + rewrite !okeys_app, okeys_flat_map.
      destruct (nodup_flat_map_incl (fun x => map fst (filter is_own (evl cur true x))) ids_of ch) as [N I].
      { rewrite Forall_forall in IH. intros x Hx Hnx. apply IH; assumption. }
      { exact Hn'. }
      cbn [filter is_own snd map fst]. rewrite app_nil_r.
      destruct (b_id b =? b_canon b); cbn [filter is_own snd map fst ids_of].
      * rewrite app_nil_r. split; [exact N|]. intros y Hy. right. apply I. exact Hy.
      * split.
        -- apply nodup_app_intro; [exact N|constructor; [intros []|constructor]|].
           intros x Hx [<- |[]]. apply Hni. apply I. exact Hx.
        -- intros y Hy. apply in_app_or in Hy. destruct Hy as [Hy|[<- |[]]]; [right; apply I; exact Hy|left; reflexivity].
    + cbn [filter is_own snd map fst ids_of]. split; [constructor; [intros []|constructor]|].
      intros y [<- |[]]. left. reflexivity.
Qed.

Lemma okeys_list cur po l : NoDup (flat_map ids_of l) ->
  NoDup (map fst (filter is_own (flat_map (evl cur po) l))).
Proof.
  intros H. rewrite okeys_flat_map.
  apply (nodup_flat_map_incl (fun x => map fst (filter is_own (evl cur po x))) ids_of l); [|exact H].
  intros x _ Hx. apply okeys_item. exact Hx.
Qed.

Lemma own_short k l :
  NoDup (map fst (filter is_own l)) -> Forall (fun g => ~ isCan g) (fk k l) ->
  (List.length (fk k l) <= 1)%nat.
Proof.
  induction l as [|[k' g] l IH]; intros Hn HF; [cbn; lia|].
  unfold fk in *. cbn [filter fst] in HF |- *. cbn [filter] in Hn.
  destruct (Z.eqb_spec k' k) as [-> |Hk].
  - cbn [map snd] in HF |- *. inversion HF as [|? ? Hg HF']; subst.
    assert (Ho : is_own (k, g) = true) by (destruct g; cbn [is_own snd isCan] in *; tauto).
    rewrite Ho in Hn. cbn [map fst] in Hn. inversion Hn as [|? ? Hni Hn']; subst.
    cbn [List.length].
    destruct (map snd (filter (fun p => fst p =? k) l)) as [|g2 r] eqn:E; [cbn [List.length]; lia|].
    exfalso. apply Hni.
    assert (Hi : In g2 (fk k l)) by (unfold fk; rewrite E; left; reflexivity).
    apply fk_in in Hi. apply in_map_iff. exists (k, g2). split; [reflexivity|].
    apply filter_In. split; [exact Hi|].
    inversion HF' as [|? ? Hg2 _]; subst. destruct g2; cbn [is_own snd isCan] in *; tauto.
  - apply IH; [|exact HF]. destruct (is_own (k', g)); [|exact Hn].
    cbn [map] in Hn. inversion Hn; assumption.
Qed.

Lemma mergeable_criterion l :
  NoDup (map fst (filter is_own l)) ->
  (forall k g g', In (k, g) l -> isCan g -> In (k, g') l -> isCan g') ->
  Mergeable l.
Proof.
  intros Hn H k.
  assert (D : (exists g, In (k, g) l /\ isCan g) \/ Forall (fun g => ~ isCan g) (fk k l)).
  { assert (D : forall r, (exists g, In g r /\ isCan g) \/ Forall (fun g => ~ isCan g) r).
    { induction r as [|g r IH]; [right; constructor|].
      destruct g as [e| |items d];
        [ | |left; exists (GCanonical items d); split; [left; reflexivity|exact Logic.I]];
        (destruct IH as [(g & Hg & Hc)|IH]; [left; exists g; split; [right; exact Hg|exact Hc]|]);
        right; constructor; auto. }
    destruct (D (fk k l)) as [(g & Hg & Hc)|D']; [left|right; exact D'].
    exists g. split; [apply fk_in; exact Hg|exact Hc]. }
  destruct D as [(g & Hg & Hc)|D].
  - right. apply Forall_forall. intros g' Hg'. apply fk_in in Hg'. eauto.
  - left. apply own_short; assumption.
Qed.

(** The contributions of a generated forest, one by one. *)
Lemma evl_in cur l k g :
  In (k, g) (flat_map (evl cur true) l) ->
  exists e i, Occurs l e true i /\
    match i with
    | Leaf id t o => k = id /\ ~ isCan g /\ is_foreign cur t = false /\ o <> None
    | Ns b ch =>
        (k = b_id b /\ b_attr_ok b = false /\ ~ isCan g) \/
        (k = b_id b /\ b_id b <> b_canon b /\ ~ isCan g) \/
        (k = b_canon b /\ b_attr_ok b = true /\ isCan g)
    end.
Proof.
  assert (H1 : forall i, In (k, g) (evl cur true i) ->
    exists e i', Occurs [i] e true i' /\
    match i' with
    | Leaf id t o => k = id /\ ~ isCan g /\ is_foreign cur t = false /\ o <> None
    | Ns b ch =>
        (k = b_id b /\ b_attr_ok b = false /\ ~ isCan g) \/
        (k = b_id b /\ b_id b <> b_canon b /\ ~ isCan g) \/
        (k = b_canon b /\ b_attr_ok b = true /\ isCan g)
    end).
  { induction i as [id t o|b ch IH] using item_ind'; intros H; cbn [evl] in H.
    - destruct (is_foreign cur t) eqn:Ef; [destruct H|]. destruct o; [|destruct H].
      destruct H as [[= <- <-]|[]]. exists [], (Leaf id t (Some e)). split; [constructor; left; reflexivity|].
      split; [reflexivity|]. split; [exact (fun x => x)|]. split; [exact Ef|discriminate].
    - destruct (is_foreign cur (Some (b_target b))); [destruct H|].
      assert (Hself : Occurs [Ns b ch] [] true (Ns b ch)) by (constructor; left; reflexivity).
      cbn [andb] in H. destruct (b_attr_ok b) eqn:Eo.
      + apply in_app_or in H. destruct H as [H|H].
        * apply in_flat_map in H. destruct H as (c & Hc & H). rewrite Forall_forall in IH.
          destruct (IH c Hc H) as (e & i' & Ho & Hk).
          exists (b_canon b :: e), i'. split; [|exact Hk].
          replace true with (b_attr_ok b && true) by (rewrite Eo; reflexivity).
          apply occurs_child with (ch := ch); [left; reflexivity|].
          apply (occurs_incl [c]); [|exact Ho]. intros x [<- |[]]. exact Hc.
        * apply in_app_or in H. destruct H as [H|H].
          -- destruct (Z.eqb_spec (b_id b) (b_canon b)) as [|Hne]; [destruct H|]. destruct H as [[= <- <-]|[]].
             exists [], (Ns b ch). split; [exact Hself|]. right. left. split; [reflexivity|]. split; [exact Hne|].
             exact (fun x => x).
          -- destruct H as [[= <- <-]|[]]. exists [], (Ns b ch). split; [exact Hself|].
             right. right. split; [reflexivity|]. split; [exact Eo|exact Logic.I].
      + destruct H as [[= <- <-]|[]]. exists [], (Ns b ch). split; [exact Hself|]. left.
        split; [reflexivity|]. split; [exact Eo|]. exact (fun x => x). }
  intros H. apply in_flat_map in H. destruct H as (i & Hi & H).
  destruct (H1 i H) as (e & i' & Ho & Hk). exists e, i'. split; [|exact Hk].
  apply (occurs_incl [i]); [|exact Ho]. intros x [<- |[]]. exact Hi.
Qed.

Lemma evl_false_own cur l k g : In (k, g) (flat_map (evl cur false) l) -> ~ isCan g.
Proof.
  intros H. apply in_flat_map in H. destruct H as (i & _ & H).
  destruct i as [id t o|b ch]; cbn [evl] in H.
  - destruct (is_foreign cur t); [destruct H|]. destruct o; [|destruct H].
    destruct H as [[= _ <-]|[]]. exact (fun x => x).
  - destruct (is_foreign cur (Some (b_target b))); [destruct H|]. cbn [andb] in H.
    destruct H as [[= _ <-]|[]]. exact (fun x => x).
Qed.

(** The part of [Regular] about canonical blocks, for the top-level items. *)
Definition CanonOk (T : list item) : Prop :=
  forall e b ch e' b' ch',
    Occurs T e true (Ns b ch) -> b_attr_ok b = true ->
    Occurs T e' true (Ns b' ch') -> b_id b' = b_canon b -> b_attr_ok b' = true.

Lemma mergeable_top cur T : Top cur T -> CanonOk T -> Mergeable (flat_map (evl cur true) T).
Proof.
  intros HT HC. apply mergeable_criterion; [apply okeys_list, (top_ids _ _ HT)|].
  intros k g g' H Hg H'.
  apply evl_in in H. destruct H as (e & i & Ho & Hk). apply evl_in in H'. destruct H' as (e' & i' & Ho' & Hk').
  destruct i as [id t o|b ch]; [tauto|].
  destruct Hk as [Hk|[Hk|(-> & Hok & _)]]; [tauto|tauto|].
  destruct i' as [id t o|b' ch'].
  - destruct Hk' as [Hk' _]. exfalso.
    destruct (top_canon _ _ HT _ _ _ _ _ _ _ Ho Ho') as (b2 & ch2 & [=] & _). symmetry. exact Hk'.
  - destruct Hk' as [(Hk' & Hf & _)|[(Hk' & Hne & _)|(_ & _ & Hc)]]; [| |exact Hc].
    + exfalso. rewrite (HC _ _ _ _ _ _ Ho Hok Ho') in Hf; [discriminate|]. symmetry. exact Hk'.
    + exfalso. destruct (top_canon _ _ HT _ _ _ _ _ _ _ Ho Ho') as (b2 & ch2 & [= <- <-] & E2).
      { symmetry. exact Hk'. }
      congruence.
Qed.

Lemma mergeable_sub cur l i : In i l -> Mergeable (flat_map (evl cur true) l) -> Mergeable (evl cur true i).
Proof.
  intros Hi. apply in_split in Hi. destruct Hi as (l1 & l2 & ->). rewrite flat_map_app. cbn [flat_map].
  intros H. apply mergeable_app in H. destruct H as [_ H]. apply mergeable_app in H. tauto.
Qed.

Lemma submergeable_false cur i : NoDup (ids_of i) -> SubMergeable cur false i.
Proof.
  induction i as [id t o|b ch IH] using item_ind'; intros Hn; [exact Logic.I|].
  cbn [ids_of] in Hn. inversion Hn as [|? ? _ Hn']; subst.
  apply submergeable_ns. cbn [andb]. split.
  - rewrite Forall_forall in IH |- *. intros c Hc. apply IH; [exact Hc|].
    exact (nodup_flat_map_in _ _ _ Hn' Hc).
  - apply mergeable_criterion; [apply okeys_list; exact Hn'|].
    intros k g g' H Hg _. exfalso. exact (evl_false_own _ _ _ _ H Hg).
Qed.

Lemma submergeable_true cur i :
  NoDup (ids_of i) -> (forall e ok b ch, Occurs [i] e ok (Ns b ch) -> b_target b = cur) ->
  Mergeable (evl cur true i) -> SubMergeable cur true i.
Proof.
  induction i as [id t o|b ch IH] using item_ind'; intros Hn Ht HM; [exact Logic.I|].
  cbn [ids_of] in Hn. inversion Hn as [|? ? _ Hn']; subst.
  apply submergeable_ns. cbn [andb]. destruct (b_attr_ok b) eqn:Eo.
  - assert (HM' : Mergeable (flat_map (evl cur true) ch)).
    { rewrite evl_eq in HM. cbn [andb] in HM. rewrite Eo in HM.
      unfold is_foreign in HM. rewrite (Ht [] true b ch), Z.eqb_refl in HM by (constructor; left; reflexivity).
      cbn [negb] in HM. apply mergeable_app in HM. tauto. }
    split; [|exact HM'].
    rewrite Forall_forall in IH |- *. intros c Hc. apply IH; [exact Hc| | |].
    + exact (nodup_flat_map_in _ _ _ Hn' Hc).
    + intros e ok b' ch' Ho. eapply Ht. apply occurs_child with (ch := ch); [left; reflexivity|].
      apply (occurs_incl [c]); [|exact Ho]. intros x [<- |[]]. exact Hc.
    + exact (mergeable_sub _ _ _ Hc HM').
  - split.
    + rewrite Forall_forall. intros c Hc. apply submergeable_false. exact (nodup_flat_map_in _ _ _ Hn' Hc).
    + apply mergeable_criterion; [apply okeys_list; exact Hn'|].
      intros k g g' H Hg _. exfalso. exact (evl_false_own _ _ _ _ H Hg).
Qed.

(** The whole generation succeeds. *)
Lemma generate_top cur T : Top cur T -> CanonOk T ->
  exists m, generate_items cur true T [] = Ok m /\ Rep m (flat_map (evl cur true) T).
Proof.
  intros HT HC. pose proof (mergeable_top cur T HT HC) as HM.
  destruct (rep_generate_items cur true T) with (m0 := @nil (Z * gitem)) (l0 := @nil (Z * gitem)) as (m & E & R).
  - apply Forall_forall. intros i Hi. apply rep_generate_item.
    + apply (tame_occurs cur T HT i [] true). constructor. exact Hi.
    + apply submergeable_true.
      * exact (nodup_flat_map_in _ _ _ (top_ids _ _ HT) Hi).
      * intros e ok b ch Ho. apply (top_target _ _ HT e ok b ch). apply (occurs_incl [i]); [|exact Ho].
        intros x [<- |[]]. exact Hi.
      * exact (mergeable_sub _ _ _ Hi HM).
  - apply rep_nil.
  - exact HM.
  - exists m. split; [exact E|exact R].
Qed.
