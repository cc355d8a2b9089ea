(** Printing: the blocks of a namespace, their numbers, and the modules. *)
From Coq Require Import ZArith List Bool String Lia Permutation.
From Verif.NsEmit Require Import Model Spec Proofs Proofs2.
Import ListNotations.
Local Open Scope Z_scope.
Local Open Scope list_scope.

(** The children of the bindable blocks of [c] in a list of items. *)
Definition sel (c : Z) (i : item) : list item :=
  match i with
  | Ns b ch => if b_attr_ok b && (b_canon b =? c) then ch else []
  | Leaf _ _ _ => []
  end.
Definition members (c : Z) (F : list item) : list item := flat_map (sel c) F.
Fixpoint M (q : list Z) (F : list item) : list item :=
  match q with [] => F | c :: q' => M q' (members c F) end.

Lemma M_snoc q c F : M (q ++ [c]) F = members c (M q F).
Proof. revert F. induction q as [|x q IH]; intros F; [reflexivity|]. cbn [app M]. apply IH. Qed.

Lemma in_members c F i : In i (members c F) <->
  exists b ch, In (Ns b ch) F /\ b_attr_ok b = true /\ b_canon b = c /\ In i ch.
Proof.
  unfold members. rewrite in_flat_map. split.
  - intros ([id t o|b ch] & Hi & H); cbn [sel] in H; [destruct H|].
    destruct (b_attr_ok b) eqn:Eo; cbn [andb] in H; [|destruct H].
    destruct (Z.eqb_spec (b_canon b) c); [|destruct H]. eauto 6.
  - intros (b & ch & Hi & Eo & Ec & H). exists (Ns b ch). split; [exact Hi|]. cbn [sel].
    rewrite Eo, Ec, Z.eqb_refl. exact H.
Qed.

Lemma occurs_members c F e ok i : Occurs (members c F) e ok i -> Occurs F (c :: e) ok i.
Proof.
  intros H. inversion H as [l x Hi|l b ch e' ok' x Hi Ho]; subst.
  - apply in_members in Hi. destruct Hi as (b & ch & Hb & Eo & Ec & Hi).
    replace true with (b_attr_ok b && true) by (rewrite Eo; reflexivity). rewrite <- Ec.
    apply occurs_child with (ch := ch); [exact Hb|]. constructor. exact Hi.
  - apply in_members in Hi. destruct Hi as (b0 & ch0 & Hb & Eo & Ec & Hi).
    change (b_attr_ok b && ok') with (true && (b_attr_ok b && ok')). rewrite <- Eo, <- Ec.
    apply occurs_child with (ch := ch0); [exact Hb|].
    apply occurs_child with (ch := ch); assumption.
Qed.

Lemma in_M q : forall F i, In i (M q F) <-> Occurs F q true i.
Proof.
  induction q as [|c q IH]; intros F i; cbn [M].
  - split; [apply Occ_here|]. intros H. inversion H; subst; assumption.
  - rewrite IH. split; [apply occurs_members|].
    intros H. inversion H as [|l b ch e ok x Hi Ho]; subst.
    match goal with E : _ && _ = true |- _ => apply andb_true_iff in E; destruct E as [Eo ->] end.
    try (rewrite Eo; cbn [andb]).
    apply (occurs_incl ch); [|exact Ho]. intros x Hx. apply in_members. eauto 6.
Qed.

(** ** The blocks of one namespace are side by side *)
Section Path.
Context {X : Type}.
Variable cur c : Z.
Variable f : item -> list X.
Variable own : block -> list item -> list X.
Hypothesis f_leaf : forall id t o, f (Leaf id t o) = [].
Hypothesis f_bad : forall b ch, b_target b = cur -> b_attr_ok b = false -> f (Ns b ch) = [].
Hypothesis f_other : forall b ch, b_target b = cur -> b_attr_ok b = true -> b_canon b <> c ->
  f (Ns b ch) = flat_map f ch.
Hypothesis f_own : forall b ch, b_target b = cur -> b_attr_ok b = true -> b_canon b = c ->
  flat_map f ch = [] -> f (Ns b ch) = own b ch.

Lemma f_none i :
  (forall e ok b ch, Occurs [i] e ok (Ns b ch) -> b_target b = cur /\ b_canon b <> c) -> f i = [].
Proof.
  induction i as [id t o|b ch IH] using item_ind'; intros H; [apply f_leaf|].
  destruct (H [] true b ch) as [Ht Hc]; [constructor; left; reflexivity|].
  destruct (b_attr_ok b) eqn:Eo; [|apply f_bad; assumption].
  rewrite f_other by assumption.
  assert (HH : flat_map f ch = flat_map (fun _ => []) ch).
  { apply flat_map_ext_in'. rewrite Forall_forall in IH. intros x Hx. apply IH; [exact Hx|].
    intros e ok b' ch' Ho. eapply H. apply occurs_child with (ch := ch); [left; reflexivity|].
    apply (occurs_incl [x]); [|exact Ho]. intros y [<- |[]]. exact Hx. }
  rewrite HH. clear. induction ch; [reflexivity|exact IHch].
Qed.

Lemma f_none_l F :
  (forall e ok b ch, Occurs F e ok (Ns b ch) -> b_target b = cur /\ b_canon b <> c) ->
  flat_map f F = [].
Proof.
  induction F as [|i F IH]; intros H; [reflexivity|]. cbn [flat_map]. rewrite f_none, IH; [reflexivity| |].
  - intros e ok b ch Ho. apply (H e ok b ch). apply (occurs_incl F); [|exact Ho]. intros x Hx; right; exact Hx.
  - intros e ok b ch Ho. apply (H e ok b ch). apply (occurs_incl [i]); [|exact Ho].
    intros x [<- |[]]; left; reflexivity.
Qed.

Definition ownsel (i : item) : list X :=
  match i with
  | Ns b ch => if b_attr_ok b && (b_canon b =? c) then own b ch else []
  | Leaf _ _ _ => []
  end.

Lemma path_lemma q : forall F,
  (forall e ok b ch, Occurs F e ok (Ns b ch) -> b_target b = cur) ->
  (forall e ok b ch, Occurs F e ok (Ns b ch) -> b_canon b = c -> e = q) ->
  flat_map f F = flat_map ownsel (M q F).
Proof.
  induction q as [|c1 q IH]; intros F Ht Hs; cbn [M].
  - apply flat_map_ext_in'. intros [id t o|b ch] Hi; [apply f_leaf|]. cbn [ownsel].
    assert (Htb : b_target b = cur) by (apply (Ht [] true b ch); constructor; exact Hi).
    destruct (b_attr_ok b) eqn:Eo; cbn [andb]; [|apply f_bad; assumption].
    assert (Hn : flat_map f ch = []).
    { apply f_none_l. intros e ok b' ch' Ho.
      pose proof (occurs_child F b ch e ok _ Hi Ho) as Ho'.
      split; [exact (Ht _ _ _ _ Ho')|]. intros E. discriminate (Hs _ _ _ _ Ho' E). }
    destruct (Z.eqb_spec (b_canon b) c) as [E|E].
    + apply f_own; assumption.
    + rewrite f_other by assumption. exact Hn.
  - rewrite <- (IH (members c1 F)).
    + unfold members. rewrite flat_map_flat_map. apply flat_map_ext_in'.
      intros [id t o|b ch] Hi; [apply f_leaf|]. cbn [sel].
      assert (Hb : Occurs F [] true (Ns b ch)) by (constructor; exact Hi).
      pose proof (Ht _ _ _ _ Hb) as Htb.
      destruct (b_attr_ok b) eqn:Eo; cbn [andb]; [|apply f_bad; assumption].
      rewrite f_other; [|assumption|assumption|].
      * destruct (Z.eqb_spec (b_canon b) c1) as [E|E]; [reflexivity|]. cbn [flat_map].
        apply f_none_l. intros e ok b' ch' Ho.
        pose proof (occurs_child F b ch e ok _ Hi Ho) as Ho'.
        split; [exact (Ht _ _ _ _ Ho')|]. intros E'. pose proof (Hs _ _ _ _ Ho' E') as E2.
        injection E2 as E2 _. congruence.
      * intros E. discriminate (Hs _ _ _ _ Hb E).
    + intros e ok b ch Ho. exact (Ht _ _ _ _ (occurs_members _ _ _ _ _ Ho)).
    + intros e ok b ch Ho E. pose proof (Hs _ _ _ _ (occurs_members _ _ _ _ _ Ho) E) as E2.
      injection E2 as ->. reflexivity.
Qed.
End Path.

(** ** The entry of a namespace *)
Definition is_can (g : gitem) : bool := match g with GCanonical _ _ => true | _ => false end.

Definition cev (cur c : Z) (i : item) : list gitem := filter is_can (fk c (evl cur true i)).

Lemma cev_flat cur c l : filter is_can (fk c (flat_map (evl cur true) l)) = flat_map (cev cur c) l.
Proof.
  induction l as [|i l IH]; [reflexivity|]. cbn [flat_map]. rewrite fk_app, filter_app, IH. reflexivity.
Qed.

Lemma evl_leaf_not_can cur id t o c : filter is_can (fk c (evl cur true (Leaf id t o))) = [].
Proof.
  cbn [evl]. destruct (is_foreign cur t); [reflexivity|]. destruct o; [|reflexivity].
  unfold fk. cbn [filter fst]. destruct (id =? c); reflexivity.
Qed.

Lemma cev_path cur c q F :
  (forall e ok b ch, Occurs F e ok (Ns b ch) -> b_target b = cur) ->
  (forall e ok b ch, Occurs F e ok (Ns b ch) -> b_canon b = c -> e = q) ->
  filter is_can (fk c (flat_map (evl cur true) F)) =
  flat_map (ownsel c (fun b ch => [GCanonical (map item_id ch) (b_depr b)])) (M q F).
Proof.
  intros Ht Hs. rewrite cev_flat. apply path_lemma with (cur := cur); [| | | |exact Ht|exact Hs].
  - intros. apply evl_leaf_not_can.
  - intros b ch Hb Eo. unfold cev. rewrite evl_eq. unfold is_foreign. rewrite Hb, Z.eqb_refl, Eo.
    cbn [negb andb]. unfold fk. cbn [filter fst]. destruct (b_id b =? c); reflexivity.
  - intros b ch Hb Eo Hc. unfold cev. rewrite evl_eq. unfold is_foreign. rewrite Hb, Z.eqb_refl, Eo.
    cbn [negb andb]. rewrite !fk_app, !filter_app, cev_flat.
    assert (E1 : filter is_can (fk c (if b_id b =? b_canon b then [] else [(b_id b, GNonCanonical)])) = []).
    { destruct (b_id b =? b_canon b); [reflexivity|]. unfold fk. cbn [filter fst]. destruct (b_id b =? c); reflexivity. }
    assert (E2 : fk c [(b_canon b, GCanonical (map item_id ch) (b_depr b))] = []).
    { unfold fk. cbn [filter fst]. destruct (Z.eqb_spec (b_canon b) c); [congruence|reflexivity]. }
    rewrite E1, E2, app_nil_r. reflexivity.
  - intros b ch Hb Eo Hc Hn. unfold cev. rewrite evl_eq. unfold is_foreign. rewrite Hb, Z.eqb_refl, Eo.
    cbn [negb andb]. rewrite !fk_app, !filter_app, cev_flat. unfold cev in *. rewrite Hn. cbn [app].
    assert (E1 : filter is_can (fk c (if b_id b =? b_canon b then [] else [(b_id b, GNonCanonical)])) = []).
    { destruct (b_id b =? b_canon b); [reflexivity|]. unfold fk. cbn [filter fst]. destruct (b_id b =? c); reflexivity. }
    rewrite E1. unfold fk. cbn [filter fst]. rewrite Hc, Z.eqb_refl. reflexivity.
Qed.

Inductive MergeNotes : list (option string) -> option string -> Prop :=
| MN_one d : MergeNotes [d] d
| MN_app l1 d1 l2 d2 : MergeNotes l1 d1 -> MergeNotes l2 d2 ->
    MergeNotes (l1 ++ l2) (merge_deprecated d1 d2).

Lemma comb_items l g : Comb l g -> Forall isCan l ->
  exists d, g = GCanonical (flat_map (fun g => match g with GCanonical it _ => it | _ => [] end) l) d /\
            MergeNotes (map (fun g => match g with GCanonical _ d => d | _ => None end) l) d.
Proof.
  induction 1 as [g|l1 g1 l2 g2 g H1 IH1 H2 IH2 Hm]; intros HF.
  - inversion HF as [|? ? Hg _]; subst. destruct g; cbn [isCan] in Hg; try tauto.
    exists depr. cbn [flat_map map]. rewrite app_nil_r. split; [reflexivity|constructor].
  - apply Forall_app in HF. destruct HF as [F1 F2].
    destruct (IH1 F1) as (d1 & E1 & M1). destruct (IH2 F2) as (d2 & E2 & M2).
    rewrite E1, E2 in Hm. cbn [merge] in Hm. injection Hm as <-.
    exists (merge_deprecated d1 d2). rewrite flat_map_app, map_app. split; [reflexivity|].
    constructor; assumption.
Qed.

(** ** Numbers *)
Definition cur_blocks (cur c : Z) (l : list item) : list Z :=
  flat_map (fun i => match i with
                     | Ns b _ => if (b_target b =? cur) && (b_canon b =? c) then [b_id b] else []
                     | Leaf _ _ _ => []
                     end) l.

Definition ids_cur (cur : Z) (l : list item) : list Z :=
  flat_map (fun i => match i with
                     | Ns b _ => if b_target b =? cur then [b_id b] else []
                     | Leaf _ _ _ => []
                     end) l.

Lemma number_fold cur l : forall s,
  let r := fold_left (number_one cur) l s in
  (forall c, lookup_nat c (fst r) =
     match cur_blocks cur c l with
     | [] => lookup_nat c (fst s)
     | _ => Some (match lookup_nat c (fst s) with Some n => n | None => 0%nat end
                  + List.length (cur_blocks cur c l))%nat
     end) /\
  (forall id, ~ In id (ids_cur cur l) -> lookup_nat id (snd r) = lookup_nat id (snd s)) /\
  (NoDup (map item_id l) -> forall c p id p', cur_blocks cur c l = p ++ id :: p' ->
     lookup_nat id (snd r) =
     Some (match lookup_nat c (fst s) with Some n => n | None => 0%nat end + List.length p)%nat).
Proof.
  induction l as [|i l IH]; intros s; cbn [fold_left].
  - split; [intros c; reflexivity|]. split; [intros; reflexivity|].
    intros _ c p id p' E. destruct p; discriminate E.
  - destruct (IH (number_one cur s i)) as (H1 & H2 & H3). clear IH.
    destruct i as [id t o|b ch].
    { cbn [number_one] in *. split; [exact H1|]. split; [exact H2|].
      intros Hn. apply H3. cbn [map] in Hn. inversion Hn; assumption. }
    cbn [number_one] in *.
    destruct (Z.eqb_spec (b_target b) cur) as [Et|Et].
    2:{ assert (Ec : forall c, cur_blocks cur c (Ns b ch :: l) = cur_blocks cur c l).
        { intros c. unfold cur_blocks. cbn [flat_map]. destruct (Z.eqb_spec (b_target b) cur); [congruence|reflexivity]. }
        assert (Ei : ids_cur cur (Ns b ch :: l) = ids_cur cur l).
        { unfold ids_cur. cbn [flat_map]. destruct (Z.eqb_spec (b_target b) cur); [congruence|reflexivity]. }
        split; [intros c; rewrite Ec; apply H1|]. split; [intros id; rewrite Ei; apply H2|].
        intros Hn c p id p' E. rewrite Ec in E. apply (H3 ltac:(cbn [map] in Hn; inversion Hn; assumption) c p id p' E). }
    set (n := match lookup_nat (b_canon b) (fst s) with Some n => n | None => 0%nat end) in *.
    assert (Ec : forall c, cur_blocks cur c (Ns b ch :: l) =
               (if b_canon b =? c then [b_id b] else []) ++ cur_blocks cur c l).
    { intros c. unfold cur_blocks at 1. cbn [flat_map]. rewrite Et, Z.eqb_refl. reflexivity. }
    assert (Ei : ids_cur cur (Ns b ch :: l) = b_id b :: ids_cur cur l).
    { unfold ids_cur. cbn [flat_map]. rewrite Et, Z.eqb_refl. reflexivity. }
    cbn [fst snd] in H1, H2, H3.
    split; [|split].
    + intros c. rewrite Ec, H1. cbn [lookup_nat].
      destruct (Z.eqb_spec (b_canon b) c) as [E|E]; [|reflexivity].
      cbn [app]. subst c. fold n. destruct (cur_blocks cur (b_canon b) l); cbn [List.length]; f_equal; lia.
    + intros id Hni. rewrite Ei in Hni. cbn [In] in Hni. rewrite H2 by tauto. cbn [lookup_nat].
      destruct (Z.eqb_spec (b_id b) id); [tauto|reflexivity].
    + intros Hn c p id p' E. cbn [map item_id] in Hn. apply NoDup_cons_iff in Hn. destruct Hn as [Hni Hn'].
      rewrite Ec in E. specialize (H3 Hn' c).
      destruct (Z.eqb_spec (b_canon b) c) as [Eq|Eq]; cbn [app] in E.
      * destruct p as [|x p]; cbn [app] in E.
        -- injection E as <- _. rewrite H2.
           ++ cbn [lookup_nat]. rewrite Z.eqb_refl. subst c. fold n. cbn [List.length]. f_equal. lia.
           ++ intros Hi. apply Hni. clear - Hi. unfold ids_cur in Hi. apply in_flat_map in Hi.
              destruct Hi as ([|b' ch'] & Hb & Hi); [destruct Hi|].
              destruct (b_target b' =? cur); [|destruct Hi]. destruct Hi as [<- |[]].
              apply (in_map item_id) in Hb. exact Hb.
        -- injection E as <- E. rewrite (H3 p id p' E). cbn [lookup_nat].
           rewrite Eq, Z.eqb_refl. subst c. fold n. cbn [List.length]. f_equal. lia.
      * rewrite (H3 p id p' E). cbn [lookup_nat]. destruct (Z.eqb_spec (b_canon b) c); [congruence|reflexivity].
Qed.

Lemma number_last cur (t : ir) c pre last :
  NoDup (map item_id (all_items t)) -> cur_blocks cur c (all_items t) = pre ++ [last] ->
  forall id, In id (pre ++ [last]) ->
  is_last_reopened (number cur t) id c = Some (id =? last).
Proof.
  intros Hn E id Hi. unfold is_last_reopened, number.
  destruct (number_fold cur (all_items t) ([], [])) as (H1 & _ & H3).
  set (r := fold_left (number_one cur) (all_items t) ([], [])) in *. cbn [fst snd lookup_nat] in H1, H3.
  assert (En : lookup_nat c (fst r) = Some (List.length pre + 1)%nat).
  { rewrite H1, E. destruct (pre ++ [last]) eqn:E0; [destruct pre; discriminate|].
    rewrite <- E0, app_length. reflexivity. }
  apply in_split in Hi. destruct Hi as (p & p' & Ep).
  rewrite (H3 Hn c p id p'), En by congruence. cbn [Nat.add]. f_equal.
  assert (HN : NoDup (pre ++ [last])).
  { rewrite <- E. assert (NoDup (map item_id (all_items t)) -> NoDup (cur_blocks cur c (all_items t))) as HX; [|auto].
    clear. generalize (all_items t) as l. intros l Hn.
    assert (HH : forall l, NoDup (map item_id l) -> NoDup (cur_blocks cur c l) /\ incl (cur_blocks cur c l) (map item_id l)).
    { clear. induction l as [|i l IH]; intros Hn; [split; [constructor|intros x []]|].
      cbn [map] in Hn. inversion Hn as [|? ? Hni Hn']; subst. destruct (IH Hn') as [N I].
      unfold cur_blocks. cbn [flat_map]. fold (cur_blocks cur c l).
      destruct i as [id t o|b ch]; cbn [app].
      - split; [exact N|]. intros x Hx. right. apply I. exact Hx.
      - destruct ((b_target b =? cur) && (b_canon b =? c)); cbn [app].
        + split; [constructor; [|exact N]; intros Hi; apply Hni; apply I; exact Hi|].
          intros x [<- |Hx]; [left; reflexivity|right; apply I; exact Hx].
        + split; [exact N|]. intros x Hx. right. apply I. exact Hx. }
    exact (proj1 (HH l Hn)). }
  destruct p' as [|y p'].
  - apply app_inj_tail in Ep. destruct Ep as [-> <-]. rewrite Z.eqb_refl.
    apply Nat.eqb_eq. lia.
  - assert (id <> last).
    { destruct (@exists_last Z (y :: p')) as (r0 & x & Er); [discriminate|]. rewrite Er in Ep.
      rewrite app_comm_cons, app_assoc in Ep. apply app_inj_tail in Ep. destruct Ep as [-> <-].
      apply nodup_app_inv in HN. destruct HN as (_ & _ & D). intros ->. apply (D last); [|left; reflexivity].
      apply in_or_app. right. left. reflexivity. }
    destruct (Z.eqb_spec id last); [congruence|]. apply Nat.eqb_neq.
    apply (f_equal (@List.length Z)) in Ep. rewrite !app_length in Ep. cbn [List.length] in Ep. lia.
Qed.

(** The blocks of the target are those of its own top-level items. *)
Lemma cur_blocks_preorder cur c i :
  (forall e ok b ch, Occurs [i] e ok (Ns b ch) -> b_target b = cur) ->
  cur_blocks cur c (preorder i) = blocks_of c i.
Proof.
  induction i as [id t o|b ch IH] using item_ind'; intros Ht; [reflexivity|].
  cbn [preorder blocks_of]. unfold cur_blocks. cbn [flat_map]. fold (cur_blocks cur c).
  rewrite (Ht [] true b ch), Z.eqb_refl by (constructor; left; reflexivity). cbn [andb]. f_equal.
  rewrite flat_map_flat_map. apply flat_map_ext_in'. intros x Hx. rewrite Forall_forall in IH.
  apply (IH x Hx). intros e ok b' ch' Ho. eapply Ht. apply occurs_child with (ch := ch); [left; reflexivity|].
  apply (occurs_incl [x]); [|exact Ho]. intros y [<- |[]]. exact Hx.
Qed.

Lemma cur_blocks_app cur c l1 l2 : cur_blocks cur c (l1 ++ l2) = cur_blocks cur c l1 ++ cur_blocks cur c l2.
Proof. unfold cur_blocks. apply flat_map_app. Qed.

Lemma cur_blocks_forest cur c l :
  (forall e ok b ch, Occurs l e ok (Ns b ch) -> b_target b = cur) ->
  cur_blocks cur c (flat_map preorder l) = flat_map (blocks_of c) l.
Proof.
  intros Ht. unfold cur_blocks at 1. rewrite flat_map_flat_map. apply flat_map_ext_in'.
  intros x Hx. apply cur_blocks_preorder. intros e ok b ch Ho. eapply Ht.
  apply (occurs_incl [x]); [|exact Ho]. intros y [<- |[]]. exact Hx.
Qed.

Lemma cur_blocks_foreign cur c l k :
  k <> cur -> (forall e ok b ch, Occurs l e ok (Ns b ch) -> b_target b = k) ->
  cur_blocks cur c (flat_map preorder l) = [].
Proof.
  intros Hk Ht. unfold cur_blocks.
  assert (HH : forall L, (forall i, In i L -> In i (flat_map preorder l)) ->
     flat_map (fun i => match i with
                     | Ns b _ => if (b_target b =? cur) && (b_canon b =? c) then [b_id b] else []
                     | Leaf _ _ _ => [] end) L = []).
  { induction L as [|i L IH]; intros HL; [reflexivity|]. cbn [flat_map]. rewrite IH by (intros; apply HL; right; assumption).
    rewrite app_nil_r. destruct i as [id t o|b ch]; [reflexivity|].
    destruct (preorder_occurs l (Ns b ch)) as (e & ok & Ho); [apply HL; left; reflexivity|].
    rewrite (Ht _ _ _ _ Ho). destruct (Z.eqb_spec k cur); [congruence|reflexivity]. }
  apply HH. auto.
Qed.

Lemma cur_blocks_all cur (t : ir) c : WellFormed cur t ->
  cur_blocks cur c (all_items t) = flat_map (blocks_of c) (top_level cur t).
Proof.
  intros W. pose proof (wf_targets _ _ W) as Hn. pose proof (wf_target _ _ W) as Ht. clear W.
  induction t as [|[k l] t IH]; [reflexivity|].
  unfold all_items. cbn [flat_map snd top_level]. fold (all_items t). rewrite cur_blocks_app.
  cbn [map fst] in Hn. inversion Hn as [|? ? Hni Hn']; subst.
  assert (Htl : forall e ok b ch, Occurs l e ok (Ns b ch) -> b_target b = k).
  { intros e ok b ch Ho. apply (Ht k l e ok b ch); [left; reflexivity|exact Ho]. }
  assert (Htt : forall k0 l0 e ok b ch, In (k0, l0) t -> Occurs l0 e ok (Ns b ch) -> b_target b = k0).
  { intros k0 l0 e ok b ch Hi Ho. apply (Ht k0 l0 e ok b ch); [right; exact Hi|exact Ho]. }
  destruct (Z.eqb_spec k cur) as [-> |Hk].
  - rewrite cur_blocks_forest by exact Htl.
    assert (E : cur_blocks cur c (all_items t) = []).
    { clear IH. revert Hni Htt. clear. induction t as [|[k l] t IH]; intros Hni Htt; [reflexivity|].
      unfold all_items. cbn [flat_map snd]. fold (all_items t). rewrite cur_blocks_app, IH.
      - rewrite app_nil_r. apply (cur_blocks_foreign cur c l k).
        + intros ->. apply Hni. left. reflexivity.
        + intros e ok b ch Ho. apply (Htt k l e ok b ch); [left; reflexivity|exact Ho].
      - intros Hi. apply Hni. right. exact Hi.
      - intros k0 l0 e ok b ch Hi Ho. apply (Htt k0 l0 e ok b ch); [right; exact Hi|exact Ho]. }
    rewrite E, app_nil_r. reflexivity.
  - rewrite (cur_blocks_foreign cur c l k Hk Htl). cbn [app]. apply IH; [exact Hn'|exact Htt].
Qed.
