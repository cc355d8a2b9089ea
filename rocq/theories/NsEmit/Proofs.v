(** The map of generated items: what [append] and [generate_item] record. *)
From Coq Require Import ZArith List Bool String Lia Permutation.
From Verif.NsEmit Require Import Model.
Import ListNotations.
Local Open Scope Z_scope.
Local Open Scope list_scope.

Lemma item_ind' (P : item -> Prop) :
  (forall id t o, P (Leaf id t o)) ->
  (forall b ch, Forall P ch -> P (Ns b ch)) -> forall i, P i.
Proof.
  intros H1 H2. fix IH 1. intros [id t o|b ch]; [apply H1|].
  apply H2. induction ch; constructor; auto.
Qed.

(** ** Maps *)
Lemma lookup_insert k k' g m :
  lookup k' (insert k g m) = if k =? k' then Some g else lookup k' m.
Proof.
  induction m as [|[k0 g0] m IH]; cbn [insert lookup]; [reflexivity|].
  destruct (Z.eqb_spec k0 k) as [-> |Hn]; cbn [lookup].
  - destruct (k =? k'); reflexivity.
  - rewrite IH. destruct (Z.eqb_spec k0 k') as [-> |]; destruct (Z.eqb_spec k k'); congruence.
Qed.

Lemma keys_insert k g m x : In x (map fst (insert k g m)) <-> x = k \/ In x (map fst m).
Proof.
  induction m as [|[k0 g0] m IH]; cbn [insert map fst In]; [intuition congruence|].
  destruct (Z.eqb_spec k0 k) as [-> |Hn]; cbn [map fst In]; [|rewrite IH]; intuition congruence.
Qed.

Lemma nodup_insert k g m : NoDup (map fst m) -> NoDup (map fst (insert k g m)).
Proof.
  induction m as [|[k0 g0] m IH]; cbn [insert map fst]; intros H.
  - constructor; [intros []|constructor].
  - inversion H; subst. destruct (Z.eqb_spec k0 k) as [-> |Hn]; cbn [map fst].
    + constructor; assumption.
    + constructor; [|auto]. rewrite keys_insert. intuition congruence.
Qed.

Lemma lookup_in k m : lookup k m <> None <-> In k (map fst m).
Proof.
  induction m as [|[k0 g0] m IH]; cbn [lookup map fst In]; [intuition congruence|].
  destruct (Z.eqb_spec k0 k) as [-> |Hn]; [intuition congruence|].
  rewrite IH. intuition congruence.
Qed.

Lemma lookup_nodup k g m : NoDup (map fst m) -> In (k, g) m <-> lookup k m = Some g.
Proof.
  induction m as [|[k0 g0] m IH]; cbn [lookup map fst In]; intros H.
  - intuition congruence.
  - inversion H; subst. destruct (Z.eqb_spec k0 k) as [-> |Hn].
    + split; [|intros [= ->]; auto]. intros [[= ->]|Hi]; [reflexivity|].
      exfalso. apply H2. apply (in_map fst) in Hi. exact Hi.
    + rewrite <- (IH H3). intuition congruence.
Qed.

(** ** append *)
Definition merged (a b : option gitem) : option gitem :=
  match a, b with
  | Some x, Some y => match merge x y with Ok g => Some g | _ => None end
  | Some x, None => Some x
  | None, y => y
  end.

Definition compatible (m o : snippets) : Prop :=
  forall k g1 g2, lookup k m = Some g1 -> lookup k o = Some g2 -> exists g, merge g1 g2 = Ok g.

Lemma merge_cases g1 g2 : (exists g, merge g1 g2 = Ok g) \/ merge g1 g2 = Panic.
Proof.
  destruct g1 as [[| |]| |], g2 as [[| |]| |]; cbn [merge]; eauto;
    match goal with |- context [?a =? ?b] => destruct (a =? b); eauto end.
Qed.

Lemma append_ok o : forall m,
  NoDup (map fst o) -> compatible m o ->
  exists m', append m o = Ok m' /\
    (forall k, lookup k m' = merged (lookup k m) (lookup k o)) /\
    (NoDup (map fst m) -> NoDup (map fst m')).
Proof.
  induction o as [|[k g] o IH]; intros m Hn Hc; cbn [append].
  - exists m. split; [reflexivity|]. split; [|auto].
    intros k. cbn [lookup]. destruct (lookup k m); reflexivity.
  - cbn [map fst] in Hn. inversion Hn as [|? ? Hk Ho]; subst.
    assert (Hlk : lookup k o = None).
    { destruct (lookup k o) eqn:E; [|reflexivity]. exfalso. apply Hk. apply lookup_in. congruence. }
    assert (exists g', append_one m k g = Ok (insert k g' m) /\
                       merged (lookup k m) (Some g) = Some g') as (g' & E1 & E2).
    { unfold append_one. destruct (lookup k m) as [g0|] eqn:E0; cbn [merged]; [|eauto].
      destruct (Hc k g0 g E0) as (g1 & Hg).
      { cbn [lookup]. rewrite Z.eqb_refl. reflexivity. }
      rewrite Hg. cbn [bind]. eauto. }
    rewrite E1. cbn [bind].
    destruct (IH (insert k g' m) Ho) as (m' & Em & Hl & Hnd).
    { intros k1 g1 g2 H1 H2. rewrite lookup_insert in H1.
      destruct (Z.eqb_spec k k1) as [-> |Hne]; [congruence|].
      apply (Hc k1 g1 g2 H1). cbn [lookup].
      destruct (Z.eqb_spec k k1); [congruence|]. exact H2. }
    exists m'. split; [exact Em|]. split; [|intros H; apply Hnd, nodup_insert, H].
    intros k1. rewrite Hl, lookup_insert. cbn [lookup].
    destruct (Z.eqb_spec k k1) as [-> |Hne]; [|reflexivity].
    rewrite Hlk, E2. reflexivity.
Qed.

Lemma append_panic o : forall m,
  NoDup (map fst o) -> ~ compatible m o -> append m o = Panic.
Proof.
  induction o as [|[k g] o IH]; intros m Hn Hc; cbn [append].
  - exfalso. apply Hc. intros k g1 g2 _ [=].
  - cbn [map fst] in Hn. inversion Hn as [|? ? Hk Ho]; subst.
    assert (Hlk : lookup k o = None).
    { destruct (lookup k o) eqn:E; [|reflexivity]. exfalso. apply Hk. apply lookup_in. congruence. }
    unfold append_one. destruct (lookup k m) as [g0|] eqn:E0.
    + destruct (merge_cases g0 g) as [[g1 Hg]|Hg]; rewrite Hg; cbn [bind]; [|reflexivity].
      apply IH; [exact Ho|]. intros Hc'. apply Hc. intros k1 a b H1 H2.
      cbn [lookup] in H2. destruct (Z.eqb_spec k k1) as [-> |Hne].
      * assert (a = g0) by congruence. assert (b = g) by congruence. subst. eauto.
      * apply (Hc' k1); [|exact H2]. rewrite lookup_insert.
        destruct (Z.eqb_spec k k1); [congruence|exact H1].
    + cbn [bind]. apply IH; [exact Ho|]. intros Hc'. apply Hc. intros k1 a b H1 H2.
      cbn [lookup] in H2. destruct (Z.eqb_spec k k1) as [-> |Hne]; [congruence|].
      apply (Hc' k1); [|exact H2]. rewrite lookup_insert.
      destruct (Z.eqb_spec k k1); [congruence|exact H1].
Qed.

Lemma compatible_dec m o : NoDup (map fst o) -> compatible m o \/ ~ compatible m o.
Proof.
  intros Hn.
  assert (H : forall l, (forall p, In p l -> In p o) ->
            (forall k g2, In (k, g2) l -> forall g1, lookup k m = Some g1 -> exists g, merge g1 g2 = Ok g)
            \/ ~ compatible m o).
  { induction l as [|[k g] l IH]; intros Hl; [left; intros k g2 []|].
    destruct IH as [IH|IH]; [intros p Hp; apply Hl; right; exact Hp| |right; exact IH].
    destruct (lookup k m) as [g0|] eqn:E0.
    - destruct (merge_cases g0 g) as [Hg|Hg].
      + left. intros k1 g2 [[= <- <-]|Hi] g1 H1; [|eauto].
        assert (g1 = g0) by congruence. subst. exact Hg.
      + right. intros Hc. destruct (Hc k g0 g E0) as [g' Hg'].
        { apply lookup_nodup; [exact Hn|]. apply Hl. left. reflexivity. }
        congruence.
    - left. intros k1 g2 [[= <- <-]|Hi] g1 H1; [congruence|eauto]. }
  destruct (H o) as [Hg|Hg]; [auto| |right; exact Hg].
  left. intros k g1 g2 H1 H2. apply (Hg k); [|exact H1]. apply lookup_nodup; assumption.
Qed.

(** ** generate_item, unfolded *)
Lemma generate_item_ns cur po b ch :
  generate_item cur po (Ns b ch) =
  if is_foreign cur (Some (b_target b)) then Ok []
  else bind (generate_items cur (po && b_attr_ok b) ch [])
         (fun m => if po && b_attr_ok b
                   then Ok (insert (b_canon b) (GCanonical (map item_id ch) (b_depr b))
                              (insert (b_id b) GNonCanonical m))
                   else Ok [(b_id b, GLeaf (EUnsupported (b_id b)))]).
Proof.
  cbn [generate_item]. destruct (is_foreign cur (Some (b_target b))); [reflexivity|].
  f_equal. generalize (@nil (Z * gitem)). induction ch as [|c ch IH]; intros m; [reflexivity|].
  cbn [generate_items]. destruct (generate_item cur (po && b_attr_ok b) c); cbn [bind]; try reflexivity.
  destruct (append m a); cbn [bind]; [apply IH|reflexivity|reflexivity].
Qed.

(** ** Contributions *)

(** In order: which entries a forest contributes to which keys. *)
Fixpoint evl (cur : Z) (po : bool) (i : item) : list (Z * gitem) :=
  match i with
  | Leaf id t out =>
      if is_foreign cur t then []
      else match out with None => [] | Some e => [(id, GLeaf e)] end
  | Ns b ch =>
      if is_foreign cur (Some (b_target b)) then []
      else if po && b_attr_ok b
           then flat_map (evl cur true) ch ++
                (if b_id b =? b_canon b then [] else [(b_id b, GNonCanonical)]) ++
                [(b_canon b, GCanonical (map item_id ch) (b_depr b))]
           else [(b_id b, GLeaf (EUnsupported (b_id b)))]
  end.

Definition fk (k : Z) (l : list (Z * gitem)) : list gitem :=
  map snd (filter (fun p => fst p =? k) l).

Lemma fk_app k l1 l2 : fk k (l1 ++ l2) = fk k l1 ++ fk k l2.
Proof. unfold fk. rewrite filter_app, map_app. reflexivity. Qed.

Lemma fk_in k g l : In g (fk k l) <-> In (k, g) l.
Proof.
  unfold fk. rewrite in_map_iff. split.
  - intros ([k' g'] & <- & Hi). apply filter_In in Hi. destruct Hi as [Hi He].
    cbn [fst] in He. apply Z.eqb_eq in He. subst. exact Hi.
  - intros H. exists (k, g). split; [reflexivity|]. apply filter_In. split; [exact H|].
    apply Z.eqb_refl.
Qed.

Lemma fk_nil k l : ~ In k (map fst l) -> fk k l = [].
Proof.
  intros H. destruct (fk k l) as [|g r] eqn:E; [reflexivity|].
  exfalso. apply H. assert (Hi : In g (fk k l)) by (rewrite E; left; reflexivity).
  apply fk_in in Hi. apply (in_map fst) in Hi. exact Hi.
Qed.

Inductive Comb : list gitem -> gitem -> Prop :=
| Comb_one g : Comb [g] g
| Comb_app l1 g1 l2 g2 g :
    Comb l1 g1 -> Comb l2 g2 -> merge g1 g2 = Ok g -> Comb (l1 ++ l2) g.

Definition Rep (m : snippets) (l : list (Z * gitem)) : Prop :=
  NoDup (map fst m) /\
  forall k, match lookup k m with None => fk k l = [] | Some g => Comb (fk k l) g end.

Definition isCan (g : gitem) : Prop := match g with GCanonical _ _ => True | _ => False end.

Definition Mergeable (l : list (Z * gitem)) : Prop :=
  forall k, (List.length (fk k l) <= 1)%nat \/ Forall isCan (fk k l).

Lemma mergeable_app l1 l2 : Mergeable (l1 ++ l2) -> Mergeable l1 /\ Mergeable l2.
Proof.
  intros H; split; intros k; specialize (H k); rewrite fk_app, app_length in H;
    (destruct H as [H|H]; [left; lia|right; apply Forall_app in H; tauto]).
Qed.

Lemma comb_nonempty l g : Comb l g -> l <> [].
Proof.
  induction 1 as [|l1 g1 l2 g2 g H1 IH1 H2 IH2 _]; [discriminate|].
  destruct l1; [congruence|discriminate].
Qed.

Lemma comb_can l g : Comb l g -> Forall isCan l -> isCan g.
Proof.
  induction 1 as [|l1 g1 l2 g2 g H1 IH1 H2 IH2 Hm]; intros HF.
  - inversion HF; assumption.
  - apply Forall_app in HF. destruct HF as [F1 F2]. specialize (IH1 F1). specialize (IH2 F2).
    destruct g1, g2; cbn [isCan] in *; try tauto. cbn [merge] in Hm. injection Hm as <-. exact Logic.I.
Qed.

Lemma rep_append m1 l1 m2 l2 :
  Rep m1 l1 -> Rep m2 l2 -> Mergeable (l1 ++ l2) ->
  exists m, append m1 m2 = Ok m /\ Rep m (l1 ++ l2).
Proof.
  intros [N1 R1] [N2 R2] HM.
  destruct (append_ok m2 m1 N2) as (m & Em & Hl & Hn).
  { intros k g1 g2 H1 H2. specialize (R1 k). specialize (R2 k). rewrite H1 in R1. rewrite H2 in R2.
    destruct (HM k) as [HL|HF].
    - rewrite fk_app, app_length in HL. apply comb_nonempty in R1. apply comb_nonempty in R2.
      destruct (fk k l1), (fk k l2); cbn [List.length] in HL; try congruence; lia.
    - rewrite fk_app in HF. apply Forall_app in HF. destruct HF as [F1 F2].
      apply (comb_can _ _ R1) in F1. apply (comb_can _ _ R2) in F2.
      destruct g1, g2; cbn [isCan] in *; try tauto. cbn [merge]. eauto. }
  exists m. split; [exact Em|]. split; [auto|].
  intros k. rewrite Hl, fk_app. specialize (R1 k). specialize (R2 k).
  destruct (lookup k m1) as [g1|] eqn:E1, (lookup k m2) as [g2|] eqn:E2; cbn [merged].
  - destruct (merge_cases g1 g2) as [[g Hg]|Hg]; rewrite Hg.
    + apply (Comb_app _ g1 _ g2); assumption.
    + exfalso.
      destruct (HM k) as [HL|HF].
      * rewrite fk_app, app_length in HL. apply comb_nonempty in R1. apply comb_nonempty in R2.
        destruct (fk k l1), (fk k l2); cbn [List.length] in HL; try congruence; lia.
      * rewrite fk_app in HF. apply Forall_app in HF. destruct HF as [F1 F2].
        apply (comb_can _ _ R1) in F1. apply (comb_can _ _ R2) in F2.
        destruct g1, g2; cbn [isCan merge] in *; try tauto; discriminate.
  - rewrite R2, app_nil_r. exact R1.
  - rewrite R1. exact R2.
  - rewrite R1, R2. reflexivity.
Qed.

Lemma rep_nil : Rep [] [].
Proof. split; [constructor|]. intros k. reflexivity. Qed.

Lemma rep_one k g : Rep [(k, g)] [(k, g)].
Proof.
  split; [constructor; [intros []|constructor]|].
  intros k'. unfold fk. cbn [lookup filter fst].
  destruct (k =? k'); cbn [map snd]; [constructor|reflexivity].
Qed.

(** Every block of a forest inside which no block is its own namespace again,
    and whose ids are its own. *)
Fixpoint Tame (i : item) : Prop :=
  match i with
  | Leaf _ _ _ => True
  | Ns b ch =>
      (fix all (l : list item) : Prop := match l with [] => True | x :: l' => Tame x /\ all l' end) ch /\
      forall cur po, ~ In (b_id b) (map fst (flat_map (evl cur po) ch)) /\
                     ~ In (b_canon b) (map fst (flat_map (evl cur po) ch))
  end.

Lemma tame_ns b ch :
  Tame (Ns b ch) <->
  Forall Tame ch /\
  forall cur po, ~ In (b_id b) (map fst (flat_map (evl cur po) ch)) /\
                 ~ In (b_canon b) (map fst (flat_map (evl cur po) ch)).
Proof.
  cbn [Tame]. apply and_iff_compat_r. induction ch as [|c ch IH]; [intuition|].
  rewrite IH. split; [intros [? ?]; constructor; tauto|intros H; inversion H; tauto].
Qed.

(** Wherever a block is generated, what its children contribute can be merged. *)
Fixpoint SubMergeable (cur : Z) (po : bool) (i : item) : Prop :=
  match i with
  | Leaf _ _ _ => True
  | Ns b ch =>
      (fix all (l : list item) : Prop :=
         match l with [] => True | x :: l' => SubMergeable cur (po && b_attr_ok b) x /\ all l' end) ch /\
      Mergeable (flat_map (evl cur (po && b_attr_ok b)) ch)
  end.

Lemma submergeable_ns cur po b ch :
  SubMergeable cur po (Ns b ch) <->
  Forall (SubMergeable cur (po && b_attr_ok b)) ch /\
  Mergeable (flat_map (evl cur (po && b_attr_ok b)) ch).
Proof.
  cbn [SubMergeable]. apply and_iff_compat_r. induction ch as [|c ch IH]; [intuition|].
  rewrite IH. split; [intros [? ?]; constructor; tauto|intros H; inversion H; tauto].
Qed.

Lemma evl_eq cur po i :
  evl cur po i =
  match i with
  | Leaf id t out =>
      if is_foreign cur t then []
      else match out with None => [] | Some e => [(id, GLeaf e)] end
  | Ns b ch =>
      if is_foreign cur (Some (b_target b)) then []
      else if po && b_attr_ok b
           then flat_map (evl cur (po && b_attr_ok b)) ch ++
                (if b_id b =? b_canon b then [] else [(b_id b, GNonCanonical)]) ++
                [(b_canon b, GCanonical (map item_id ch) (b_depr b))]
           else [(b_id b, GLeaf (EUnsupported (b_id b)))]
  end.
Proof.
  destruct i as [|b ch]; [reflexivity|]. cbn [evl].
  destruct (is_foreign cur (Some (b_target b))); [reflexivity|].
  destruct (po && b_attr_ok b) eqn:E; reflexivity.
Qed.

Lemma rep_generate_items cur po l :
  Forall (fun i => exists m, generate_item cur po i = Ok m /\ Rep m (evl cur po i)) l ->
  forall m0 l0, Rep m0 l0 -> Mergeable (l0 ++ flat_map (evl cur po) l) ->
  exists m, generate_items cur po l m0 = Ok m /\ Rep m (l0 ++ flat_map (evl cur po) l).
Proof.
  induction 1 as [|i l (mi & Ei & Ri) Hl IH]; intros m0 l0 R0 HM; cbn [generate_items flat_map].
  - rewrite app_nil_r. eauto.
  - cbn [flat_map] in HM. rewrite app_assoc in HM |- *. rewrite Ei. cbn [bind].
    destruct (rep_append m0 l0 mi (evl cur po i) R0 Ri) as (m1 & E1 & R1').
    { apply mergeable_app in HM. tauto. }
    rewrite E1. cbn [bind]. apply IH; assumption.
Qed.

Lemma rep_generate_item cur i :
  Tame i -> forall po, SubMergeable cur po i ->
  exists m, generate_item cur po i = Ok m /\ Rep m (evl cur po i).
Proof.
  induction i as [id t o|b ch IH] using item_ind'; intros HT po HS.
  - cbn [generate_item evl]. destruct (is_foreign cur t); [eauto using rep_nil|].
    destruct o; eauto using rep_nil, rep_one.
  - apply tame_ns in HT. destruct HT as [HT HF]. apply submergeable_ns in HS. destruct HS as [HS HM].
    rewrite generate_item_ns, evl_eq.
    destruct (is_foreign cur (Some (b_target b))); [eauto using rep_nil|].
    destruct (rep_generate_items cur (po && b_attr_ok b) ch) with (m0 := @nil (Z * gitem)) (l0 := @nil (Z * gitem))
      as (m & Em & Rm).
    { rewrite Forall_forall in IH, HT, HS |- *. intros i Hi. apply IH; auto. }
    { apply rep_nil. }
    { apply HM. }
    rewrite Em. cbn [bind]. cbn [app] in Rm.
    destruct (po && b_attr_ok b) eqn:Eo; [|eauto using rep_one].
    eexists; split; [reflexivity|].
    destruct Rm as [Nm Rm]. split; [do 2 apply nodup_insert; exact Nm|].
    intros k. rewrite !lookup_insert, !fk_app.
    destruct (HF cur true) as [F1 F2].
    apply fk_nil in F1. apply fk_nil in F2.
    specialize (Rm k). 
    destruct (Z.eqb_spec (b_canon b) k) as [<- |Hk].
    + rewrite F2. cbn [app].
      assert (E : fk (b_canon b) (if b_id b =? b_canon b then [] else [(b_id b, GNonCanonical)]) = []).
      { destruct (Z.eqb_spec (b_id b) (b_canon b)) as [|Hne]; [reflexivity|].
        unfold fk. cbn [filter fst]. destruct (Z.eqb_spec (b_id b) (b_canon b)); [congruence|reflexivity]. }
      rewrite E. cbn [app]. unfold fk. cbn [filter fst]. rewrite Z.eqb_refl. cbn [map snd]. constructor.
    + assert (E : fk k [(b_canon b, GCanonical (map item_id ch) (b_depr b))] = []).
      { unfold fk. cbn [filter fst]. destruct (Z.eqb_spec (b_canon b) k); [congruence|reflexivity]. }
      rewrite E, app_nil_r.
      destruct (Z.eqb_spec (b_id b) k) as [<- |Hk2].
      * rewrite F1. cbn [app]. destruct (Z.eqb_spec (b_id b) (b_canon b)); [congruence|].
        unfold fk. cbn [filter fst]. rewrite Z.eqb_refl. cbn [map snd]. constructor.
      * assert (E2 : fk k (if b_id b =? b_canon b then [] else [(b_id b, GNonCanonical)]) = []).
        { destruct (b_id b =? b_canon b); [reflexivity|].
          unfold fk. cbn [filter fst]. destruct (Z.eqb_spec (b_id b) k); [congruence|reflexivity]. }
        rewrite E2, app_nil_r. exact Rm.
Qed.
