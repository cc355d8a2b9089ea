(** C171-C175: C++ namespaces become Rust modules. *)
From Coq Require Import ZArith List Bool String Lia Permutation.
From Verif.NsEmit Require Import Model Spec Proofs Proofs2 Proofs3 Proofs4 Proofs5.
Import ListNotations.
Local Open Scope Z_scope.
Local Open Scope list_scope.

(** ** A checker for concrete IRs *)
Fixpoint occs (i : item) : list (list Z * bool * item) :=
  ([], true, i) ::
  match i with
  | Leaf _ _ _ => []
  | Ns b ch => map (fun '(e, ok, x) => (b_canon b :: e, b_attr_ok b && ok, x)) (flat_map occs ch)
  end.

Lemma occs_spec l e ok i : Occurs l e ok i <-> In (e, ok, i) (flat_map occs l).
Proof.
  split.
  - induction 1 as [l i Hi|l b ch e ok i Hi _ IH]; apply in_flat_map.
    + exists i. split; [exact Hi|]. destruct i; left; reflexivity.
    + exists (Ns b ch). split; [exact Hi|]. right. apply in_map_iff. exists (e, ok, i). split; [reflexivity|exact IH].
  - intros H. apply in_flat_map in H. destruct H as (r & Hr & H). revert l e ok Hr H.
    induction r as [id u o|b ch IH] using item_ind'; intros l e ok Hr H; cbn [occs] in H.
    + destruct H as [[= <- <- <-]|[]]. constructor. exact Hr.
    + destruct H as [[= <- <- <-]|H]; [constructor; exact Hr|].
      apply in_map_iff in H. destruct H as ([[e' ok'] x] & [= <- <- ->] & H).
      apply in_flat_map in H. destruct H as (c & Hc & H). rewrite Forall_forall in IH.
      econstructor; [exact Hr|]. exact (IH c Hc ch e' ok' Hc H).
Qed.

Fixpoint nodupb (l : list Z) : bool :=
  match l with [] => true | x :: l' => negb (existsb (Z.eqb x) l') && nodupb l' end.

Lemma nodupb_ok l : nodupb l = true -> NoDup l.
Proof.
  induction l as [|x l IH]; intros H; [constructor|]. cbn [nodupb] in H. apply andb_true_iff in H.
  destruct H as [H1 H2]. constructor; [|auto]. intros Hi. apply negb_true_iff in H1.
  assert (existsb (Z.eqb x) l = true) by (apply existsb_exists; exists x; split; [exact Hi|apply Z.eqb_refl]).
  congruence.
Qed.

Definition all_occs (t : ir) : list (Z * (list Z * bool * item)) :=
  flat_map (fun p : Z * list item => map (fun o => (fst p, o)) (flat_map occs (snd p))) t.

Definition wfb (t : ir) : bool :=
  let all := all_occs t in
  nodupb (flat_map (fun p : Z * list item => flat_map ids_of (snd p)) t) && nodupb (map fst t) &&
  forallb (fun '(k, (e, ok, i)) => match i with Leaf _ _ _ => true | Ns b _ =>
     (b_target b =? k) &&
     forallb (fun '(k', (e', ok', i')) => match i' with Leaf _ _ _ => true | Ns b' _ =>
        negb (b_canon b =? b_canon b') || (if list_eq_dec Z.eq_dec e e' then true else false) end) all &&
     existsb (fun '(k', (e', ok', i')) => match i' with Leaf _ _ _ => false | Ns b' _ =>
        (b_id b' =? b_canon b) && (b_canon b' =? b_canon b) end) all end) all.

Lemma wfb_ok cur t : wfb t = true -> WellFormed cur t.
Proof.
  unfold wfb. set (all := all_occs t). intros H. apply andb_true_iff in H. destruct H as [H H3].
  apply andb_true_iff in H. destruct H as [H1 H2]. rewrite forallb_forall in H3.
  assert (Hall : forall k l e ok i, In (k, l) t -> Occurs l e ok i -> In (k, (e, ok, i)) all).
  { intros k l e ok i Hk Ho. apply in_flat_map. exists (k, l). split; [exact Hk|]. cbn [fst snd].
    apply (in_map (fun o => (k, o))). apply occs_spec. exact Ho. }
  assert (Hall' : forall k e ok i, In (k, (e, ok, i)) all -> exists l, In (k, l) t /\ Occurs l e ok i).
  { intros k e ok i Hi. apply in_flat_map in Hi. destruct Hi as ([k' l] & Hk & Hi). cbn [fst snd] in Hi.
    apply in_map_iff in Hi. destruct Hi as (o & [= -> ->] & Hi). exists l. split; [exact Hk|]. apply occs_spec. exact Hi. }
  split.
  - apply nodupb_ok. exact H1.
  - apply nodupb_ok. exact H2.
  - intros k l e ok b ch Hk Ho. specialize (H3 _ (Hall _ _ _ _ _ Hk Ho)). cbn beta iota in H3.
    apply andb_true_iff in H3. destruct H3 as [H3 _]. apply andb_true_iff in H3. destruct H3 as [H3 _].
    apply Z.eqb_eq. exact H3.
  - intros k l e ok b ch k' l' e' ok' b' ch' Hk Ho Hk' Ho' E. specialize (H3 _ (Hall _ _ _ _ _ Hk Ho)). cbn beta iota in H3.
    apply andb_true_iff in H3. destruct H3 as [H3 _]. apply andb_true_iff in H3. destruct H3 as [_ H3].
    rewrite forallb_forall in H3. specialize (H3 _ (Hall _ _ _ _ _ Hk' Ho')). cbn beta iota in H3.
    rewrite E, Z.eqb_refl in H3. cbn [negb orb] in H3. destruct (list_eq_dec Z.eq_dec e e'); [assumption|discriminate].
  - intros k l e ok b ch Hk Ho. specialize (H3 _ (Hall _ _ _ _ _ Hk Ho)). cbn beta iota in H3.
    apply andb_true_iff in H3. destruct H3 as [_ H3]. apply existsb_exists in H3.
    destruct H3 as ([k' [[e' ok'] i']] & Hi & H3). destruct i' as [|b' ch']; [discriminate|].
    apply andb_true_iff in H3. destruct H3 as [Ea Eb]. apply Z.eqb_eq in Ea. apply Z.eqb_eq in Eb.
    destruct (Hall' _ _ _ _ Hi) as (l' & Hk' & Ho'). exists k', l', e', ok', b', ch'. auto.
Qed.

(** ** The main argument *)
Lemma regular_bindings cur t : WellFormed cur t -> Regular cur t ->
  exists toks, bindings cur t = Ok toks /\ Merged cur t [] (top_level cur t) toks.
Proof.
  intros W R. unfold bindings.
  destruct (generate_top cur (top_level cur t) (top_of_wf cur t W) (canon_ok cur t R)) as (gen & Eg & Hg).
  rewrite Eg. cbn [bind].
  exact (emit_merged cur t W R gen Hg (S (List.length (all_items t))) [] (le_n_S _ _ (hl_top cur t))).
Qed.

Lemma all_bindable_regular cur t : AllBindable cur t -> Regular cur t.
Proof.
  intros H. split.
  - intros encl b ch [Ho Eo].
    assert (Hok : forall e ok i, Occurs (top_level cur t) e ok i -> ok = true).
    { intros e ok i Hi. assert (HH : forall l e ok i, Occurs l e ok i ->
          (forall e ok b ch, Occurs l e ok (Ns b ch) -> b_attr_ok b = true) -> ok = true).
      { clear. induction 1 as [l i Hi|l b ch e ok i Hi _ IH]; intros Hl; [reflexivity|].
        rewrite (Hl [] true b ch) by (constructor; exact Hi). cbn [andb]. apply IH.
        intros e' ok' b' ch' Ho'. eapply Hl. econstructor; eassumption. }
      apply (HH _ _ _ _ Hi). exact H. }
    assert (Hb : forall l c x, In x (flat_map (blocks_of c) l) ->
               exists e ok b ch, Occurs l e ok (Ns b ch) /\ b_canon b = c /\ b_id b = x).
    { assert (HH : forall i c x, In x (blocks_of c i) ->
               exists e ok b ch, Occurs [i] e ok (Ns b ch) /\ b_canon b = c /\ b_id b = x).
      { clear. induction i as [id u o|b ch IH] using item_ind'; intros c x Hx; cbn [blocks_of] in Hx; [destruct Hx|].
        apply in_app_or in Hx. destruct Hx as [Hx|Hx].
        - destruct (Z.eqb_spec (b_canon b) c) as [E|]; [|destruct Hx]. destruct Hx as [<- |[]].
          exists [], true, b, ch. split; [constructor; left; reflexivity|auto].
        - apply in_flat_map in Hx. destruct Hx as (i & Hi & Hx). rewrite Forall_forall in IH.
          destruct (IH i Hi c x Hx) as (e & ok & b' & ch' & Ho & E).
          exists (b_canon b :: e), (b_attr_ok b && ok), b', ch'. split; [|exact E].
          econstructor; [left; reflexivity|]. apply (occurs_incl [i]); [|exact Ho]. intros y [<- |[]]. exact Hi. }
      intros l c x Hx. apply in_flat_map in Hx. destruct Hx as (i & Hi & Hx).
      destruct (HH i c x Hx) as (e & ok & b' & ch' & Ho' & E). exists e, ok, b', ch'. split; [|exact E].
      apply (occurs_incl [i]); [|exact Ho']. intros y [<- |[]]. exact Hi. }
    assert (Hne : flat_map (blocks_of (b_canon b)) (top_level cur t) <> []).
    { assert (HH : forall l e ok x, Occurs l e ok x -> x = Ns b ch -> In (b_id b) (flat_map (blocks_of (b_canon b)) l)).
      { clear. induction 1 as [l i Hi|l b0 ch0 e ok i Hi _ IH]; intros ->; apply in_flat_map.
        - exists (Ns b ch). split; [exact Hi|]. cbn [blocks_of]. rewrite Z.eqb_refl. left. reflexivity.
        - exists (Ns b0 ch0). split; [exact Hi|]. cbn [blocks_of]. apply in_or_app. right. apply IH. reflexivity. }
      pose proof (HH _ _ _ _ Ho eq_refl) as Hin. intros E. rewrite E in Hin. destruct Hin. }
    destruct (exists_last Hne) as (pre & x & E).
    destruct (Hb (top_level cur t) (b_canon b) x) as (e & ok & b' & ch' & Ho' & Ec & Ex).
    { rewrite E. apply in_or_app. right. left. reflexivity. }
    exists pre, e, b', ch'. rewrite Ex. split; [exact E|]. split; [|exact Ec].
    rewrite (Hok _ _ _ Ho') in Ho'. split; [exact Ho'|]. exact (H _ _ _ _ Ho').
  - intros encl b ch encl' b' ch' _ Ho' _. exact (H _ _ _ _ Ho').
Qed.

(** ** C171 *)

(** No item is lost, duplicated, reordered or put into another module, however
    namespaces are nested and reopened; and Crubit does not abort. *)
Theorem C171_every_item_in_its_module cur t :
  WellFormed cur t -> AllBindable cur t ->
  exists toks, bindings cur t = Ok toks /\
    forall path, printed_at path toks = source_at cur path (top_level cur t).
Proof.
  intros W A. destruct (regular_bindings cur t W (all_bindable_regular cur t A)) as (toks & E & H).
  exists toks. split; [exact E|]. apply (printed_whole cur t []). apply merged_printed. exact H.
Qed.
Print Assumptions C171_every_item_in_its_module.

(** The same with blocks that carry unknown attributes, as long as the last
    block of each namespace and the canonical one are not among them. *)
Theorem C171_every_item_in_its_module_regular cur t :
  WellFormed cur t -> Regular cur t ->
  exists toks, bindings cur t = Ok toks /\
    forall path, printed_at path toks = source_at cur path (top_level cur t).
Proof.
  intros W R. destruct (regular_bindings cur t W R) as (toks & E & H).
  exists toks. split; [exact E|]. apply (printed_whole cur t []). apply merged_printed. exact H.
Qed.
Print Assumptions C171_every_item_in_its_module_regular.

(** ** C172 *)

(** One module per namespace, inside the module of its enclosing namespace, iff
    the namespace has a bindable block in this target; named and re-exported as
    the canonical block says, even if that one is in another target. *)
Theorem C172_one_module_per_namespace cur t toks :
  WellFormed cur t -> Regular cur t -> bindings cur t = Ok toks ->
  forall path, NoDup (modules_at path toks) /\
    forall c, In c (modules_at path toks) <->
              exists b ch, Bindable cur t path b ch /\ b_canon b = c.
Proof.
  intros W R E path. destruct (regular_bindings cur t W R) as (toks' & E' & H).
  assert (toks' = toks) by congruence. subst toks'.
  destruct (modules_whole cur t [] toks (merged_modules _ _ _ _ _ H) path) as [N I].
  split; [exact N|]. intros c. rewrite (I c). cbn [M]. rewrite vb_nonempty. split.
  - intros (b & ch & Hi & Eo & Ec). exists b, ch. split; [|exact Ec]. split; [apply in_M; exact Hi|exact Eo].
  - intros (b & ch & [Ho Eo] & Ec). exists b, ch. split; [apply in_M; exact Ho|auto].
Qed.
Print Assumptions C172_one_module_per_namespace.

Lemma module_facts cur t toks c d n re :
  WellFormed cur t -> Regular cur t -> bindings cur t = Ok toks -> Module toks c d n re ->
  exists q b ch cb cch, Bindable cur t q b ch /\ b_canon b = c /\
    In (Ns cb cch) (all_items t) /\ b_id cb = c /\ n = b_name cb /\ re = b_inline cb /\
    MergeNotes (notes c (M q (top_level cur t))) d.
Proof.
  intros W R E Hm. destruct (regular_bindings cur t W R) as (toks' & E' & H).
  assert (toks' = toks) by congruence. subst toks'.
  destruct (merged_module cur t _ _ _ H [] eq_refl c d n re Hm)
    as (q & b & ch & cb & cch & Hi & Eo & Ec & Hcb & Ecb & En & Er & Hd).
  exists q, b, ch, cb, cch. split; [split; [apply in_M; exact Hi|exact Eo]|]. auto 9.
Qed.

Theorem C172_module_name cur t toks c d n re :
  WellFormed cur t -> Regular cur t -> bindings cur t = Ok toks -> Module toks c d n re ->
  exists k l encl ok cb ch, In (k, l) t /\ Occurs l encl ok (Ns cb ch) /\
    b_id cb = c /\ n = b_name cb /\ re = b_inline cb.
Proof.
  intros W R E Hm.
  destruct (module_facts _ _ _ _ _ _ _ W R E Hm) as (q & b & ch & cb & cch & _ & _ & Hcb & Ecb & En & Er & _).
  unfold all_items in Hcb. apply in_flat_map in Hcb. destruct Hcb as ([k l] & Hk & Hcb). cbn [snd] in Hcb.
  destruct (preorder_occurs _ _ Hcb) as (e & ok & Ho). exists k, l, e, ok, cb, cch. auto.
Qed.
Print Assumptions C172_module_name.

(** ** C174: deprecation notes *)
Lemma merge_none a b : merge_deprecated a b = None <-> a = None /\ b = None.
Proof.
  destruct a as [x|], b as [y|]; cbn [merge_deprecated]; try destruct (String.eqb x y); intuition congruence.
Qed.

Lemma contains_refl s : Contains s s.
Proof. exists ""%string, ""%string. cbn. induction s; [reflexivity|]. cbn. congruence. Qed.

Lemma str_app_assoc a b c : ((a ++ b) ++ c)%string = (a ++ (b ++ c))%string.
Proof. induction a; cbn; [reflexivity|congruence]. Qed.
Lemma str_app_nil a : (a ++ "")%string = a.
Proof. induction a; cbn; congruence. Qed.

Lemma contains_merge x y s :
  Contains x s \/ Contains y s -> Contains (merge_deprecated_text x y) s.
Proof.
  intros H. destruct x as [|a x], y as [|b y].
  - cbn. destruct H; assumption.
  - cbn [merge_deprecated_text]. destruct H as [H|H]; [|exact H].
    destruct H as (u & v & E). destruct u, s, v; try discriminate E. exists ""%string, (String b y). reflexivity.
  - cbn [merge_deprecated_text]. destruct H as [H|H]; [exact H|].
    destruct H as (u & v & E). destruct u, s, v; try discriminate E. exists ""%string, (String a x). reflexivity.
  - change (Contains (String a x ++ (", " ++ String b y))%string s).
    destruct H as [(u & v & E)|(u & v & E)].
    + exists u, (v ++ ", " ++ String b y)%string. rewrite E. rewrite !str_app_assoc. reflexivity.
    + exists (String a x ++ ", " ++ u)%string, v. rewrite E. rewrite !str_app_assoc. reflexivity.
Qed.

Lemma concat_app_nonempty l1 l2 : l1 <> [] -> l2 <> [] ->
  String.concat ", " (l1 ++ l2) = (String.concat ", " l1 ++ ", " ++ String.concat ", " l2)%string.
Proof.
  intros H1 H2. induction l1 as [|x l1 IH]; [congruence|]. cbn [app].
  destruct l1 as [|y l1].
  - cbn [app String.concat]. destruct l2; [congruence|reflexivity].
  - cbn [app] in IH |- *. change (String.concat ", " (x :: y :: l1 ++ l2)) with
      (x ++ ", " ++ String.concat ", " (y :: l1 ++ l2))%string.
    change (String.concat ", " (x :: y :: l1)) with (x ++ ", " ++ String.concat ", " (y :: l1))%string.
    rewrite IH by discriminate. rewrite !str_app_assoc. reflexivity.
Qed.

Lemma merge_notes_facts l d : MergeNotes l d ->
  (d = None <-> forall x, In x l -> x = None) /\
  (forall s, In (Some s) l -> exists text, d = Some text /\ Contains text s) /\
  (forall text, d = Some text -> exists k, k <> [] /\ text = String.concat ", " k /\ forall s, In s k -> In (Some s) l) /\
  (forall s, d <> None -> (forall s', In (Some s') l -> s' = s) -> d = Some s).
Proof.
  induction 1 as [d|l1 d1 l2 d2 H1 (A1 & B1 & C1 & D1) H2 (A2 & B2 & C2 & D2)].
  - split; [|split; [|split]].
    + split; [intros -> x [<- |[]]; reflexivity|]. intros H. apply H. left. reflexivity.
    + intros s [-> |[]]. exists s. split; [reflexivity|apply contains_refl].
    + intros text ->. exists [text]. split; [discriminate|]. split; [reflexivity|].
      intros s [<- |[]]. left. reflexivity.
    + intros s Hn H. destruct d as [s'|]; [|congruence]. rewrite (H s'); [reflexivity|left; reflexivity].
  - split; [|split; [|split]].
    + rewrite merge_none, A1, A2. split.
      * intros [H H'] x Hx. apply in_app_or in Hx. destruct Hx; auto.
      * intros H. split; intros x Hx; apply H; apply in_or_app; auto.
    + intros s Hs. apply in_app_or in Hs. destruct Hs as [Hs|Hs].
      * destruct (B1 s Hs) as (x & -> & Hx). cbn [merge_deprecated]. destruct d2 as [y|]; [|eauto].
        destruct (String.eqb x y); [eauto|]. eexists. split; [reflexivity|]. apply contains_merge. left. exact Hx.
      * destruct (B2 s Hs) as (y & -> & Hy). destruct d1 as [x|]; cbn [merge_deprecated]; [|eauto].
        destruct (String.eqb_spec x y) as [-> |]; [eauto|]. eexists. split; [reflexivity|]. apply contains_merge. right. exact Hy.
    + intros text Ht.
      assert (L : forall x, d1 = Some x -> exists k, k <> [] /\ x = String.concat ", " k /\ forall s, In s k -> In (Some s) (l1 ++ l2)).
      { intros x Hx. destruct (C1 x Hx) as (k & Hk & E & Hi). exists k. split; [exact Hk|]. split; [exact E|].
        intros s Hs. apply in_or_app. left. auto. }
      assert (Rr : forall x, d2 = Some x -> exists k, k <> [] /\ x = String.concat ", " k /\ forall s, In s k -> In (Some s) (l1 ++ l2)).
      { intros x Hx. destruct (C2 x Hx) as (k & Hk & E & Hi). exists k. split; [exact Hk|]. split; [exact E|].
        intros s Hs. apply in_or_app. right. auto. }
      destruct d1 as [x|], d2 as [y|]; cbn [merge_deprecated] in Ht; [|apply L; exact Ht|apply Rr; exact Ht|discriminate].
      destruct (String.eqb x y); [apply L; exact Ht|]. injection Ht as <-.
      destruct x as [|a x]; [cbn [merge_deprecated_text]; apply Rr; reflexivity|].
      destruct y as [|b y]; [cbn [merge_deprecated_text]; apply L; reflexivity|].
      destruct (L _ eq_refl) as (k1 & N1 & E1 & I1). destruct (Rr _ eq_refl) as (k2 & N2 & E2 & I2).
      exists (k1 ++ k2). split; [destruct k1; [congruence|discriminate]|]. split.
      * rewrite concat_app_nonempty by assumption. rewrite <- E1, <- E2. reflexivity.
      * intros s Hs. apply in_app_or in Hs. destruct Hs; auto.
    + intros s Hn H.
      assert (Q1 : forall s', In (Some s') l1 -> s' = s) by (intros s' Hs; apply H; apply in_or_app; left; exact Hs).
      assert (Q2 : forall s', In (Some s') l2 -> s' = s) by (intros s' Hs; apply H; apply in_or_app; right; exact Hs).
      destruct d1 as [x|].
      * pose proof (D1 s ltac:(discriminate) Q1) as E1. injection E1 as ->. destruct d2 as [y|]; [|reflexivity].
        pose proof (D2 s ltac:(discriminate) Q2) as E2. injection E2 as ->. cbn [merge_deprecated].
        rewrite String.eqb_refl. reflexivity.
      * destruct d2 as [y|]; [|exfalso; apply Hn; reflexivity]. exact (D2 s ltac:(discriminate) Q2).
Qed.

Lemma notes_in c F x : In x (notes c F) <->
  exists b ch, In (Ns b ch) F /\ b_attr_ok b = true /\ b_canon b = c /\ b_depr b = x.
Proof.
  unfold notes. rewrite in_flat_map. split.
  - intros ([id t o|b ch] & Hi & H); cbn [ownsel] in H; [destruct H|].
    destruct (b_attr_ok b) eqn:Eo; cbn [andb] in H; [|destruct H].
    destruct (Z.eqb_spec (b_canon b) c); [|destruct H]. destruct H as [<- |[]]. eauto 7.
  - intros (b & ch & Hi & Eo & Ec & Ex). exists (Ns b ch). split; [exact Hi|]. cbn [ownsel].
    rewrite Eo, Ec, Z.eqb_refl. left. exact Ex.
Qed.

Theorem C174_deprecation_note cur t toks c d n re :
  WellFormed cur t -> Regular cur t -> bindings cur t = Ok toks -> Module toks c d n re ->
  Noted cur t c d.
Proof.
  intros W R E Hm.
  destruct (module_facts _ _ _ _ _ _ _ W R E Hm) as (q & b & ch & cb & cch & [Hb Eo] & Ec & _ & _ & _ & _ & Hd).
  assert (Hx : forall x, In x (notes c (M q (top_level cur t))) <->
               exists encl b ch, Bindable cur t encl b ch /\ b_canon b = c /\ b_depr b = x).
  { intros x. rewrite notes_in. split.
    - intros (b' & ch' & Hi & Eo' & Ec' & Ed). exists q, b', ch'. split; [|auto].
      split; [apply in_M; exact Hi|exact Eo'].
    - intros (e & b' & ch' & [Ho' Eo'] & Ec' & Ed). exists b', ch'. split; [|auto]. apply in_M.
      assert (e = q).
      { apply (top_scope _ _ (top_of_wf cur t W) _ _ _ _ _ _ _ _ Ho' Hb). congruence. }
      subst e. exact Ho'. }
  destruct (merge_notes_facts _ _ Hd) as (A & B & C & D). split.
  - rewrite A. split.
    + intros H e b' ch' Hb' Ec'. apply H. apply Hx. eauto 6.
    + intros H x Hin. apply Hx in Hin. destruct Hin as (e & b' & ch' & Hb' & Ec' & <-). eauto.
  - intros e b' ch' s Hb' Ec' Es. apply B. apply Hx. eauto 6.
  - intros text Ht. destruct (C text Ht) as (k & _ & Ek & Hk). exists k. split; [exact Ek|].
    intros s Hs. apply Hk in Hs. apply Hx in Hs. exact Hs.
  - intros s Hn H. apply D; [exact Hn|]. intros s' Hs. apply Hx in Hs.
    destruct Hs as (e & b' & ch' & Hb' & Ec' & Ed). exact (H _ _ _ _ Hb' Ec' Ed).
Qed.
Print Assumptions C174_deprecation_note.

(** ** Examples and counterexamples *)
Definition blk (id canon target name : Z) (ok : bool) (d : option string) : block :=
  {| b_id := id; b_canon := canon; b_target := target; b_name := name;
     b_inline := false; b_attr_ok := ok; b_depr := d |}.
Definition it (id : Z) : item := Leaf id (Some 1) (Some (EItem id)).

(** [namespace a { x; namespace b { y; } }  namespace a { namespace b { z; } w; }]
    where the canonical block of [a] (id 100) is in another target. *)
Definition ex_ok : ir :=
  [ (1, [ Ns (blk 10 100 1 7 true (Some "old"%string)) [ it 11; Ns (blk 12 12 1 8 true None) [ it 13 ] ];
          it 14;
          Ns (blk 15 100 1 7 true (Some "older"%string)) [ Ns (blk 16 12 1 8 true None) [ it 17 ]; it 18 ] ]);
    (2, [ Ns (blk 100 100 2 7 true None) [ Leaf 101 (Some 2) (Some (EItem 101)) ] ]) ].

Ltac concrete_bindable :=
  let e := fresh "e" in let ok := fresh "ok" in let b := fresh "b" in let ch := fresh "ch" in
  let H := fresh "H" in
  intros e ok b ch H; apply occs_spec in H; cbv in H;
  repeat (destruct H as [H|H]; [try discriminate H; try (injection H as <- <- <- <-; reflexivity)|]);
  destruct H.

Example ex_ok_wf : WellFormed 1 ex_ok.
Proof. apply wfb_ok. reflexivity. Qed.

Example ex_ok_bindable : AllBindable 1 ex_ok.
Proof. concrete_bindable. Qed.

Example ex_ok_output : bindings 1 ex_ok =
  Ok [ TLeaf (EItem 14);
       TMod 100 (Some "old, older"%string) 7 false
         [ TLeaf (EItem 11);
           TMod 12 None 8 false [ TLeaf (EItem 13); TLeaf (EItem 17) ];
           TLeaf (EItem 18) ] ].
Proof. reflexivity. Qed.

(** ** C173: an unknown attribute on one block *)

(** The intended claim, false: an unknown attribute on a block of a namespace
    costs only what is inside that block; Crubit does not abort, and the items of
    the bindable blocks are all printed. *)
Definition C173_intended : Prop :=
  forall cur t, WellFormed cur t ->
  exists toks, bindings cur t = Ok toks /\
    forall path e, In e (source_at cur path (top_level cur t)) -> In e (printed_at path toks).

(** [namespace a { x; }  namespace [[unknown]] a { y; }]: [x] is lost, silently. *)
Definition ex_last_bad : ir :=
  [ (1, [ Ns (blk 10 10 1 7 true None) [ it 11 ]; Ns (blk 20 10 1 7 false None) [ it 21 ] ]) ].

Theorem C173_unknown_attribute_is_local_refuted : ~ C173_intended.
Proof.
  intros H. destruct (H 1 ex_last_bad) as (toks & E & Hp); [apply wfb_ok; reflexivity|].
  assert (Et : toks = [TLeaf (EUnsupported 20)]) by (vm_compute in E; congruence). subst toks.
  specialize (Hp [10] (EItem 11)). cbn in Hp. destruct Hp. left. reflexivity.
Qed.
Print Assumptions C173_unknown_attribute_is_local_refuted.

(** [namespace [[unknown]] a { x; }  namespace a { y; }]: Crubit aborts. *)
Theorem C173_unknown_attribute_on_first_block_aborts_refuted :
  exists cur t, WellFormed cur t /\ bindings cur t = Panic /\
    (exists encl b ch, Bindable cur t encl b ch).
Proof.
  exists 1, [ (1, [ Ns (blk 10 10 1 7 false None) [ it 11 ]; Ns (blk 20 10 1 7 true None) [ it 21 ] ]) ].
  split; [apply wfb_ok; reflexivity|]. split; [reflexivity|].
  exists [], (blk 20 10 1 7 true None), [ it 21 ]. split; [|reflexivity].
  constructor. right. left. reflexivity.
Qed.
Print Assumptions C173_unknown_attribute_on_first_block_aborts_refuted.

(** [namespace a { namespace b { x; } }  namespace [[unknown]] a { namespace b { y; } }
    namespace a { z; }]: the bad block is in the middle, and [x] is lost all the same,
    without even a comment where [b] should be. *)
Theorem C173_unknown_attribute_in_the_middle_refuted :
  exists cur t toks, WellFormed cur t /\ bindings cur t = Ok toks /\
    In (EItem 12) (source_at cur [10; 11] (top_level cur t)) /\
    toks = [ TLeaf (EUnsupported 20); TMod 10 None 7 false [ TLeaf (EItem 31) ] ].
Proof.
  exists 1, [ (1, [ Ns (blk 10 10 1 7 true None) [ Ns (blk 11 11 1 8 true None) [ it 12 ] ];
                    Ns (blk 20 10 1 7 false None) [ Ns (blk 21 11 1 8 true None) [ it 22 ] ];
                    Ns (blk 30 10 1 7 true None) [ it 31 ] ]) ].
  eexists. split; [apply wfb_ok; reflexivity|]. split; [reflexivity|]. split; [left; reflexivity|reflexivity].
Qed.
Print Assumptions C173_unknown_attribute_in_the_middle_refuted.

(** What does hold: with a [Regular] IR the claim is true. *)
Theorem C173_unknown_attribute_is_local_partial cur t :
  WellFormed cur t -> Regular cur t ->
  exists toks, bindings cur t = Ok toks /\
    forall path e, In e (source_at cur path (top_level cur t)) -> In e (printed_at path toks).
Proof.
  intros W R. destruct (C171_every_item_in_its_module_regular cur t W R) as (toks & E & Hp).
  exists toks. split; [exact E|]. intros path e. rewrite Hp. auto.
Qed.
Print Assumptions C173_unknown_attribute_is_local_partial.

(** The case the existing unit test covers meets the hypotheses. *)
Definition ex_middle : ir :=
  [ (1, [ Ns (blk 10 10 1 7 true None) [ it 11 ];
          Ns (blk 20 10 1 7 false None) [ it 21 ];
          Ns (blk 30 10 1 7 true None) [ it 31 ] ]) ].

Example ex_middle_wf : WellFormed 1 ex_middle.
Proof. apply wfb_ok. reflexivity. Qed.

Example ex_middle_regular : Regular 1 ex_middle.
Proof.
  assert (H : forall e b ch, Bindable 1 ex_middle e b ch -> b = blk 10 10 1 7 true None \/ b = blk 30 10 1 7 true None).
  { intros e b ch [Ho Eo]. apply occs_spec in Ho. cbn in Ho.
    repeat (destruct Ho as [Ho|Ho]; [try discriminate Ho; injection Ho as <- <- <-; try discriminate Eo; auto|]).
    destruct Ho. }
  split.
  - intros e b ch Hb. exists [10; 20], [], (blk 30 10 1 7 true None), [it 31].
    destruct (H e b ch Hb) as [-> | ->]; (split; [reflexivity|]; split; [|reflexivity]);
      (split; [constructor; right; right; left; reflexivity|reflexivity]).
  - intros e b ch e' b' ch' Hb Ho E.
    assert (E2 : b_id b' = 10) by (destruct (H e b ch Hb) as [-> | ->]; exact E).
    apply occs_spec in Ho. cbn in Ho.
    repeat (destruct Ho as [Ho|Ho]; [try discriminate Ho; injection Ho as <- <- <-; try discriminate E2; auto|]).
    destruct Ho.
Qed.

Example ex_middle_output : bindings 1 ex_middle =
  Ok [ TLeaf (EUnsupported 20); TMod 10 None 7 false [ TLeaf (EItem 11); TLeaf (EItem 31) ] ].
Proof. reflexivity. Qed.

(** A message shared by two blocks can be shown twice, depending on how the
    blocks are grouped: with the blocks of [b] spread over two blocks of [a]. *)
Theorem C174_no_repeated_message_refuted :
  exists cur t, WellFormed cur t /\ AllBindable cur t /\
    bindings cur t = Ok [ TMod 10 None 7 false
                            [ TMod 11 (Some "x, x, y"%string) 8 false [] ] ].
Proof.
  exists 1, [ (1, [ Ns (blk 10 10 1 7 true None) [ Ns (blk 11 11 1 8 true (Some "x"%string)) [] ];
                    Ns (blk 20 10 1 7 true None)
                       [ Ns (blk 21 11 1 8 true (Some "x"%string)) []; Ns (blk 22 11 1 8 true (Some "y"%string)) [] ] ]) ].
  split; [apply wfb_ok; reflexivity|]. split; [concrete_bindable|reflexivity].
Qed.
Print Assumptions C174_no_repeated_message_refuted.
