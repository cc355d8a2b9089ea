(** From the printed tree to the statements of the specification. *)
From Coq Require Import ZArith List Bool String Lia Permutation.
From Verif.NsEmit Require Import Model Spec Proofs Proofs2 Proofs3 Proofs4.
Import ListNotations.
Local Open Scope Z_scope.
Local Open Scope list_scope.

Lemma source_at_cons cur c p F : source_at cur (c :: p) F = source_at cur p (members c F).
Proof.
  unfold members.
  assert (HH : forall G, (forall p' F', source_at cur p' (F' ++ G) = source_at cur p' F' ++ source_at cur p' G)).
  { intros G p' F'. destruct p'; cbn [source_at]; apply flat_map_app. }
  cbn [source_at]. induction F as [|i F IH]; cbn [flat_map].
  - destruct p; reflexivity.
  - rewrite HH, <- IH. f_equal. destruct i as [|b ch]; cbn [sel].
    + destruct p; reflexivity.
    + destruct (b_attr_ok b && (b_canon b =? c)); [reflexivity|destruct p; reflexivity].
Qed.

Lemma source_at_nil cur p : source_at cur p [] = [].
Proof. destruct p; reflexivity. Qed.

Section Result.
Variable cur : Z.
Variable t : ir.
Let T := top_level cur t.

Definition Printed (q : list Z) (rest : list item) (toks : list tok) : Prop :=
  printed_at [] toks = flat_map (direct cur) rest /\
  forall c p, printed_at (c :: p) toks =
    match vb c rest with [] => [] | _ => source_at cur p (members c (M q T)) end.

Lemma printed_whole q toks : Printed q (M q T) toks -> forall p, printed_at p toks = source_at cur p (M q T).
Proof.
  intros [H1 H2] [|c p]; [exact H1|]. rewrite H2, source_at_cons.
  destruct (vb c (M q T)) eqn:E; [|reflexivity].
  rewrite (vb_empty_members _ _ E), source_at_nil. reflexivity.
Qed.

Lemma merged_printed q rest toks : Merged cur t q rest toks -> Printed q rest toks.
Proof.
  induction 1 as [q|q id u o rest toks Hm [IH1 IH2]|q b ch rest toks Eo Hm [IH1 IH2]
                 |q b ch rest toks Eo Hv Hm [IH1 IH2]
                 |q b ch rest toks body d cb cch Eo Hv Hcb Ecb Hd Hb IHb Hm [IH1 IH2]].
  - split; [reflexivity|]. intros c p. reflexivity.
  - split.
    + cbn [printed_at flat_map] in *. rewrite flat_map_app, IH1. f_equal.
      induction (direct cur (Leaf id u o)) as [|e l IH]; [reflexivity|]. cbn [map flat_map app]. f_equal. exact IH.
    + intros c p. cbn [printed_at]. rewrite flat_map_app. specialize (IH2 c p). cbn [printed_at] in IH2. rewrite IH2.
      rewrite vb_cons. cbn [ownsel app].
      assert (E : forall l, flat_map (fun k => match k with
                         | TMod c' _ _ _ body => if c' =? c then printed_at p body else []
                         | TLeaf _ => [] end) (map TLeaf l) = []).
      { induction l as [|e l IH]; [reflexivity|exact IH]. }
      rewrite E. reflexivity.
  - split.
    + cbn [printed_at flat_map direct] in *. rewrite Eo, IH1. reflexivity.
    + intros c p. cbn [printed_at flat_map]. specialize (IH2 c p). cbn [printed_at] in IH2. rewrite IH2.
      rewrite vb_cons. cbn [ownsel app]. rewrite Eo. reflexivity.
  - split.
    + cbn [printed_at flat_map direct] in *. rewrite Eo, IH1. reflexivity.
    + intros c p. rewrite IH2, vb_cons. cbn [ownsel]. rewrite Eo. cbn [andb].
      destruct (Z.eqb_spec (b_canon b) c) as [<- |]; [|reflexivity]. cbn [app].
      destruct (vb (b_canon b) rest); [congruence|reflexivity].
  - split.
    + cbn [printed_at flat_map direct] in *. rewrite Eo, IH1. reflexivity.
    + intros c p. cbn [printed_at flat_map]. specialize (IH2 c p). cbn [printed_at] in IH2. rewrite IH2.
      rewrite vb_cons. cbn [ownsel]. rewrite Eo. cbn [andb].
      destruct (Z.eqb_spec (b_canon b) c) as [<- |]; [|reflexivity]. cbn [app].
      rewrite Hv, app_nil_r, (printed_whole _ _ IHb). unfold T. rewrite M_snoc. reflexivity.
Qed.

Definition Modules (q : list Z) (rest : list item) (toks : list tok) : Prop :=
  (NoDup (modules_at [] toks) /\ forall x, In x (modules_at [] toks) <-> vb x rest <> []) /\
  forall c p, (vb c rest = [] -> modules_at (c :: p) toks = []) /\
              NoDup (modules_at (c :: p) toks) /\
              (vb c rest <> [] ->
               forall x, In x (modules_at (c :: p) toks) <-> vb x (M p (members c (M q T))) <> []).

Lemma modules_whole q toks : Modules q (M q T) toks -> forall p,
  NoDup (modules_at p toks) /\ forall x, In x (modules_at p toks) <-> vb x (M p (M q T)) <> [].
Proof.
  intros [H1 H2] [|c p]; [exact H1|]. destruct (H2 c p) as (Ha & Hb & Hc). split; [exact Hb|].
  intros x. destruct (vb c (M q T)) eqn:E.
  - rewrite (Ha eq_refl). cbn [M]. rewrite (vb_empty_members _ _ E).
    assert (E2 : forall p, M p [] = []) by (induction p0; [reflexivity|exact IHp0]).
    rewrite E2. cbn. intuition congruence.
  - cbn [M]. apply Hc. discriminate.
Qed.

Lemma merged_modules q rest toks : Merged cur t q rest toks -> Modules q rest toks.
Proof.
  induction 1 as [q|q id u o rest toks Hm IH|q b ch rest toks Eo Hm IH
                 |q b ch rest toks Eo Hv Hm IH
                 |q b ch rest toks body d cb cch Eo Hv Hcb Ecb Hd Hb IHb Hm IH].
  - split; [split; [constructor|intros x; cbn; intuition congruence]|]. intros c p.
    split; [reflexivity|]. split; [constructor|]. intros H. exfalso. apply H. reflexivity.
  - assert (E : forall p l, modules_at p (map TLeaf l ++ toks) = modules_at p toks).
    { intros p l. destruct p; cbn [modules_at]; rewrite flat_map_app;
        (replace (flat_map _ (map TLeaf l)) with (@nil Z) by (induction l; auto)); reflexivity. }
    unfold Modules in *. setoid_rewrite E. destruct IH as [IH1 IH2]. split.
    + destruct IH1 as [N I]. split; [exact N|]. intros x. rewrite vb_cons. exact (I x).
    + intros c p. rewrite vb_cons. exact (IH2 c p).
  - assert (E : forall x, vb x (Ns b ch :: rest) = vb x rest).
    { intros x. rewrite vb_cons. cbn [ownsel]. rewrite Eo. reflexivity. }
    unfold Modules in *. destruct IH as [[N I] IH2]. split.
    + split; [exact N|]. intros x. rewrite E. exact (I x).
    + intros c p. rewrite E. exact (IH2 c p).
  - destruct IH as [[N I] IH2].
    assert (E : forall x, (vb x (Ns b ch :: rest) = [] -> vb x rest = []) /\
                          (vb x (Ns b ch :: rest) <> [] <-> vb x rest <> [])).
    { intros x. rewrite vb_cons. cbn [ownsel]. rewrite Eo. cbn [andb].
      destruct (Z.eqb_spec (b_canon b) x) as [<- |]; cbn [app]; [|intuition congruence].
      split; [discriminate|]. split; [intros _; exact Hv|discriminate]. }
    split.
    + split; [exact N|]. intros x. rewrite (I x). symmetry. apply E.
    + intros c p. destruct (IH2 c p) as (Ha & Hb & Hc). split; [|split; [exact Hb|]].
      * intros H. apply Ha, E, H.
      * intros H. apply Hc, E, H.
  - destruct IH as [[N I] IH2].
    assert (Hno : ~ In (b_canon b) (modules_at [] toks)) by (rewrite I; congruence).
    split.
    + cbn [modules_at flat_map app] in *. split; [constructor; assumption|].
      intros x. rewrite vb_cons. cbn [ownsel]. rewrite Eo. cbn [andb In]. rewrite I.
      destruct (Z.eqb_spec (b_canon b) x) as [<- |Hne]; cbn [app]; [|intuition congruence].
      split; [discriminate|]. intros _. left. reflexivity.
    + intros c p. destruct (IH2 c p) as (Ha & Hnd & Hc).
      assert (Em : modules_at (c :: p) (TMod (b_canon b) d (b_name cb) (b_inline cb) body :: toks) =
                   (if b_canon b =? c then modules_at p body else []) ++ modules_at (c :: p) toks) by reflexivity.
      rewrite Em, vb_cons. cbn [ownsel]. rewrite Eo. cbn [andb].
      destruct (Z.eqb_spec (b_canon b) c) as [<- |Hne]; cbn [app].
      * rewrite (Ha Hv), app_nil_r. destruct (modules_whole _ _ IHb p) as [Nb Ib].
        split; [discriminate|]. split; [exact Nb|]. intros _ x. rewrite (Ib x). unfold T. rewrite M_snoc. tauto.
      * split; [exact Ha|]. split; [exact Hnd|exact Hc].
Qed.

Lemma merged_module q rest toks : Merged cur t q rest toks -> forall before, M q T = before ++ rest ->
  forall c d n re, Module toks c d n re ->
  exists q' b ch cb cch, In (Ns b ch) (M q' T) /\ b_attr_ok b = true /\ b_canon b = c /\
    In (Ns cb cch) (all_items t) /\ b_id cb = c /\ n = b_name cb /\ re = b_inline cb /\
    MergeNotes (notes c (M q' T)) d.
Proof.
  intros H.
  induction H as [q|q id u o rest toks Hm IH|q b ch rest toks Eo Hm IH
                 |q b ch rest toks Eo Hv Hm IH
                 |q b ch rest toks body d0 cb cch Eo Hv Hcb Ecb Hd Hb IHb Hm IH]; intros before Ew c d n re HMd.
  - inversion HMd as [? ? ? ? ? ? Hi|? ? ? ? ? ? ? ? ? ? Hi]; destruct Hi.
  - apply (IH (before ++ [Leaf id u o])); [rewrite Ew, <- app_assoc; reflexivity|].
    assert (HL : forall l c' d' n' re' body', In (TMod c' d' n' re' body') (map TLeaf l ++ toks) ->
                 In (TMod c' d' n' re' body') toks).
    { intros l c' d' n' re' body' Hi. apply in_app_or in Hi. destruct Hi as [Hi|Hi]; [|exact Hi].
      apply in_map_iff in Hi. destruct Hi as (? & [=] & _). }
    inversion HMd as [? ? ? ? ? ? Hi|? ? ? ? ? ? ? ? ? ? Hi Hin]; subst; apply HL in Hi;
      [eapply Mod_here; exact Hi|eapply Mod_inside; eassumption].
  - apply (IH (before ++ [Ns b ch])); [rewrite Ew, <- app_assoc; reflexivity|].
    inversion HMd as [? ? ? ? ? ? Hi|? ? ? ? ? ? ? ? ? ? Hi Hin]; subst; destruct Hi as [Hi|Hi]; try discriminate Hi;
      [eapply Mod_here; exact Hi|eapply Mod_inside; eassumption].
  - apply (IH (before ++ [Ns b ch])); [rewrite Ew, <- app_assoc; reflexivity|exact HMd].
  - assert (Hhere : In (Ns b ch) (M q T)) by (rewrite Ew; apply in_or_app; right; left; reflexivity).
    inversion HMd as [? ? ? ? ? ? Hi|? ? ? ? ? ? ? ? ? ? Hi Hin]; subst; destruct Hi as [Hi|Hi].
    + injection Hi as <- <- <- <- <-. exists q, b, ch, cb, cch. repeat (split; [assumption || reflexivity|]). exact Hd.
    + apply (IH (before ++ [Ns b ch])); [rewrite Ew, <- app_assoc; reflexivity|]. eapply Mod_here; exact Hi.
    + injection Hi as <- <- <- <- <-. apply (IHb [] eq_refl). exact Hin.
    + apply (IH (before ++ [Ns b ch])); [rewrite Ew, <- app_assoc; reflexivity|]. eapply Mod_inside; eassumption.
Qed.
End Result.
