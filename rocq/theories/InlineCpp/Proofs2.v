(** The scan over the tokens. *)
From Coq Require Import List NArith Arith Bool Ascii String Sorted Lia.
From Verif Require Import InlineCpp.Model InlineCpp.Spec InlineCpp.Proofs.
Import ListNotations.
Local Open Scope string_scope.
Local Open Scope nat_scope.
Local Open Scope list_scope.

(** No path that is followed by [!] starts in [done] and ends at or after its
    end. *)
Definition Clean (done rest : list tok) : Prop :=
  forall b' x k p w bg s, done = b' ++ x -> x <> [] -> rest = p ++ w ++ bg :: s ->
    MacroPath k (x ++ p) -> Forall is_space w -> tk bg = Bang -> False.

Lemma clean_nil rest : Clean [] rest.
Proof. intros b' x k p w bg s E Hx. destruct b', x; try discriminate. congruence. Qed.

Lemma app_snoc_inv {A} (a b : list A) x c : a ++ [x] = b ++ c -> c <> [] ->
  exists c', c = c' ++ [x] /\ a = b ++ c'.
Proof.
  intros E Hc. destruct (exists_last Hc) as (c' & y & ->).
  rewrite app_assoc in E. apply app_inj_tail in E. destruct E as [-> ->]. eauto.
Qed.

Lemma clean_step done t r : check_macro_path (sp done (t :: r)) = None ->
  Clean done (t :: r) -> Clean (done ++ [t]) r.
Proof.
  intros HC H b' x k p w bg s E Hx Er Hp Hw Hb.
  destruct (app_snoc_inv _ _ _ _ E Hx) as (x' & -> & Ed). clear E.
  rewrite <- app_assoc in Hp. cbn [app] in Hp.
  destruct x' as [|y x'].
  - cbn [app] in Hp. rewrite app_nil_r in Ed. subst b'. subst r.
    change (t :: p ++ w ++ bg :: s) with ((t :: p) ++ w ++ bg :: s) in HC.
    rewrite (check_of done k (t :: p) w bg s Hp Hw Hb) in HC. discriminate.
  - eapply (H b' (y :: x') k (t :: p) w bg s); try eassumption; [discriminate|].
    subst r. reflexivity.
Qed.
Lemma clean_after d z r : tk z <> Ident -> tk z <> Colon -> Clean (d ++ [z]) r.
Proof.
  intros H1 H2 b' x k p w bg s E Hx Er Hp Hw Hb.
  destruct (app_snoc_inv _ _ _ _ E Hx) as (x' & -> & Ed).
  apply path_toks in Hp. rewrite Forall_forall in Hp.
  destruct (Hp z) as [K|K]; [apply in_or_app; left; apply in_or_app; right; left; reflexivity| |];
    contradiction.
Qed.

Definition Good (done rest : list tok) (r : presult) : Prop :=
  match r with
  | POk ms =>
      Forall (Describes (done ++ rest)) ms /\ StronglySorted Before ms
      /\ Forall (fun m => size (src done) <= m_start m) ms
      /\ (forall a k name w1 bang w2 o s,
            rest = a ++ name :: w1 ++ bang :: w2 ++ o :: s -> Call k name w1 bang w2 o ->
            exists m, In m ms /\ Covered k (done ++ a) (name :: w1 ++ bang :: w2 ++ [o]) m)
  | PErr l => Unclosed (done ++ rest) l
  end.

(** A call in [a ++ r] is in [r], or its name is in [a]. *)
Lemma split_app {A} (a : list A) r b x c : a ++ r = b ++ x :: c ->
  (exists b', b = a ++ b' /\ r = b' ++ x :: c) \/ (exists a', a = b ++ x :: a' /\ c = a' ++ r).
Proof.
  revert b. induction a as [|y a IH]; intros b E.
  - left. exists b. auto.
  - destruct b as [|z b]; cbn [app] in E.
    + injection E as -> E. right. exists a. auto.
    + injection E as -> E. destruct (IH b E) as [(b' & -> & K)|(a' & -> & K)].
      * left. exists b'. auto.
      * right. exists a'. auto.
Qed.

Lemma name_not_space k t : NameTok k t -> ~ is_space t.
Proof. intros [H _] K. unfold is_space in K. congruence. Qed.
Lemma size_name k t : NameTok k t -> 1 <= size (tx t).
Proof.
  intros [_ H]. destruct k; cbn [macro_named] in H; rewrite H; vm_compute; lia.
Qed.

Lemma scan_good src0 fuel : forall done rest,
  List.length rest < fuel -> Forall tok_ok rest -> texts (done ++ rest) = src0 -> Clean done rest ->
  Good done rest (scan fuel src0 (sp done rest)).
Proof.
  induction fuel as [|fuel IH]; intros done rest Hf Hok Hs Hcl; [lia|].
  destruct rest as [|t rest].
  { cbn [scan sp spans Good]. repeat split; try constructor.
    intros a k name w1 bang w2 o s E. destruct a; discriminate. }
  rewrite sp_cons. cbn [scan].
  change (st1 done t :: sp (done ++ [t]) rest) with (st1 done t :: sp (done ++ [t]) rest).
  rewrite <- sp_cons.
  destruct (check_macro_path (sp done (t :: rest))) as [[k n]|] eqn:HC.
  2:{ (* not a macro here *)
    assert (R : (done ++ [t]) ++ rest = done ++ t :: rest) by (rewrite <- app_assoc; reflexivity).
    specialize (IH (done ++ [t]) rest).
    assert (G : Good (done ++ [t]) rest (scan fuel src0 (sp (done ++ [t]) rest))).
    { apply IH; [cbn in Hf; lia|exact (Forall_inv_tail Hok)|rewrite R; exact Hs|].
      apply clean_step; assumption. }
    destruct (scan fuel src0 (sp (done ++ [t]) rest)) as [ms|l]; cbn [Good] in *; rewrite R in G;
      [|exact G].
    destruct G as (G1 & G2 & G3 & G4). repeat split; auto.
    - eapply Forall_impl; [|exact G3]. cbn beta. intros m K.
      rewrite src_app, size_app in K. lia.
    - intros a k name w1 bang w2 o s E HCall.
      destruct a as [|y a]; cbn [app] in E.
      + injection E as -> ->. exfalso. destruct HCall as (Hn & Hw1 & Hb & _).
        pose proof (check_of done k [name] w1 bang (w2 ++ o :: s) (path_rel k _ (seg_name k _ Hn)) Hw1 Hb)
          as K. cbn [app] in K. rewrite K in HC. discriminate.
      + injection E as <- E.
        destruct (G4 a k name w1 bang w2 o s E HCall) as (m & Hm & Hc).
        exists m. split; [exact Hm|]. rewrite <- app_assoc in Hc. exact Hc. }
  (* a macro path *)
  apply check_some in HC. destruct HC as (p & w1 & bang & r & ER & Hp & Hw1 & Hbang & ->).
  rewrite ER in *. clear rest ER.
  replace (p ++ w1 ++ bang :: r) with ((p ++ w1 ++ [bang]) ++ r)
    by (rewrite <- !app_assoc; reflexivity).
  rewrite sp_skip.
  destruct (eat_ws_spec (done ++ p ++ w1 ++ [bang]) r) as (w2 & r2 & -> & Hw2 & Hr2 & EW).
  rewrite EW.
  remember (bang :: w2) as bw eqn:Ebw.
  assert (Hbw : exists i z, bw = i ++ [z] /\ tk z <> Ident /\ tk z <> Colon).
  { subst bw. destruct w2 as [|u w2'].
    - exists [], bang. split; [reflexivity|]. rewrite Hbang. split; discriminate.
    - assert (Hne : u :: w2' <> []) by discriminate.
      destruct (exists_last Hne) as (i & z & Ez). exists (bang :: i), z.
      rewrite Ez. split; [reflexivity|].
      assert (K : is_space z).
      { rewrite Forall_forall in Hw2. apply Hw2. rewrite Ez. apply in_or_app. right. left. reflexivity. }
      unfold is_space in K. rewrite K. split; discriminate. }
  destruct Hbw as (i & z & Ebz & Hz1 & Hz2).
  assert (Hcut : forall x, (p ++ w1 ++ [bang]) ++ w2 ++ x = (p ++ w1 ++ bw) ++ x).
  { intros x. subst bw. rewrite <- !app_assoc. reflexivity. }
  (* a call whose name is in the path is this one *)
  assert (Hin : forall a k0 name v1 bang' v2 o s x,
    (p ++ w1 ++ bw) ++ x = a ++ name :: v1 ++ bang' :: v2 ++ o :: s ->
    Call k0 name v1 bang' v2 o ->
    (forall u x', x = u :: x' -> tk u <> Whitespace) ->
    (exists a', a = (p ++ w1 ++ bw) ++ a' /\ x = a' ++ name :: v1 ++ bang' :: v2 ++ o :: s)
    \/ (k0 = k /\ a ++ [name] = p /\ v1 = w1 /\ bang' :: v2 = bw /\ x = o :: s)).
  { intros a k0 name v1 bang' v2 o s x E (Hn & Hv1 & Hb' & Hv2 & Ho) Hx.
    destruct (split_app _ _ _ _ _ E) as [(b' & -> & K)|(a' & K1 & K2)].
    - left. exists b'. auto.
    - right.
      destruct (split_app _ _ _ _ _ K1) as [(b' & -> & K)|(a2 & K3 & K4)].
      + exfalso.
        destruct (split_app _ _ _ _ _ K) as [(b2 & -> & K')|(a3 & K3 & K4)].
        * subst bw. destruct b2 as [|y b2]; cbn [app] in K'.
          { injection K' as <- _. destruct Hn. congruence. }
          { injection K' as _ K'. rewrite Forall_forall in Hw2.
            apply (name_not_space _ _ Hn). apply Hw2. rewrite K'. apply in_or_app. right. left.
            reflexivity. }
        * rewrite Forall_forall in Hw1. apply (name_not_space _ _ Hn). apply Hw1. rewrite K3.
          apply in_or_app. right. left. reflexivity.
      + (* the name is the last token of the path *)
        destruct (path_last _ _ Hp) as (q & nm & Eq & Hnm & Hq).
        assert (a2 = []).
        { destruct (list_eq_dec (fun x y : tok => ltac:(decide equality; [apply list_eq_dec; apply N.eq_dec|decide equality])) a2 [])
            as [Ea|Ea]; [exact Ea|]. exfalso.
          destruct (exists_last Ea) as (a2' & y & ->).
          rewrite K3 in Eq. change (a ++ name :: a2' ++ [y]) with (a ++ (name :: a2') ++ [y]) in Eq.
          rewrite app_assoc in Eq. apply app_inj_tail in Eq. destruct Eq as [<- _].
          apply (Hq name k0); [apply in_or_app; right; left; reflexivity|exact Hn]. }
        subst a2. rewrite K3 in Eq. apply app_inj_tail in Eq. destruct Eq as [-> ->].
        cbn [app] in K4. subst a'. rewrite <- app_assoc in K2. subst bw. cbn [app] in K2.
        apply ws_split_unique in K2; auto.
        2:{ intros u r' Eu. injection Eu as <- _. congruence. }
        2:{ intros u r' Eu. injection Eu as <- _. congruence. }
        destruct K2 as [-> K2]. injection K2 as -> K2.
        apply ws_split_unique in K2; auto.
        2:{ intros u r' Eu. injection Eu as <- _. congruence. }
        destruct K2 as [-> K2].
        split; [|rewrite K3; auto].
        destruct Hn as [_ Hn], Hnm as [_ Hnm]. apply macro_of_some in Hn, Hnm. congruence. }
  assert (Hlen : List.length ((p ++ w1 ++ [bang]) ++ w2 ++ r2) < S fuel).
  { rewrite <- !app_assoc. exact Hf. }
  rewrite <- !app_assoc. 
  replace (p ++ w1 ++ [bang] ++ w2 ++ r2) with ((p ++ w1 ++ bw) ++ r2)
    by (subst bw; rewrite <- !app_assoc; reflexivity).
  replace (done ++ p ++ w1 ++ [bang] ++ w2) with (done ++ p ++ w1 ++ bw)
    by (subst bw; reflexivity).
  assert (Hok2 : Forall tok_ok r2).
  { apply Forall_app in Hok. destruct Hok as [_ Hok]. apply Forall_app in Hok. destruct Hok as [_ Hok].
    apply Forall_inv_tail in Hok. apply Forall_app in Hok. exact (proj2 Hok). }
  assert (Hclean2 : forall x, Clean (done ++ p ++ w1 ++ bw) x).
  { intros x. rewrite Ebz. rewrite !app_assoc. apply clean_after; assumption. }
  assert (Hs2 : texts (done ++ (p ++ w1 ++ bw) ++ r2) = src0).
  { rewrite <- Hs. subst bw. rewrite <- !app_assoc. reflexivity. }
  assert (Hpl : 1 <= List.length p).
  { destruct (path_last _ _ Hp) as (q & nm & -> & _ & _). rewrite app_length. cbn. lia. }
  destruct r2 as [|o body].
  { (* end of file *)
    rewrite sp_nil.
    specialize (IH (done ++ p ++ w1 ++ bw) []).
    assert (G : Good (done ++ p ++ w1 ++ bw) [] (scan fuel src0 (sp (done ++ p ++ w1 ++ bw) []))).
    { apply IH; [|constructor| |apply Hclean2].
      - rewrite !app_length in Hlen. cbn [List.length] in *. lia.
      - rewrite <- Hs2. rewrite <- !app_assoc. reflexivity. }
    rewrite sp_nil in G.
    assert (E0 : scan fuel src0 [] = POk []) by (destruct fuel; reflexivity).
    rewrite E0 in *. cbn [Good]. repeat split; try constructor.
    intros a k0 name v1 bang' v2 o s E HCall. exfalso.
    destruct (Hin a k0 name v1 bang' v2 o s [] E HCall) as [(a' & _ & K)|(_ & _ & _ & _ & K)].
    - intros u x'. discriminate.
    - destruct a'; discriminate.
    - discriminate. }
  rewrite sp_cons. cbn [st1 s_kind s_start s_len s_line s_col].
  destruct (tkind_eqb_spec (tk o) OpenBrace) as [Eo|Eo].
  2:{ (* not a brace *)
    assert (R : (done ++ p ++ w1 ++ bw) ++ o :: body = done ++ (p ++ w1 ++ bw) ++ o :: body)
      by (rewrite <- !app_assoc; reflexivity).
    fold (st1 (done ++ p ++ w1 ++ bw) o). rewrite <- sp_cons.
    specialize (IH (done ++ p ++ w1 ++ bw) (o :: body)).
    assert (G : Good (done ++ p ++ w1 ++ bw) (o :: body)
                 (scan fuel src0 (sp (done ++ p ++ w1 ++ bw) (o :: body)))).
    { apply IH; [|exact Hok2|rewrite R; exact Hs2|apply Hclean2].
      rewrite !app_length in Hlen. cbn [List.length] in *. lia. }
    destruct (scan fuel src0 (sp (done ++ p ++ w1 ++ bw) (o :: body))) as [ms|l];
      cbn [Good] in *; rewrite R in G; [|exact G].
    destruct G as (G1 & G2 & G3 & G4). repeat split; auto.
    - eapply Forall_impl; [|exact G3]. cbn beta. intros m K.
      rewrite src_app, size_app in K. lia.
    - intros a k0 name v1 bang' v2 o' s E HCall.
      destruct (Hin a k0 name v1 bang' v2 o' s (o :: body) E HCall) as [(a' & -> & K)|(_ & _ & _ & _ & K)].
      + exact Hr2.
      + destruct (G4 a' k0 name v1 bang' v2 o' s K HCall) as (m & Hm & Hc).
        exists m. split; [exact Hm|]. rewrite <- !app_assoc in Hc. rewrite <- !app_assoc. exact Hc.
      + exfalso. injection K as -> _. destruct HCall as (_ & _ & _ & _ & K). contradiction. }
  (* a block *)
  remember (done ++ p ++ w1 ++ bw) as D eqn:ED.
  assert (HtoD : D ++ [o] = done ++ p ++ w1 ++ bang :: w2 ++ [o]).
  { subst D bw. rewrite <- !app_assoc. reflexivity. }
  assert (HbodyPos : (match sp (D ++ [o]) body with
       | t' :: _ => (s_line t', s_col t')
       | [] => (fst (adv (1, 1) (texts D)), snd (adv (1, 1) (texts D)) + bytes (tx o)) end)
       = adv (1, 1) (texts (D ++ [o]))).
  { destruct body as [|t' body'].
    - rewrite sp_nil. rewrite texts_app, adv_app. unfold texts at 4. cbn [List.map List.concat].
      destruct (Forall_inv Hok2) as (_ & H & _). rewrite (H Eo). reflexivity.
    - rewrite sp_cons. cbn [st1 s_line s_col]. symmetry. apply surjective_pairing. }
  rewrite HbodyPos. rewrite (surjective_pairing (adv (1, 1) (texts (D ++ [o])))).
  assert (HbS : bytes (texts D) + bytes (tx o) = size (src (D ++ [o]))).
  { rewrite size_bytes, src_texts, texts_app, bytes_app. unfold texts at 3.
    cbn [List.map List.concat]. rewrite app_nil_r. reflexivity. }
  rewrite HbS.
  destruct (close_brace 1 (sp (D ++ [o]) body)) as [[e r']|] eqn:CB.
  2:{ (* unclosed *)
    apply close_none in CB. cbn [Good].
    exists k, done, p, w1, bang, w2, o, body, (snd (adv (1, 1) (texts done))).
    split. { rewrite ?Ebw, <- ?app_assoc. reflexivity. }
    repeat (split; [assumption|]).
    split; [|exact CB]. apply at_adv. rewrite src_texts. apply surjective_pairing. }
  apply close_some in CB; [|lia].
  destruct CB as (bd & c & after & -> & Hbal & Hc & -> & ->). cbn [Closes] in Hbal.
  assert (Hall : done ++ (p ++ w1 ++ bw) ++ o :: bd ++ c :: after
     = ((D ++ [o]) ++ bd ++ [c]) ++ after).
  { subst D. rewrite <- !app_assoc. cbn [app]. rewrite <- ?app_assoc. reflexivity. }
  assert (HbE : bytes (texts ((D ++ [o]) ++ bd)) = size (src (D ++ [o])) + size (src bd)).
  { rewrite texts_app, bytes_app, !size_bytes, !src_texts. reflexivity. }
  rewrite HbE.
  assert (Hslice : slice src0 (size (src (D ++ [o]))) (size (src (D ++ [o])) + size (src bd)) = src bd).
  { rewrite <- Hs2, Hall. rewrite <- !app_assoc. rewrite (app_assoc D [o]).
    rewrite texts_app, (texts_app bd). rewrite !size_bytes, !src_texts. apply slice_mid. }
  rewrite Hslice.
  destruct (Forall_inv Hok2) as (Ho0 & _).
  assert (Hokc : tok_ok c).
  { apply Forall_inv_tail in Hok2. apply Forall_app in Hok2. exact (Forall_inv (proj2 Hok2)). }
  assert (Hoka : Forall tok_ok after).
  { apply Forall_inv_tail in Hok2. apply Forall_app in Hok2. exact (Forall_inv_tail (proj2 Hok2)). }
  specialize (IH ((D ++ [o]) ++ bd ++ [c]) after).
  assert (G : Good ((D ++ [o]) ++ bd ++ [c]) after
     (scan fuel src0 (sp ((D ++ [o]) ++ bd ++ [c]) after))).
  { apply IH; [|exact Hoka|rewrite <- Hall; exact Hs2|].
    - clear - Hlen. rewrite !app_length in Hlen. cbn [List.length] in Hlen.
      rewrite app_length in Hlen. cbn [List.length] in Hlen. lia.
    - rewrite app_assoc. apply clean_after; rewrite Hc; discriminate. }
  remember (PMacro k (bytes (texts done)) (fst (adv (1, 1) (texts done))) (snd (adv (1, 1) (texts done)))
     (size (src (D ++ [o]))) (size (src (D ++ [o])) + size (src bd))
     (fst (adv (1, 1) (texts (D ++ [o])))) (snd (adv (1, 1) (texts (D ++ [o])))) (src bd)) as m eqn:Em.
  assert (Hdesc : Describes (done ++ (p ++ w1 ++ bw) ++ o :: bd ++ c :: after) m).
  { exists done, p, w1, bang, w2, o, bd, c, after. subst m.
    cbn [m_kind m_start m_line m_col m_body_start m_body_end m_body_line m_body_col m_body].
    split. { rewrite ?Ebw, <- ?app_assoc. reflexivity. }
    split; [exact Hp|]. split.
    { intros b' x Ex Hx K. eapply (Hcl b' x k p w1 bang); try eassumption. reflexivity. }
    split; [exact Hw1|]. split; [exact Hbang|]. split; [exact Hw2|]. split; [exact Eo|].
    split; [exact Hbal|]. split; [exact Hc|].
    split. { rewrite size_bytes, src_texts. reflexivity. }
    split. { apply at_adv. rewrite src_texts. apply surjective_pairing. }
    rewrite <- HtoD. split; [reflexivity|].
    split. { apply at_adv. rewrite src_texts. apply surjective_pairing. }
    split; reflexivity. }
  destruct (scan fuel src0 (sp ((D ++ [o]) ++ bd ++ [c]) after)) as [ms|l];
    cbn [pcons Good] in *; rewrite <- Hall in G; [|exact G].
  destruct G as (G1 & G2 & G3 & G4).
  assert (Hc1 : 1 <= size (tx c)).
  { destruct Hokc as (_ & _ & K). rewrite (K Hc). vm_compute. lia. }
  assert (Hsz : size (src ((D ++ [o]) ++ bd ++ [c])) = size (src (D ++ [o])) + size (src bd) + size (tx c)).
  { rewrite !src_app, !size_app. replace (src [c]) with (tx c) by (cbn; rewrite app_nil_r; reflexivity). lia. }
  assert (Hds : size (src done) <= size (src (D ++ [o]))).
  { rewrite HtoD, src_app, size_app. lia. }
  split; [constructor; assumption|]. split.
  { constructor; [exact G2|]. eapply Forall_impl; [|exact G3]. cbn beta. intros m' K.
    unfold Before. subst m. cbn [m_body_end]. lia. }
  split.
  { constructor; [subst m; cbn [m_start]; rewrite size_bytes, src_texts; lia|].
    eapply Forall_impl; [|exact G3]. cbn beta. intros m' K. lia. }
  intros a k0 name v1 bang' v2 o' s E HCall.
  destruct (Hin a k0 name v1 bang' v2 o' s _ E HCall Hr2)
    as [(a' & -> & K)|(-> & Ea & -> & Eb & K)].
  2:{ (* this one *)
    exists m. split; [left; reflexivity|]. left. subst m. cbn [m_kind m_body_start].
    split; [reflexivity|]. injection K as -> _.
    rewrite HtoD. rewrite <- Ea, Ebw in *. injection Eb as -> ->.
    rewrite <- !app_assoc. reflexivity. }
  destruct a' as [|y a'].
  { cbn [app] in K. injection K as <- _. destruct HCall as ((K & _) & _). congruence. }
  cbn [app] in K. injection K as <- K.
  destruct (split_app _ _ _ _ _ K) as [(b' & -> & K')|(a2 & K1 & K2)].
  - destruct b' as [|y b'].
    { cbn [app] in K'. injection K' as <- _. destruct HCall as ((K' & _) & _). congruence. }
    cbn [app] in K'. injection K' as <- K'.
    destruct (G4 b' k0 name v1 bang' v2 o' s K' HCall) as (m' & Hm & Hcov).
    exists m'. split; [right; exact Hm|].
    replace (done ++ (p ++ w1 ++ bw) ++ o :: bd ++ c :: b')
      with (((D ++ [o]) ++ bd ++ [c]) ++ b'); [exact Hcov|].
    subst D. rewrite <- !app_assoc. cbn [app]. rewrite <- ?app_assoc. reflexivity.
  - (* in the body *)
    exists m. split; [left; reflexivity|]. right. subst m. cbn [m_body_start m_body_end].
    replace (done ++ (p ++ w1 ++ bw) ++ o :: a') with ((D ++ [o]) ++ a')
      by (subst D; rewrite <- !app_assoc; reflexivity).
    rewrite (src_app _ a'), size_app, K1, (src_app a' _), (size_app (src a')).
    change (src (name :: a2)) with (tx name ++ src a2). rewrite size_app.
    destruct HCall as (Hn & _). pose proof (size_name _ _ Hn). lia.
Qed.

Theorem parse_good ts : Forall tok_ok ts -> Good [] ts (parse ts).
Proof.
  intros H. unfold parse. change (spans 0 (1, 1) ts) with (sp [] ts).
  apply scan_good; [lia|exact H|reflexivity|apply clean_nil].
Qed.
