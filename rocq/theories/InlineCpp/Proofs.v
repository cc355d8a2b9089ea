(** Lemmas for the parser of embedded C++ macros. *)
From Coq Require Import List NArith Arith Bool Ascii String Sorted Lia.
From Verif Require Import InlineCpp.Model InlineCpp.Spec.
Import ListNotations.
Local Open Scope string_scope.
Local Open Scope nat_scope.
Local Open Scope list_scope.

(** ** Texts *)
Lemma len8_eq c : char_bytes c = len8 c.
Proof.
  unfold char_bytes, len8.
  destruct (N.ltb_spec c 128), (N.ltb_spec c 2048), (N.ltb_spec c 65536),
    (N.leb_spec 65536 c), (N.leb_spec 2048 c), (N.leb_spec 128 c); try reflexivity; lia.
Qed.
Lemma len8_pos c : 1 <= len8 c.
Proof.
  unfold len8. destruct (c <? 128)%N, (c <? 2048)%N, (c <? 65536)%N; lia.
Qed.
Lemma size_bytes t : size t = bytes t.
Proof.
  induction t as [|c r IH]; [reflexivity|].
  unfold size in *. change (List.map char_bytes (c :: r)) with (char_bytes c :: List.map char_bytes r).
  change (list_sum (char_bytes c :: List.map char_bytes r))
    with (char_bytes c + list_sum (List.map char_bytes r)).
  rewrite IH, len8_eq. reflexivity.
Qed.
Lemma src_texts ts : src ts = texts ts.
Proof. unfold src, texts. apply flat_map_concat_map. Qed.
Lemma texts_app a b : texts (a ++ b) = texts a ++ texts b.
Proof. unfold texts. rewrite map_app, concat_app. reflexivity. Qed.
Lemma texts_cons t b : texts (t :: b) = tx t ++ texts b.
Proof. reflexivity. Qed.
Lemma bytes_app a b : bytes (a ++ b) = bytes a + bytes b.
Proof. induction a as [|c a IH]; cbn [bytes app]; [reflexivity|]. rewrite IH. lia. Qed.
Lemma size_app a b : size (a ++ b) = size a + size b.
Proof. rewrite !size_bytes. apply bytes_app. Qed.
Lemma src_app a b : src (a ++ b) = src a ++ src b.
Proof. apply flat_map_app. Qed.
Lemma btake_app a b : btake (bytes a) (a ++ b) = a.
Proof.
  induction a as [|c a IH].
  - cbn [bytes app]. destruct b as [|c b]; [reflexivity|]. cbn [btake].
    destruct (Nat.leb_spec (len8 c) 0) as [H|H]; [pose proof (len8_pos c); lia|reflexivity].
  - cbn [bytes app btake].
    destruct (Nat.leb_spec (len8 c) (len8 c + bytes a)) as [H|H]; [|lia].
    replace (len8 c + bytes a - len8 c) with (bytes a) by lia. rewrite IH. reflexivity.
Qed.
Lemma bdrop_app a b : bdrop (bytes a) (a ++ b) = b.
Proof.
  induction a as [|c a IH].
  - cbn [bytes app]. destruct b as [|c b]; [reflexivity|]. cbn [bdrop].
    destruct (Nat.leb_spec (len8 c) 0) as [H|H]; [pose proof (len8_pos c); lia|reflexivity].
  - cbn [bytes app bdrop].
    destruct (Nat.leb_spec (len8 c) (len8 c + bytes a)) as [H|H]; [|lia].
    replace (len8 c + bytes a - len8 c) with (bytes a) by lia. exact IH.
Qed.
Lemma slice_mid a b c : slice (a ++ b ++ c) (bytes a) (bytes a + bytes b) = b.
Proof.
  unfold slice. rewrite <- bytes_app, (app_assoc a b c), btake_app. apply bdrop_app.
Qed.

(** Positions *)
Lemma adv_app p a b : adv p (a ++ b) = adv (adv p a) b.
Proof. revert p. induction a as [|c a IH]; intros p; [reflexivity|]. cbn [app adv]. apply IH. Qed.

Lemma adv_nonl p b : ~ In 10%N b -> adv p b = (fst p, snd p + List.length b).
Proof.
  revert p. induction b as [|c b IH]; intros p H; cbn [adv List.length].
  - destruct p; cbn; f_equal; lia.
  - rewrite IH by (intros K; apply H; right; exact K).
    destruct (N.eqb_spec c newline) as [E|E].
    + exfalso. apply H. left. exact E.
    + cbn [fst snd]. f_equal. lia.
Qed.
Lemma adv_line p t : fst (adv p t) = fst p + count_occ N.eq_dec t 10%N.
Proof.
  revert p. induction t as [|c t IH]; intros p; cbn [adv count_occ]; [lia|].
  rewrite IH. destruct (N.eqb_spec c newline) as [E|E]; destruct (N.eq_dec c 10) as [F|F];
    cbn [fst]; try lia; exfalso; unfold newline in E; congruence.
Qed.
Lemma split_last_nl (t : text) :
  exists a b, t = a ++ b /\ ~ In 10%N b /\ (a = [] \/ exists a', a = a' ++ [10%N]).
Proof.
  induction t as [|c t IH].
  - exists [], []. auto.
  - destruct IH as (a & b & -> & Hb & [-> | [a' ->]]).
    + destruct (N.eq_dec c 10) as [-> |E].
      * exists [10%N], b. split; [reflexivity|]. split; [exact Hb|]. right. exists []. reflexivity.
      * exists [], (c :: b). split; [reflexivity|]. split; [|auto].
        intros [K|K]; [congruence|]. exact (Hb K).
    + exists (c :: a' ++ [10%N]), b. split; [reflexivity|]. split; [exact Hb|].
      right. exists (c :: a'). reflexivity.
Qed.
Lemma adv_col l0 a b : ~ In 10%N b -> (a = [] \/ exists a', a = a' ++ [10%N]) ->
  snd (adv (l0, 1) (a ++ b)) = 1 + List.length b.
Proof.
  intros Hb Ha. rewrite adv_app, adv_nonl by exact Hb. cbn [snd].
  destruct Ha as [-> | [a' ->]].
  - reflexivity.
  - rewrite adv_app. cbn [adv]. destruct (N.eqb_spec 10 newline) as [E|E]; [|elim E; reflexivity].
    reflexivity.
Qed.
Lemma at_adv t l c : At t l c <-> adv (1, 1) t = (l, c).
Proof.
  split.
  - intros (a & b & -> & Hb & Ha & -> & ->).
    rewrite (surjective_pairing (adv _ _)), adv_line, adv_col by assumption. reflexivity.
  - intros E. destruct (split_last_nl t) as (a & b & -> & Hb & Ha).
    exists a, b. split; [reflexivity|]. split; [exact Hb|]. split; [exact Ha|].
    pose proof (f_equal fst E) as E1. rewrite adv_line in E1. cbn [fst] in E1.
    pose proof (f_equal snd E) as E2. rewrite adv_col in E2 by assumption. cbn [snd] in E2.
    split; congruence.
Qed.

(** ** Tokens *)
Lemma tkind_eqb_spec a b : reflect (a = b) (tkind_eqb a b).
Proof. destruct a, b; constructor; congruence. Qed.

Lemma text_eqb_spec a b : reflect (a = b) (text_eqb a b).
Proof.
  revert b. induction a as [|x a IH]; intros [|y b]; cbn [text_eqb]; try (constructor; congruence).
  destruct (N.eqb_spec x y) as [-> |E]; cbn [andb]; [|constructor; congruence].
  destruct (IH b) as [-> |F]; constructor; congruence.
Qed.

Lemma macro_of_some t k : macro_of t = Some k <-> macro_named k t.
Proof.
  unfold macro_of.
  destruct (text_eqb_spec t (T "inline_cpp")) as [E|E].
  { split; [intros K; injection K as <-; exact E|]. subst t.
    destruct k; intros K; [reflexivity| |]; vm_compute in K; discriminate. }
  destruct (text_eqb_spec t (T "global_cpp")) as [F|F].
  { split; [intros K; injection K as <-; exact F|]. subst t.
    destruct k; intros K; [|reflexivity|]; vm_compute in K; discriminate. }
  destruct (text_eqb_spec t (T "DO_NOT_SUBMIT_CPP_DECL")) as [G|G].
  { split; [intros K; injection K as <-; exact G|]. subst t.
    destruct k; intros K; [| |reflexivity]; vm_compute in K; discriminate. }
  split; [discriminate|]. destruct k; cbn [macro_named]; congruence.
Qed.
Lemma macro_of_none t : macro_of t = None <-> forall k, ~ macro_named k t.
Proof.
  split.
  - intros E k K. apply macro_of_some in K. congruence.
  - intros H. destruct (macro_of t) as [k|] eqn:E; [|reflexivity].
    apply macro_of_some in E. elim (H k E).
Qed.

(** The spanned tokens of [rest], after [done]. *)
Definition sp (done rest : list tok) : list stok :=
  spans (bytes (texts done)) (adv (1, 1) (texts done)) rest.
Definition st1 (done : list tok) (t : tok) : stok :=
  St (tk t) (tx t) (bytes (texts done)) (bytes (tx t))
     (fst (adv (1, 1) (texts done))) (snd (adv (1, 1) (texts done))).
Lemma sp_cons done t r : sp done (t :: r) = st1 done t :: sp (done ++ [t]) r.
Proof.
  unfold sp, st1. cbn [spans]. f_equal.
  rewrite texts_app, bytes_app, adv_app. unfold texts at 4 6. cbn [List.map List.concat].
  rewrite app_nil_r. reflexivity.
Qed.
Lemma sp_nil done : sp done [] = [].
Proof. reflexivity. Qed.
Lemma sp_len done r : List.length (sp done r) = List.length r.
Proof. unfold sp. generalize (bytes (texts done)) (adv (1,1) (texts done)).
  induction r as [|t r IH]; intros n p; cbn [spans List.length]; [reflexivity|]. rewrite IH. reflexivity. Qed.
Lemma sp_skip done a r : skipn (List.length a) (sp done (a ++ r)) = sp (done ++ a) r.
Proof.
  revert done. induction a as [|t a IH]; intros done.
  - rewrite app_nil_r. reflexivity.
  - cbn [app List.length]. rewrite sp_cons. cbn [skipn]. rewrite IH, <- app_assoc. reflexivity.
Qed.

(** ** White space *)
Lemma eat_ws_spec done ts :
  exists w r, ts = w ++ r /\ Forall is_space w /\ (forall t r', r = t :: r' -> tk t <> Whitespace)
    /\ eat_ws (sp done ts) = (List.length w, sp (done ++ w) r).
Proof.
  revert done. induction ts as [|t ts IH]; intros done.
  - exists [], []. repeat split; auto. discriminate.
  - rewrite sp_cons. cbn [eat_ws st1 s_kind]. fold (st1 done t).
    destruct (tkind_eqb_spec (tk t) Whitespace) as [E|E].
    + destruct (IH (done ++ [t])) as (w & r & -> & Hw & Hr & ->).
      exists (t :: w), r. split; [reflexivity|]. split; [constructor; assumption|].
      split; [exact Hr|]. rewrite <- app_assoc. reflexivity.
    + exists [], (t :: ts). split; [reflexivity|]. split; [constructor|]. split.
      * intros t' r' K. injection K as -> ->. exact E.
      * rewrite app_nil_r, <- sp_cons. reflexivity.
Qed.
Lemma eat_ws_of done w r : Forall is_space w -> (forall t r', r = t :: r' -> tk t <> Whitespace) ->
  eat_ws (sp done (w ++ r)) = (List.length w, sp (done ++ w) r).
Proof.
  revert done. induction w as [|t w IH]; intros done Hw Hr.
  - cbn [app List.length]. rewrite app_nil_r. destruct r as [|t r]; [reflexivity|].
    rewrite sp_cons. cbn [eat_ws st1 s_kind].
    destruct (tkind_eqb_spec (tk t) Whitespace) as [E|E]; [elim (Hr t r eq_refl E)|reflexivity].
  - pose proof (Forall_inv Hw) as H1. pose proof (Forall_inv_tail Hw) as H2.
    cbn [app List.length]. rewrite sp_cons. cbn [eat_ws st1 s_kind].
    destruct (tkind_eqb_spec (tk t) Whitespace) as [E|E]; [|elim (E H1)].
    rewrite IH by assumption. rewrite <- app_assoc. reflexivity.
Qed.
Lemma ws_split_unique w1 r1 w2 r2 : Forall is_space w1 -> Forall is_space w2 ->
  (forall t r', r1 = t :: r' -> tk t <> Whitespace) -> (forall t r', r2 = t :: r' -> tk t <> Whitespace) ->
  w1 ++ r1 = w2 ++ r2 -> w1 = w2 /\ r1 = r2.
Proof.
  revert w2. induction w1 as [|t w1 IH]; intros [|u w2] H1 H2 R1 R2 E; cbn [app] in E.
  - auto.
  - exfalso. subst r1. apply (R1 u (w2 ++ r2) eq_refl). exact (Forall_inv H2).
  - exfalso. subst r2. apply (R2 t (w1 ++ r1) eq_refl). exact (Forall_inv H1).
  - injection E as -> E. destruct (IH w2 (Forall_inv_tail H1) (Forall_inv_tail H2) R1 R2 E) as [-> ->].
    auto.
Qed.

(** ** Paths *)
Lemma seg_unique k p : Segments k p -> forall k' p' r r', Segments k' p' ->
  p ++ r = p' ++ r' -> k = k' /\ p = p' /\ r = r'.
Proof.
  induction 1 as [t H|t a b q Ht Hn Ha Hb H IH]; intros k' p' r r' H' E.
  - destruct H as [Hi Hk]. destruct H' as [t' [Hi' Hk'] | t' a' b' q' Ht' Hn' Ha' Hb' H'].
    + cbn [app] in E. injection E as -> E.
      apply macro_of_some in Hk, Hk'. assert (k = k') by congruence. subst; auto.
    + cbn [app] in E. injection E as -> E. elim (Hn' k Hk).
  - destruct H' as [t' [Hi' Hk'] | t' a' b' q' Ht' Hn' Ha' Hb' H'].
    + cbn [app] in E. injection E as -> E. elim (Hn k' Hk').
    + cbn [app] in E. injection E as -> -> -> E.
      destruct (IH k' q' r r' H' E) as (-> & -> & ->). auto.
Qed.
Lemma seg_head k p : Segments k p -> exists t q, p = t :: q /\ tk t = Ident.
Proof. destruct 1 as [t [H _]|t a b q H]; eauto. Qed.
Lemma path_unique k p : MacroPath k p -> forall k' p' r r', MacroPath k' p' ->
  p ++ r = p' ++ r' -> k = k' /\ p = p' /\ r = r'.
Proof.
  intros [q H|a b q Ha Hb H] k' p' r r' [q' H'|a' b' q' Ha' Hb' H'] E.
  - exact (seg_unique _ _ H _ _ _ _ H' E).
  - destruct (seg_head _ _ H) as (t & u & -> & K). cbn [app] in E. injection E as -> E. congruence.
  - destruct (seg_head _ _ H') as (t & u & -> & K). cbn [app] in E. injection E as <- E. congruence.
  - cbn [app] in E. injection E as -> -> E.
    destruct (seg_unique _ _ H _ _ _ _ H' E) as (-> & -> & ->). auto.
Qed.
Lemma seg_toks k p : Segments k p -> Forall (fun t => tk t = Ident \/ tk t = Colon) p.
Proof.
  induction 1 as [t [H _]|t a b q]; repeat apply Forall_cons; try apply Forall_nil; auto.
Qed.
Lemma path_toks k p : MacroPath k p -> Forall (fun t => tk t = Ident \/ tk t = Colon) p.
Proof.
  intros [q H|a b q Ha Hb H]; [|apply Forall_cons; [auto|apply Forall_cons; [auto|]]];
    eauto using seg_toks.
Qed.
(** The path ends with its name, and no other token of it is a name. *)
Lemma seg_last k p : Segments k p -> exists i t, p = i ++ [t] /\ NameTok k t
  /\ forall u k', In u i -> ~ NameTok k' u.
Proof.
  induction 1 as [t H|t a b q Ht Hn Ha Hb H (i & u & -> & Hu & Hi)].
  - exists [], t. repeat split; try apply H. intros u k' [].
  - exists (t :: a :: b :: i), u. split; [reflexivity|]. split; [exact Hu|].
    intros v k' [<-|[<-|[<-|K]]].
    + intros [_ K]. exact (Hn k' K).
    + intros [K _]. congruence.
    + intros [K _]. congruence.
    + exact (Hi v k' K).
Qed.
Lemma path_last k p : MacroPath k p -> exists i t, p = i ++ [t] /\ NameTok k t
  /\ forall u k', In u i -> ~ NameTok k' u.
Proof.
  intros [q H|a b q Ha Hb H]; destruct (seg_last _ _ H) as (i & t & -> & Ht & Hi).
  - eauto 6.
  - exists (a :: b :: i), t. split; [reflexivity|]. split; [exact Ht|].
    intros v k' [<-|[<-|K]]; [intros [K _]; congruence|intros [K _]; congruence|exact (Hi v k' K)].
Qed.

Lemma path_loop_some n done ts k m r' : path_loop n (sp done ts) = Some (k, m, r') ->
  exists p r, ts = p ++ r /\ Segments k p /\ m = n + List.length p /\ r' = sp (done ++ p) r.
Proof.
  remember (List.length ts) as L eqn:EL. assert (HL : List.length ts <= L) by lia. clear EL.
  revert n done ts HL. induction L as [|L IH]; intros n done ts HL H.
  - destruct ts; [|cbn in HL; lia]. discriminate.
  - destruct ts as [|t ts]; [discriminate|]. rewrite sp_cons in H. cbn [path_loop st1 s_kind s_text] in H.
    destruct (tkind_eqb_spec (tk t) Ident) as [E|E]; [|discriminate].
    destruct (macro_of (tx t)) as [k0|] eqn:M.
    + injection H as -> <- <-. exists [t], ts. split; [reflexivity|]. split.
      { constructor. split; [exact E|]. apply macro_of_some. exact M. }
      split; reflexivity.
    + destruct ts as [|a [|b ts]]; try discriminate.
      rewrite !sp_cons in H. cbn [st1 s_kind] in H.
      destruct (tkind_eqb_spec (tk a) Colon) as [Ea|Ea]; [|discriminate].
      destruct (tkind_eqb_spec (tk b) Colon) as [Eb|Eb]; [|discriminate]. cbn [andb] in H.
      apply IH in H; [|cbn in HL; lia]. destruct H as (p & r & -> & Hp & -> & ->).
      exists (t :: a :: b :: p), r. split; [reflexivity|]. split.
      { constructor; auto. apply macro_of_none. exact M. }
      split; [cbn [List.length]; lia|]. rewrite <- !app_assoc. reflexivity.
Qed.
Lemma path_loop_of n done p r k : Segments k p ->
  path_loop n (sp done (p ++ r)) = Some (k, n + List.length p, sp (done ++ p) r).
Proof.
  intros H. revert n done. induction H as [t [Hi Hk]|t a b q Ht Hn Ha Hb H IH]; intros n done.
  - cbn [app]. rewrite sp_cons. cbn [path_loop st1 s_kind s_text]. rewrite Hi. cbn [tkind_eqb].
    apply macro_of_some in Hk. rewrite Hk. reflexivity.
  - cbn [app]. rewrite !sp_cons. cbn [path_loop st1 s_kind s_text]. rewrite Ht, Ha, Hb.
    cbn [tkind_eqb andb]. apply macro_of_none in Hn. rewrite Hn, IH.
    f_equal. f_equal; [f_equal; cbn [List.length]; lia|]. rewrite <- !app_assoc. reflexivity.
Qed.

Lemma check_some done ts k n : check_macro_path (sp done ts) = Some (k, n) ->
  exists p w b r, ts = p ++ w ++ b :: r /\ MacroPath k p /\ Forall is_space w /\ tk b = Bang
    /\ n = List.length (p ++ w ++ [b]).
Proof.
  intros H. unfold check_macro_path in H.
  assert (HE : exists q ts0, ts = q ++ ts0 /\ eat_sep (sp done ts) = (List.length q, sp (done ++ q) ts0)
     /\ (forall p, Segments k p -> MacroPath k (q ++ p))).
  { destruct ts as [|a [|b ts]].
    - exists [], []. repeat split. intros p. apply path_rel.
    - exists [], [a]. rewrite sp_cons, sp_nil, app_nil_r. repeat split. intros p. apply path_rel.
    - destruct (tkind_eqb_spec (tk a) Colon) as [Ea|Ea];
      [destruct (tkind_eqb_spec (tk b) Colon) as [Eb|Eb]|].
      + exists [a; b], ts. split; [reflexivity|]. split.
        * rewrite !sp_cons. cbn [eat_sep st1 s_kind]. rewrite Ea, Eb. cbn [tkind_eqb andb].
          rewrite <- app_assoc. reflexivity.
        * intros p. apply path_abs; assumption.
      + exists [], (a :: b :: ts). split; [reflexivity|]. split; [|intros p; apply path_rel].
        rewrite app_nil_r, !sp_cons. cbn [eat_sep st1 s_kind].
        destruct (tkind_eqb_spec (tk b) Colon); [contradiction|]. rewrite andb_false_r. reflexivity.
      + exists [], (a :: b :: ts). split; [reflexivity|]. split; [|intros p; apply path_rel].
        rewrite app_nil_r, !sp_cons. cbn [eat_sep st1 s_kind].
        destruct (tkind_eqb_spec (tk a) Colon); [contradiction|]. reflexivity. }
  destruct HE as (q & ts0 & -> & Eq & HP). rewrite Eq in H.
  destruct (path_loop (List.length q) (sp (done ++ q) ts0)) as [[[k0 m] r']|] eqn:PL; [|discriminate].
  apply path_loop_some in PL. destruct PL as (p & r & -> & Hp & -> & ->).
  destruct (eat_ws_spec ((done ++ q) ++ p) r) as (w & r2 & -> & Hw & Hr2 & EW). rewrite EW in H.
  destruct r2 as [|b r2]; [discriminate|]. rewrite sp_cons in H. cbn [st1 s_kind] in H.
  destruct (tkind_eqb_spec (tk b) Bang) as [Eb|Eb]; [|discriminate]. injection H as -> <-.
  exists (q ++ p), w, b, r2. split; [rewrite <- app_assoc; reflexivity|].
  split; [apply HP; exact Hp|]. split; [exact Hw|]. split; [exact Eb|].
  rewrite !app_length. cbn [List.length]. lia.
Qed.
Lemma check_of done k p w b r : MacroPath k p -> Forall is_space w -> tk b = Bang ->
  check_macro_path (sp done (p ++ w ++ b :: r)) = Some (k, List.length (p ++ w ++ [b])).
Proof.
  intros Hp Hw Hb. unfold check_macro_path.
  assert (HW : forall t r', b :: r = t :: r' -> tk t <> Whitespace).
  { intros t r' K. injection K as <- _. congruence. }
  destruct Hp as [q H|a c q Ha Hc H].
  - assert (E : eat_sep (sp done (q ++ w ++ b :: r)) = (0, sp done (q ++ w ++ b :: r))).
    { destruct (seg_head _ _ H) as (t & u & -> & K). cbn [app].
      destruct (u ++ w ++ b :: r) as [|x y]; rewrite !sp_cons; [reflexivity|].
      cbn [eat_sep st1 s_kind]. rewrite K. reflexivity. }
    rewrite E, (path_loop_of 0 done q (w ++ b :: r) k H), eat_ws_of, sp_cons by assumption.
    cbn [st1 s_kind]. rewrite Hb. cbn [tkind_eqb]. rewrite !app_length. cbn [List.length].
    f_equal. f_equal. lia.
  - cbn [app]. rewrite !sp_cons. cbn [eat_sep st1 s_kind]. rewrite Ha, Hc. cbn [tkind_eqb andb].
    rewrite path_loop_of with (k := k) by exact H. rewrite eat_ws_of, sp_cons by assumption.
    cbn [st1 s_kind]. rewrite Hb. cbn [tkind_eqb List.length]. rewrite !app_length. cbn [List.length].
    f_equal. f_equal. lia.
Qed.

(** ** Braces *)
Lemma bal_app a b : Balanced a -> Balanced b -> Balanced (a ++ b).
Proof.
  induction 1 as [|t l H1 H2 H IH|o x c y Ho Hx IHx Hc Hy IHy]; intros Hb.
  - exact Hb.
  - cbn [app]. constructor; auto.
  - cbn [app]. rewrite <- app_assoc. cbn [app]. apply bal_group; auto.
Qed.
Fixpoint Closes (n : nat) (l : list tok) : Prop :=
  match n with
  | 0 => False
  | 1 => Balanced l
  | S n' => exists b c r, l = b ++ c :: r /\ Balanced b /\ tk c = CloseBrace /\ Closes n' r
  end.
Lemma closes_prepend n x l : Balanced x -> Closes n l -> Closes n (x ++ l).
Proof.
  destruct n as [|[|n]]; cbn [Closes]; intros Hx H; [exact H|apply bal_app; assumption|].
  destruct H as (b & c & r & -> & Hb & Hc & H). exists (x ++ b), c, r.
  rewrite <- app_assoc. split; [reflexivity|]. split; [apply bal_app; assumption|]. auto.
Qed.
Lemma close_some n done ts e r' : 1 <= n -> close_brace n (sp done ts) = Some (e, r') ->
  exists body c after, ts = body ++ c :: after /\ Closes n body /\ tk c = CloseBrace
    /\ e = bytes (texts (done ++ body)) /\ r' = sp (done ++ body ++ [c]) after.
Proof.
  revert n done. induction ts as [|t ts IH]; intros n done Hn H; [discriminate|].
  rewrite sp_cons in H. cbn [close_brace st1 s_kind s_start] in H.
  destruct (tkind_eqb_spec (tk t) OpenBrace) as [Eo|Eo].
  - apply IH in H; [|lia]. destruct H as (body & c & after & -> & HC & Hc & -> & ->).
    exists (t :: body), c, after. split; [reflexivity|]. split.
    + rewrite Nat.add_1_r in HC. destruct n as [|n]; [lia|]. cbn [Closes] in HC.
      destruct HC as (b & c0 & r & -> & Hb & Hc0 & HC).
      assert (R : t :: b ++ c0 :: r = (t :: b ++ c0 :: []) ++ r).
      { cbn [app]. rewrite <- app_assoc. reflexivity. }
      rewrite R. apply closes_prepend; [|exact HC].
      apply bal_group; auto. constructor.
    + split; [exact Hc|]. rewrite <- !app_assoc. split; reflexivity.
  - destruct (tkind_eqb_spec (tk t) CloseBrace) as [Ec|Ec].
    + destruct (Nat.eqb_spec (n - 1) 0) as [E|E].
      * injection H as <- <-. assert (n = 1) by lia. subst n. exists [], t, ts.
        split; [reflexivity|]. split; [constructor|]. split; [exact Ec|].
        rewrite app_nil_r. split; reflexivity.
      * apply IH in H; [|lia]. destruct H as (body & c & after & -> & HC & Hc & -> & ->).
        exists (t :: body), c, after. split; [reflexivity|]. split.
        { destruct n as [|[|n]]; [lia|lia|]. cbn [Closes]. replace (S (S n) - 1) with (S n) in HC by lia.
          exists [], t, body. split; [reflexivity|]. split; [constructor|]. auto. }
        split; [exact Hc|]. rewrite <- !app_assoc. split; reflexivity.
    + apply IH in H; [|lia]. destruct H as (body & c & after & -> & HC & Hc & -> & ->).
      exists (t :: body), c, after. split; [reflexivity|]. split.
      { change (t :: body) with ([t] ++ body). apply closes_prepend; [|exact HC].
        constructor; auto. constructor. }
      split; [exact Hc|]. rewrite <- !app_assoc. split; reflexivity.
Qed.
Lemma close_bal body : Balanced body -> forall n done r, 1 <= n ->
  close_brace n (sp done (body ++ r)) = close_brace n (sp (done ++ body) r).
Proof.
  induction 1 as [|t l H1 H2 H IH|o x c y Ho Hx IHx Hc Hy IHy]; intros n done r Hn.
  - rewrite app_nil_r. reflexivity.
  - cbn [app]. rewrite sp_cons. cbn [close_brace st1 s_kind].
    destruct (tkind_eqb_spec (tk t) OpenBrace); [contradiction|].
    destruct (tkind_eqb_spec (tk t) CloseBrace); [contradiction|].
    rewrite IH by exact Hn. rewrite <- app_assoc. reflexivity.
  - cbn [app]. rewrite sp_cons. cbn [close_brace st1 s_kind]. rewrite Ho. cbn [tkind_eqb].
    rewrite <- app_assoc. cbn [app]. rewrite IHx by lia. rewrite sp_cons.
    cbn [close_brace st1 s_kind s_start]. rewrite Hc. cbn [tkind_eqb].
    replace (n + 1 - 1) with n by lia. destruct (Nat.eqb_spec n 0) as [E|E]; [lia|].
    rewrite IHy by exact Hn. rewrite <- !app_assoc. cbn [app]. reflexivity.
Qed.
Lemma close_none done ts : close_brace 1 (sp done ts) = None ->
  ~ exists body c after, ts = body ++ c :: after /\ Balanced body /\ tk c = CloseBrace.
Proof.
  intros H (body & c & after & -> & Hb & Hc).
  rewrite close_bal in H by (exact Hb || lia). rewrite sp_cons in H.
  cbn [close_brace st1 s_kind s_start] in H. rewrite Hc in H. discriminate.
Qed.
