(** The header, the line directives and the check of signatures. *)
From Coq Require Import List NArith Arith Bool Ascii String Sorted Lia ZArith ZifyNat.
From Verif Require Import InlineCpp.Model InlineCpp.Spec InlineCpp.Proofs InlineCpp.Proofs2
  InlineCpp.Names InlineCpp.Proofs3.
Import ListNotations.
Local Open Scope string_scope.
Local Open Scope nat_scope.
Local Open Scope list_scope.

(** ** Numerals *)
Lemma dec_fuel_spec fuel : forall n acc, n < fuel -> exists ds, dec_fuel fuel n acc = ds ++ acc /\ Numeral n ds.
Proof.
  induction fuel as [|fuel IH]; intros n acc Hn; [lia|].
  cbn [dec_fuel]. pose proof (Nat.div_mod n 10 ltac:(lia)) as DM.
  pose proof (Nat.mod_upper_bound n 10 ltac:(lia)) as HM.
  assert (Hd : (48 <= N.of_nat (48 + n mod 10) <= 57)%N) by lia.
  assert (Hv : N.to_nat (N.of_nat (48 + n mod 10) - 48) = n mod 10) by lia.
  destruct (Nat.eqb_spec (n / 10) 0) as [E|E].
  - exists [N.of_nat (48 + n mod 10)]. split; [reflexivity|]. split; [discriminate|].
    split; [constructor; [exact Hd|constructor]|]. cbn [fold_left]. rewrite Hv. lia.
  - destruct (IH (n / 10) (N.of_nat (48 + n mod 10) :: acc)) as (ds & -> & H1 & H2 & H3).
    { assert (n / 10 < n) by (apply Nat.div_lt; lia). lia. }
    exists (ds ++ [N.of_nat (48 + n mod 10)]). split; [rewrite <- app_assoc; reflexivity|].
    split; [destruct ds; discriminate|]. split; [apply Forall_app; split; [exact H2|]; constructor; [exact Hd|constructor]|].
    rewrite fold_left_app, H3. cbn [fold_left]. rewrite Hv. lia.
Qed.
Lemma dec_spec n : Numeral n (dec n).
Proof.
  unfold dec. destruct (dec_fuel_spec (S n) n [] ltac:(lia)) as (ds & -> & H). rewrite app_nil_r. exact H.
Qed.
Lemma line_chunk_spec file m : LineChunk file (m_body_line m) (m_body_col m - 1) (m_body m) (line_chunk file m).
Proof. exists (dec (m_body_line m)). split; [apply dec_spec|reflexivity]. Qed.

(** ** The pieces *)
Definition name_of (target file : text) (m : pmacro) : text :=
  compute_thunk_name target file (N.of_nat (m_line m)) (N.of_nat (m_col m)).

Lemma global_pieces file name ms : exists gl, extract_global_cpp ms file = List.concat gl
  /\ Forall2 (Piece file name) (filter (fun m => negb (is_inline m)) ms) gl.
Proof.
  induction ms as [|m ms (gl & E & H)]; [exists []; split; [reflexivity|constructor]|].
  cbn [extract_global_cpp filter].
  assert (KI : is_inline m = match m_kind m with InlineCpp => true | _ => false end) by reflexivity.
  rewrite KI. clear KI.
  pose proof (line_chunk_spec file m) as L.
  destruct (m_kind m) eqn:K; cbn [negb].
  - exists gl. auto.
  - exists (line_chunk file m :: gl). split; [rewrite E; reflexivity|]. constructor; [|exact H].
    unfold Piece. rewrite K. exact L.
  - exists (line_chunk file m :: gl). split; [rewrite E; reflexivity|]. constructor; [|exact H].
    unfold Piece. rewrite K. exact L.
Qed.
Lemma inl_inj {A B} (x y : A) : @inl A B x = inl y -> x = y.
Proof. congruence. Qed.
Lemma inline_pieces lex file target ms out : extract_inline_cpp lex ms file target = inl out ->
  exists il, out = List.concat il /\ Forall2 (Piece file (name_of target file)) (filter is_inline ms) il
   /\ Forall (fun m => validate (lex (m_body m)) = None) (filter is_inline ms).
Proof.
  revert out. induction ms as [|m ms IH]; intros out H; cbn [extract_inline_cpp] in H.
  - injection H as <-. exists []. repeat split; constructor.
  - cbn [filter]. pose proof (line_chunk_spec file m) as L.
    assert (KI : is_inline m = match m_kind m with InlineCpp => true | _ => false end) by reflexivity.
    rewrite KI. clear KI. destruct (m_kind m) eqn:K.
    + destruct (validate (lex (m_body m))) eqn:V; [discriminate|].
      destruct (extract_inline_cpp lex ms file target) as [o|] eqn:E; [|discriminate].
      apply inl_inj in H. subst out. destruct (IH o eq_refl) as (il & -> & H1 & H2).
      exists ((T "inline auto " ++ name_of target file m ++ [newline] ++ line_chunk file m ++ [newline]) :: il).
      split.
      { clear. unfold name_of.
        generalize (compute_thunk_name target file (N.of_nat (m_line m)) (N.of_nat (m_col m))).
        generalize (line_chunk file m). generalize (T "inline auto "). intros a b c.
        cbn [List.concat]. rewrite <- !app_assoc. reflexivity. }
      split; constructor; auto. unfold Piece. rewrite K. exists (line_chunk file m).
      split; [exact L|reflexivity].
    + exact (IH out H).
    + exact (IH out H).
Qed.
Lemma snippets_spec lex target srcs : forall content, snippets lex srcs target = Some content ->
  exists blocks, content = List.concat blocks
    /\ Forall2 (fun s b => exists ms, parse (snd s) = POk ms
         /\ FileBlock (fst s) (name_of target (fst s)) ms b
         /\ Forall (fun m => validate (lex (m_body m)) = None) (filter is_inline ms)) srcs blocks.
Proof.
  induction srcs as [|[file ts] srcs IH]; intros content H; cbn [snippets] in H.
  - injection H as <-. exists []. split; [reflexivity|constructor].
  - destruct (parse ts) as [ms|] eqn:E; [|discriminate].
    destruct (extract_inline_cpp lex ms file target) as [io|] eqn:EI; [|discriminate].
    destruct (snippets lex srcs target) as [rest|]; [|discriminate].
    injection H as <-. destruct (IH rest eq_refl) as (blocks & -> & HB).
    destruct (inline_pieces _ _ _ _ _ EI) as (il & -> & H1 & H2).
    destruct (global_pieces file (name_of target file) ms) as (gl & -> & H3).
    exists ((List.concat gl ++ List.concat il) :: blocks).
    split; [cbn [List.concat]; rewrite <- app_assoc; reflexivity|].
    constructor; [|exact HB]. exists ms. cbn [fst snd]. split; [exact E|]. split; [|exact H2].
    exists gl, il. auto.
Qed.

(** Each piece starts at the beginning of a line: the chunks end with a newline. *)
Definition ends_nl (t : text) : Prop := t = [] \/ exists a, t = a ++ [10%N].
Lemma ends_nl_app a b : ends_nl a -> ends_nl b -> ends_nl (a ++ b).
Proof.
  intros Ha [-> |[b' ->]]; [rewrite app_nil_r; exact Ha|]. right. exists (a ++ b'). apply app_assoc.
Qed.
Lemma chunk_nl file l pad body t : LineChunk file l pad body t -> ends_nl t.
Proof.
  intros (num & _ & ->). right. exists (T "#line " ++ num ++ T " """ ++ file ++ T """" ++ [10%N]
           ++ repeat 32%N pad ++ body). rewrite <- !app_assoc. reflexivity.
Qed.
Lemma piece_nl file name m t : Piece file name m t -> ends_nl t.
Proof.
  unfold Piece. destruct (m_kind m); [|apply chunk_nl|apply chunk_nl].
  intros (u & _ & ->). right. exists (T "inline auto " ++ name m ++ [10%N] ++ u).
  rewrite <- !app_assoc. reflexivity.
Qed.
Lemma pieces_nl file name ms ts : Forall2 (Piece file name) ms ts -> ends_nl (List.concat ts).
Proof.
  induction 1 as [|m t ms ts H _ IH]; [left; reflexivity|]. cbn [List.concat].
  apply ends_nl_app; [exact (piece_nl _ _ _ _ H)|exact IH].
Qed.
Lemma piece_at file name ms ts m : Forall2 (Piece file name) ms ts -> In m ms ->
  exists a t b, List.concat ts = a ++ t ++ b /\ ends_nl a /\ Piece file name m t.
Proof.
  induction 1 as [|m' t ms ts H HF IH]; intros Hm; [destruct Hm|]. destruct Hm as [<-|Hm].
  - exists [], t, (List.concat ts). split; [reflexivity|]. split; [left; reflexivity|exact H].
  - destruct (IH Hm) as (a & t' & b & E & Ha & Hp). exists (t ++ a), t', b.
    split; [cbn [List.concat]; rewrite E, <- !app_assoc; reflexivity|]. split; [|exact Hp].
    apply ends_nl_app; [exact (piece_nl _ _ _ _ H)|exact Ha].
Qed.
Lemma fileblock_nl file name ms t : FileBlock file name ms t -> ends_nl t.
Proof. intros (gl & il & -> & H1 & H2). apply ends_nl_app; eapply pieces_nl; eassumption. Qed.
Lemma fileblock_at file name ms t m : FileBlock file name ms t -> In m ms ->
  exists a u b, t = a ++ u ++ b /\ ends_nl a /\ Piece file name m u.
Proof.
  intros (gl & il & -> & H1 & H2) Hm.
  destruct (is_inline m) eqn:K.
  - destruct (piece_at _ _ _ _ m H2) as (a & u & b & E & Ha & Hu); [apply filter_In; auto|].
    exists (List.concat gl ++ a), u, b. rewrite E, <- !app_assoc. split; [reflexivity|].
    split; [|exact Hu]. apply ends_nl_app; [eapply pieces_nl; eassumption|exact Ha].
  - destruct (piece_at _ _ _ _ m H1) as (a & u & b & E & Ha & Hu); [apply filter_In; rewrite K; auto|].
    exists a, u, (b ++ List.concat il). rewrite E, <- !app_assoc. auto.
Qed.
Lemma blocks_at {A} (R : A -> text -> Prop) srcs blocks s :
  (forall x b, R x b -> ends_nl b) -> Forall2 R srcs blocks -> In s srcs ->
  exists a b c, List.concat blocks = a ++ b ++ c /\ ends_nl a /\ R s b.
Proof.
  intros HR. induction 1 as [|x t srcs blocks H HF IH]; intros Hs; [destruct Hs|]. destruct Hs as [<-|Hs].
  - exists [], t, (List.concat blocks). split; [reflexivity|]. split; [left; reflexivity|exact H].
  - destruct (IH Hs) as (a & b & c & E & Ha & Hp). exists (t ++ a), b, c.
    split; [cbn [List.concat]; rewrite E, <- !app_assoc; reflexivity|]. split; [|exact Hp].
    apply ends_nl_app; [exact (HR _ _ H)|exact Ha].
Qed.
Lemma header_split content a b : content = a ++ b -> ends_nl a ->
  exists h tl, header content = (h ++ [10%N]) ++ b ++ tl.
Proof.
  intros -> Ha. unfold header.
  destruct Ha as [-> |[a' ->]].
  - exists (T "#ifndef " ++ guard_name ++ [newline] ++ T "#define " ++ guard_name ++ [newline]),
      ([newline] ++ T "#endif  // " ++ guard_name ++ [newline]).
    rewrite <- !app_assoc. reflexivity.
  - exists (T "#ifndef " ++ guard_name ++ [newline] ++ T "#define " ++ guard_name ++ [newline; newline] ++ a'),
      ([newline] ++ T "#endif  // " ++ guard_name ++ [newline]).
    rewrite <- !app_assoc. reflexivity.
Qed.
(** A piece contains its chunk, at the beginning of a line. *)
Lemma piece_chunk file name m u : Piece file name m u -> exists a t b, u = a ++ t ++ b /\ ends_nl a
  /\ LineChunk file (m_body_line m) (m_body_col m - 1) (m_body m) t.
Proof.
  unfold Piece. destruct (m_kind m); intros H.
  - destruct H as (t & Ht & ->). exists (T "inline auto " ++ name m ++ [10%N]), t, [10%N].
    split; [rewrite <- !app_assoc; reflexivity|]. split; [|exact Ht].
    right. exists (T "inline auto " ++ name m). rewrite <- app_assoc. reflexivity.
  - exists [], u, []. split; [rewrite app_nil_r; reflexivity|]. split; [left; reflexivity|exact H].
  - exists [], u, []. split; [rewrite app_nil_r; reflexivity|]. split; [left; reflexivity|exact H].
Qed.

(** ** Presumed positions *)
Lemma adv_shift t : forall l c n, adv (l + n, c) t = (fst (adv (l, c) t) + n, snd (adv (l, c) t)).
Proof.
  induction t as [|d t IH]; intros l c n; [reflexivity|]. cbn [adv fst snd].
  destruct (d =? newline)%N.
  - replace (l + n + 1) with (l + 1 + n) by lia. apply IH.
  - apply IH.
Qed.
Lemma adv_pad n p : adv p (repeat 32%N n) = (fst p, snd p + n).
Proof.
  revert p. induction n as [|n IH]; intros p; cbn [repeat adv]; [destruct p; cbn; f_equal; lia|].
  change (32 =? newline)%N with false. cbn [fst snd]. rewrite IH. cbn [fst snd]. f_equal. lia.
Qed.
Lemma presumed_pad pre b l0 c0 l c : At pre l0 c0 -> At (pre ++ b) l c ->
  PresumedAt l0 (repeat 32%N (c0 - 1) ++ b) l c.
Proof.
  intros H0 H.
  assert (Hc0 : 1 <= c0 /\ 1 <= l0).
  { destruct H0 as (x & y & _ & _ & _ & El & Ec). lia. }
  apply at_adv in H0, H. rewrite adv_app, H0 in H.
  exists (l - l0 + 1).
  assert (E : adv (1 + (l0 - 1), 1) (repeat 32%N (c0 - 1) ++ b) = (l, c)).
  { rewrite adv_app, adv_pad. cbn [fst snd]. replace (1 + (l0 - 1)) with l0 by lia.
    replace (1 + (c0 - 1)) with c0 by lia. exact H. }
  assert (Hle : l0 <= l).
  { pose proof (adv_line (l0, c0) b) as K. rewrite H in K. cbn [fst] in K. lia. }
  rewrite adv_shift in E. split; [|lia]. apply at_adv.
  rewrite (surjective_pairing (adv (1, 1) _)).
  pose proof (f_equal fst E) as E1. pose proof (f_equal snd E) as E2. cbn [fst snd] in E1, E2.
  rewrite E2. f_equal. lia.
Qed.

(** ** Signatures *)
Lemma drop_ws_spec ts : exists w, ts = w ++ drop_ws_toks ts /\ Forall is_space w
  /\ (forall t r, drop_ws_toks ts = t :: r -> tk t <> Whitespace).
Proof.
  induction ts as [|t ts (w & E & Hw & Ht)]; [exists []; repeat split; [constructor|discriminate]|].
  cbn [drop_ws_toks]. destruct (tkind_eqb_spec (tk t) Whitespace) as [K|K].
  - exists (t :: w). split; [cbn [app]; rewrite <- E; reflexivity|]. split; [constructor; assumption|exact Ht].
  - exists []. split; [reflexivity|]. split; [constructor|]. intros t' r X. injection X as <- _. exact K.
Qed.
Lemma drop_ws_of w t r : Forall is_space w -> tk t <> Whitespace -> drop_ws_toks (w ++ t :: r) = t :: r.
Proof.
  induction 1 as [|x w Hx _ IH]; intros Ht; cbn [app drop_ws_toks].
  - destruct (tkind_eqb_spec (tk t) Whitespace); [contradiction|reflexivity].
  - destruct (tkind_eqb_spec (tk x) Whitespace) as [_|K]; [exact (IH Ht)|elim (K Hx)].
Qed.
Lemma pb_app a b : ParBal a -> ParBal b -> ParBal (a ++ b).
Proof.
  induction 1 as [|t l H1 H2 H IH|o x c y Ho Hx IHx Hc Hy IHy]; intros Hb.
  - exact Hb.
  - cbn [app]. apply pb_tok; auto.
  - cbn [app]. rewrite <- app_assoc. cbn [app]. apply pb_group; auto.
Qed.
Fixpoint PCloses (n : nat) (l : list tok) : Prop :=
  match n with
  | 0 => False
  | 1 => ParBal l
  | S n' => exists b c r, l = b ++ c :: r /\ ParBal b /\ tk c = CloseParen /\ PCloses n' r
  end.
Lemma pcloses_prepend n x l : ParBal x -> PCloses n l -> PCloses n (x ++ l).
Proof.
  destruct n as [|[|n]]; cbn [PCloses]; intros Hx H; [exact H|apply pb_app; assumption|].
  destruct H as (b & c & r & -> & Hb & Hc & H). exists (x ++ b), c, r.
  rewrite <- app_assoc. split; [reflexivity|]. split; [apply pb_app; assumption|]. auto.
Qed.
Lemma close_paren_some n ts r' : 1 <= n -> close_paren n ts = Some r' ->
  exists body c, ts = body ++ c :: r' /\ PCloses n body /\ tk c = CloseParen.
Proof.
  revert n. induction ts as [|t ts IH]; intros n Hn H; [discriminate|]. cbn [close_paren] in H.
  destruct (tkind_eqb_spec (tk t) OpenParen) as [Eo|Eo].
  - apply IH in H; [|lia]. destruct H as (body & c & -> & HC & Hc). exists (t :: body), c.
    split; [reflexivity|]. split; [|exact Hc].
    rewrite Nat.add_1_r in HC. destruct n as [|n]; [lia|]. cbn [PCloses] in HC.
    destruct HC as (b & c0 & r & -> & Hb & Hc0 & HC).
    assert (R : t :: b ++ c0 :: r = (t :: b ++ c0 :: []) ++ r) by (cbn [app]; rewrite <- app_assoc; reflexivity).
    rewrite R. apply pcloses_prepend; [|exact HC]. apply pb_group; auto. constructor.
  - destruct (tkind_eqb_spec (tk t) CloseParen) as [Ec|Ec].
    + destruct (Nat.eqb_spec (n - 1) 0) as [E|E].
      * injection H as <-. assert (n = 1) by lia. subst n. exists [], t.
        split; [reflexivity|]. split; [constructor|exact Ec].
      * apply IH in H; [|lia]. destruct H as (body & c & -> & HC & Hc). exists (t :: body), c.
        split; [reflexivity|]. split; [|exact Hc].
        destruct n as [|[|n]]; [lia|lia|]. cbn [PCloses]. replace (S (S n) - 1) with (S n) in HC by lia.
        exists [], t, body. split; [reflexivity|]. split; [constructor|]. auto.
    + apply IH in H; [|lia]. destruct H as (body & c & -> & HC & Hc). exists (t :: body), c.
      split; [reflexivity|]. split; [|exact Hc].
      change (t :: body) with ([t] ++ body). apply pcloses_prepend; [|exact HC].
      apply pb_tok; auto. constructor.
Qed.
Lemma close_paren_bal body : ParBal body -> forall n r, 1 <= n ->
  close_paren n (body ++ r) = close_paren n r.
Proof.
  induction 1 as [|t l H1 H2 H IH|o x c y Ho Hx IHx Hc Hy IHy]; intros n r Hn.
  - reflexivity.
  - cbn [app close_paren]. destruct (tkind_eqb_spec (tk t) OpenParen); [contradiction|].
    destruct (tkind_eqb_spec (tk t) CloseParen); [contradiction|]. apply IH. exact Hn.
  - cbn [app close_paren]. rewrite Ho. cbn [tkind_eqb]. rewrite <- app_assoc. cbn [app].
    rewrite IHx by lia. cbn [close_paren]. rewrite Hc. cbn [tkind_eqb].
    replace (n + 1 - 1) with n by lia. destruct (Nat.eqb_spec n 0) as [E|E]; [lia|]. apply IHy. exact Hn.
Qed.
Lemma upto_brace_spec ts ret : upto_brace ts = Some ret <->
  exists o r, ts = ret ++ o :: r /\ tk o = OpenBrace /\ forall t, In t ret -> tk t <> OpenBrace.
Proof.
  revert ret. induction ts as [|t ts IH]; intros ret; cbn [upto_brace].
  - split; [discriminate|]. intros (o & r & E & _). destruct ret; discriminate.
  - destruct (tkind_eqb_spec (tk t) OpenBrace) as [K|K].
    + split.
      * intros X. injection X as <-. exists t, ts. split; [reflexivity|]. split; [exact K|intros ? []].
      * intros (o & r & E & Ho & Hr). destruct ret as [|x ret]; [reflexivity|].
        cbn [app] in E. injection E as -> _. elim (Hr x (or_introl eq_refl) K).
    + split.
      * intros X. destruct (upto_brace ts) as [q|] eqn:EQ; [|discriminate]. injection X as <-.
        destruct (proj1 (IH q) eq_refl) as (o & r & -> & Ho & Hr). exists o, r.
        split; [reflexivity|]. split; [exact Ho|]. intros x [<-|Hx]; [exact K|exact (Hr x Hx)].
      * intros (o & r & E & Ho & Hr). destruct ret as [|x ret]; cbn [app] in E; injection E as -> E; [contradiction|].
        assert (EQ : upto_brace ts = Some ret).
        { apply IH. exists o, r. split; [exact E|]. split; [exact Ho|]. intros y Hy. apply Hr. right. exact Hy. }
        rewrite EQ. reflexivity.
Qed.

Lemma trim_start_spec t : exists w, t = w ++ trim_start t /\ Forall (fun c => is_ws c = true) w
  /\ (forall c r, trim_start t = c :: r -> is_ws c = false).
Proof.
  induction t as [|c t (w & E & Hw & Ht)]; [exists []; repeat split; [constructor|discriminate]|].
  cbn [trim_start]. destruct (is_ws c) eqn:K.
  - exists (c :: w). split; [cbn [app]; rewrite <- E; reflexivity|]. split; [constructor; assumption|exact Ht].
  - exists []. split; [reflexivity|]. split; [constructor|]. intros c' r X. injection X as <- _. exact K.
Qed.
Lemma trim_start_of w c r : Forall (fun c => is_ws c = true) w -> is_ws c = false ->
  trim_start (w ++ c :: r) = c :: r.
Proof.
  induction 1 as [|x w Hx _ IH]; intros Hc; cbn [app trim_start]; [rewrite Hc; reflexivity|].
  rewrite Hx. exact (IH Hc).
Qed.
Lemma trim_end_spec t : exists w, t = trim_end t ++ w /\ Forall (fun c => is_ws c = true) w.
Proof.
  unfold trim_end. destruct (trim_start_spec (rev t)) as (w & E & Hw & _).
  exists (rev w). split.
  - rewrite <- rev_app_distr, <- E, rev_involutive. reflexivity.
  - apply Forall_rev. exact Hw.
Qed.
Lemma trim_end_keep p c r : is_ws c = false -> exists r', trim_end (p ++ c :: r) = p ++ c :: r'.
Proof.
  intros Hc. destruct (trim_end_spec (p ++ c :: r)) as (w & E & Hw).
  destruct (split_app (trim_end (p ++ c :: r)) w p c r (eq_sym E)) as [(b' & _ & K)|(a' & K & _)].
  - exfalso. rewrite Forall_forall in Hw. specialize (Hw c). rewrite K in Hw.
    rewrite Hw in Hc by (apply in_or_app; right; left; reflexivity). discriminate.
  - exists a'. exact K.
Qed.
Lemma arrow_spec t :
  (text_eqb (trim t) [] || negb (starts_with (T "->") (trim t)) = false)
  <-> exists ws rest, t = ws ++ T "->" ++ rest /\ Forall White ws.
Proof.
  split.
  - intros H. apply orb_false_iff in H. destruct H as [_ H]. apply negb_false_iff in H.
    apply starts_with_spec in H. destruct H as [r E]. unfold trim in E.
    destruct (trim_start_spec t) as (w & Et & Hw & _).
    destruct (trim_end_spec (trim_start t)) as (w2 & Ew & _). rewrite E in Ew.
    exists w, (r ++ w2). split.
    + rewrite Et, Ew, <- app_assoc. reflexivity.
    + eapply Forall_impl; [|exact Hw]. intros c K. apply white_spec. exact K.
  - intros (w & rest & -> & Hw).
    assert (Hw' : Forall (fun c => is_ws c = true) w).
    { eapply Forall_impl; [|exact Hw]. intros c K. apply white_spec. exact K. }
    assert (E : exists r', trim (w ++ T "->" ++ rest) = T "->" ++ r').
    { unfold trim. change (T "->" ++ rest) with (45%N :: 62%N :: rest).
      rewrite trim_start_of; [|exact Hw'|reflexivity].
      destruct (trim_end_keep [45%N] 62%N rest eq_refl) as [r' E]. exists r'. exact E. }
    destruct E as [r' ->]. apply orb_false_iff. split; [reflexivity|].
    apply negb_false_iff. apply starts_with_spec. exists r'. reflexivity.
Qed.

Lemma validate_sig ts : validate ts = None -> Signature ts.
Proof.
  intros H. unfold validate in H. destruct (drop_ws_spec ts) as (w0 & E0 & Hw0 & _).
  destruct (drop_ws_toks ts) as [|op r0] eqn:ED; [discriminate|].
  destruct (tkind_eqb_spec (tk op) OpenParen) as [Hop|Hop]; [|discriminate]. cbn [negb] in H.
  destruct (close_paren 0 (op :: r0)) as [rest|] eqn:CP; [|discriminate].
  cbn [close_paren] in CP. rewrite Hop in CP. cbn [tkind_eqb] in CP. change (0 + 1) with 1 in CP.
  destruct (close_paren_some 1 r0 rest ltac:(lia) CP) as (params & cp & -> & HP & Hcp). cbn [PCloses] in HP.
  destruct (upto_brace rest) as [ret|] eqn:UB; [|discriminate].
  destruct (proj1 (upto_brace_spec _ _) UB) as (ob & r1 & -> & Hob & Hret).
  destruct (drop_ws_spec (rev ts)) as (wl & EL & Hwl & _).
  destruct (drop_ws_toks (rev ts)) as [|cb rl]; [discriminate|].
  destruct (tkind_eqb_spec (tk cb) CloseBrace) as [Hcb|Hcb]; [|discriminate]. cbn [negb] in H.
  cbv zeta in H.
  destruct (text_eqb (trim (texts ret)) [] || negb (starts_with (T "->") (trim (texts ret)))) eqn:HA; [discriminate|].
  apply arrow_spec in HA.
  apply (f_equal (@rev tok)) in EL. rewrite rev_involutive, rev_app_distr in EL. cbn [rev] in EL.
  rewrite <- app_assoc in EL. cbn [app] in EL.
  (* the last token is after the open brace *)
  assert (ER : exists body w1, r1 = body ++ cb :: w1 /\ Forall is_space w1).
  { rewrite EL in E0.
    assert (X : (w0 ++ op :: params ++ cp :: ret ++ [ob]) ++ r1 = rev rl ++ cb :: rev wl).
    { rewrite E0. rewrite <- !app_assoc. cbn [app]. rewrite <- !app_assoc. cbn [app].
      rewrite <- !app_assoc. reflexivity. }
    destruct (split_app _ _ _ _ _ X) as [(b' & _ & K)|(a' & K1 & K2)].
    - exists b', (rev wl). split; [exact K|apply Forall_rev; exact Hwl].
    - exfalso.
      (* then the open brace is the close brace or white space *)
      assert (Y : In ob (cb :: a')).
      { assert (Z : (w0 ++ op :: params ++ cp :: ret) ++ [ob] = rev rl ++ cb :: a').
        { rewrite <- K1. rewrite <- !app_assoc. cbn [app]. rewrite <- !app_assoc. reflexivity. }
        destruct (app_snoc_inv _ _ _ _ Z) as (c' & -> & _); [discriminate|].
        apply in_or_app. right. left. reflexivity. }
      destruct Y as [<-|Y]; [congruence|].
      assert (W : is_space ob).
      { rewrite Forall_forall in Hwl. apply Hwl. apply in_rev. rewrite K2. apply in_or_app. left. exact Y. }
      unfold is_space in W. congruence. }
  destruct ER as (body & w1 & -> & Hw1).
  exists w0, op, params, cp, ret, ob, body, cb, w1.
  split; [exact E0|]. do 8 (split; [assumption|]).
  destruct HA as (ws & rr & E & HWs). exists ws, rr. rewrite src_texts. auto.
Qed.
Lemma sig_validate ts : Signature ts -> validate ts = None.
Proof.
  intros (w0 & op & params & cp & ret & ob & body & cb & w1 & E & Hw0 & Hop & HP & Hcp & Hret & Hob & Hcb & Hw1 & HA).
  unfold validate.
  assert (E1 : drop_ws_toks ts = op :: params ++ cp :: ret ++ ob :: body ++ cb :: w1).
  { rewrite E. apply drop_ws_of; [exact Hw0|]. congruence. }
  rewrite E1. rewrite Hop. cbn [tkind_eqb negb].
  cbn [close_paren]. rewrite Hop. cbn [tkind_eqb]. change (0 + 1) with 1.
  rewrite close_paren_bal by (exact HP || lia). cbn [close_paren]. rewrite Hcp. cbn [tkind_eqb].
  change (1 - 1 =? 0) with true. cbv iota.
  assert (EU : upto_brace (ret ++ ob :: body ++ cb :: w1) = Some ret).
  { apply upto_brace_spec. eauto. }
  rewrite EU.
  assert (E2 : exists q, drop_ws_toks (rev ts) = cb :: q).
  { rewrite E.
    replace (w0 ++ op :: params ++ cp :: ret ++ ob :: body ++ cb :: w1)
      with ((w0 ++ op :: params ++ cp :: ret ++ ob :: body) ++ cb :: w1)
      by (rewrite <- !app_assoc; cbn [app]; rewrite <- !app_assoc; cbn [app]; rewrite <- !app_assoc; reflexivity).
    rewrite rev_app_distr. cbn [rev]. rewrite <- app_assoc. cbn [app]. eexists.
    apply drop_ws_of; [apply Forall_rev; exact Hw1|congruence]. }
  destruct E2 as [q ->]. rewrite Hcb. cbn [tkind_eqb negb]. cbv zeta.
  destruct HA as (ws & rr & EA & HWs).
  assert (HB : text_eqb (trim (texts ret)) [] || negb (starts_with (T "->") (trim (texts ret))) = false).
  { apply arrow_spec. exists ws, rr. rewrite <- src_texts. auto. }
  rewrite HB. reflexivity.
Qed.
