(** Printed words and colons do not touch. *)
From Coq Require Import List NArith Bool Arith Lia.
From Coq Require Import Strings.String.
From Verif.Common Require Import Str Replace.
From Verif.TokenPrinter Require Import Model Spec.
Import ListNotations.
Local Open Scope N_scope.
Local Open Scope list_scope.

Fixpoint tsize (t : ts) : nat :=
  match t with
  | TNil => 0
  | TIdent _ r | TPunct _ _ r | TLit _ r => S (tsize r)
  | TGroup _ i r => S (tsize i + tsize r)
  end.
Lemma texts_app a b : texts_of (a ++ b) = texts_of a ++ texts_of b.
Proof. apply flat_map_app. Qed.
Lemma words_of_app a b : words_of (a ++ b) = words_of a ++ words_of b.
Proof. apply flat_map_app. Qed.
Lemma colons_of_app a b : colons_of (a ++ b) = colons_of a ++ colons_of b.
Proof. apply flat_map_app. Qed.

Definition last_class (l : class) (cs : list chunk) : class :=
  match rev cs with [] => l | c :: _ => class_of c end.
Lemma last_class_cons l c cs : last_class l (c :: cs) = last_class (class_of c) cs.
Proof. unfold last_class. cbn. destruct (rev cs) eqn:E; reflexivity. Qed.
Lemma separated_app l a b : separated l (a ++ b) <-> separated l a /\ separated (last_class l a) b.
Proof.
  revert l. induction a as [|c a IH]; intro l; cbn [app separated].
  - unfold last_class. cbn. tauto.
  - rewrite IH, last_class_cons. tauto.
Qed.

Definition space_after (prev : option tok) (k : tok) (rest : ts) : bool :=
  match peek rest with Some next => tokens_require_whitespace prev k next | None => false end.
Lemma ordinary_out s prev k text rest :
  out (ordinary s prev k text rest) = out s ++ text ++ (if space_after prev k rest then lit " " else []).
Proof.
  unfold ordinary, space_after. destruct (peek rest) as [next|]; [|cbn; now rewrite app_nil_r].
  destruct (tokens_require_whitespace _ _ _); cbn; now rewrite ?app_nil_r, <- ?app_assoc.
Qed.

(** What must hold before a stream is printed. *)
Definition ready (last : class) (prev : option tok) (fl : bool) (t : ts) : Prop :=
  (last = CWord -> forall k, peek t = Some k -> is_ident_or_literal k = false) /\
  (last = CColon -> fl = true) /\
  (match prev with Some p => get_colon p | None => None end = Some Joint -> head_colon t = false).
Definition result (o o' : str) (last : class) (t : ts) : Prop :=
  exists cs, o' = o ++ texts_of cs /\ words_of cs = words t /\ colons_of cs = colons t /\
             separated last cs /\ Forall gap_ok cs.

Lemma result_gap o o' last g t rest :
  gap_ok (Gap g) -> words t = words rest -> colons t = colons rest ->
  result (o ++ g) o' COther rest -> result o o' last t.
Proof.
  intros G W C (cs & E & Ew & Ec & S & F). exists (Gap g :: cs). cbn [texts_of flat_map text_of words_of colons_of app].
  split; [rewrite E, <- app_assoc; reflexivity|]. split; [rewrite W; exact Ew|]. split; [rewrite C; exact Ec|].
  split; [|now constructor]. cbn. split; [now destruct last|exact S].
Qed.

Lemma placeholder_false id :
  str_eqb id NEWLINE = false -> str_eqb id SPACE = false -> str_eqb id HASH = false -> str_eqb id CAPTURE_TAG = false ->
  str_eqb id CAPTURE_BEGIN = false -> str_eqb id CAPTURE_END = false -> str_eqb id COMMENT = false -> str_eqb id LITERALLY = false ->
  placeholder id = false.
Proof. intros. unfold placeholder, placeholders. cbn [existsb]. now rewrite H, H0, H1, H2, H3, H4, H5, H6. Qed.

Definition word_step (n : nat) : Prop := forall t, (tsize t <= n)%nat -> forall s prev last fl s',
  ready last prev fl t -> tidy fl t = true -> write_stream s prev t = Some s' -> result (out s) (out s') last t.

(** A word, and the space after it. *)
Lemma word_case n : word_step n -> forall s prev last (k : tok) text rest s' t,
  (tsize rest <= n)%nat -> is_ident_or_literal k = true -> last <> CWord -> get_colon k = None ->
  tidy false rest = true ->
  write_stream (ordinary s prev k text rest) (Some k) rest = Some s' ->
  words t = text :: words rest -> colons t = colons rest ->
  result (out s) (out s') last t.
Proof.
  intros IH s prev last k text rest s' t Hn Hk Hl Hc Ht H Hw Hcol.
  destruct (space_after prev k rest) eqn:Es.
  - destruct (IH rest Hn _ (Some k) COther false s' ltac:(split; [discriminate|split; [discriminate|rewrite Hc; discriminate]]) Ht H) as (cs & E & Ew & Ec & S & F).
    rewrite ordinary_out, Es in E. exists (Word text :: Gap (lit " ") :: cs). cbn [texts_of flat_map text_of words_of colons_of app].
    split; [rewrite E, <- !app_assoc; reflexivity|]. split; [rewrite Hw; cbn; f_equal; exact Ew|]. split; [rewrite Hcol; exact Ec|].
    split; [|constructor; [exact I|constructor; [now left|exact F]]]. cbn [separated class_of]. split; [destruct last; cbn; auto; now apply Hl|]. split; [exact I|exact S].
  - assert (R : ready CWord (Some k) false rest).
    { split; [|split; [discriminate|rewrite Hc; discriminate]]. intros _ k' Hk'. unfold space_after in Es. rewrite Hk' in Es.
      unfold tokens_require_whitespace in Es. rewrite Hk in Es. destruct (is_ident_or_literal k'); [discriminate|reflexivity]. }
    destruct (IH rest Hn _ (Some k) CWord false s' R Ht H) as (cs & E & Ew & Ec & S & F).
    rewrite ordinary_out, Es, app_nil_r in E. exists (Word text :: cs). cbn [texts_of flat_map text_of words_of colons_of app].
    split; [rewrite E, <- !app_assoc; reflexivity|]. split; [rewrite Hw; cbn; f_equal; exact Ew|]. split; [rewrite Hcol; exact Ec|].
    split; [|constructor; [exact I|exact F]]. cbn [separated class_of]. split; [destruct last; cbn; auto; now apply Hl|exact S].
Qed.

Lemma ready_other prev fl t : match prev with Some p => get_colon p | None => None end <> Some Joint -> ready COther prev fl t.
Proof. intro H. split; [discriminate|]. split; [discriminate|]. intro. contradiction. Qed.

Lemma colon_no_space prev sp rest : space_after prev (KPunct colon sp) rest =
  match peek rest with
  | None => false
  | Some next => match sp with
                 | Joint => false
                 | Alone => match match prev with Some p => get_colon p | None => None end with
                            | Some Joint => match get_colon next with Some _ => true | None => false end
                            | _ => true end
                 end
  end.
Proof. reflexivity. Qed.
Lemma head_colon_peek t k : peek t = Some k -> head_colon t = match get_colon k with Some _ => true | None => false end.
Proof.
  destruct t; cbn [peek]; intro H; try discriminate; injection H as <-; cbn [head_colon get_colon]; try reflexivity.
  change (ch ":") with colon. now destruct (c =? colon).
Qed.

Theorem write_chunks n : word_step n.
Proof.
  induction n as [|n IH]; intros t Hn s prev last fl s' R T H.
  - destruct t; cbn in Hn; try lia. cbn in H. injection H as <-. exists []. cbn. rewrite app_nil_r. repeat split; constructor.
  - destruct t as [|id rest|c sp rest|text rest|d inner rest].
    + cbn in H. injection H as <-. exists []. cbn. rewrite app_nil_r. repeat split; constructor.
    + cbn [tsize] in Hn. cbn [write_stream] in H.
      destruct (str_eqb_spec id NEWLINE) as [->|N1].
      { apply (IH rest ltac:(lia) _ (Some (KIdent NEWLINE)) COther false) in H; [|now apply ready_other|exact T].
        eapply result_gap; [|reflexivity|reflexivity|exact H]. right. now left. }
      destruct (str_eqb_spec id SPACE) as [->|N2].
      { apply (IH rest ltac:(lia) _ (Some (KIdent SPACE)) COther false) in H; [|now apply ready_other|exact T].
        eapply result_gap; [|reflexivity|reflexivity|exact H]. now left. }
      assert (Hkind : is_ident_or_literal (KIdent id) = true).
      { unfold is_ident_or_literal. destruct (str_eqb_spec id NEWLINE); [congruence|]. destruct (str_eqb_spec id SPACE); [congruence|reflexivity]. }
      assert (Hl : last <> CWord). { intro X. destruct R as [R _]. specialize (R X _ eq_refl). congruence. }
      destruct (str_eqb_spec id HASH) as [->|N3].
      { apply (IH rest ltac:(lia) _ (Some (KIdent HASH)) COther false) in H; [|now apply ready_other|exact T].
        eapply result_gap; [|reflexivity|reflexivity|exact H]. right. right. left. now exists (ch "#"). }
      destruct (str_eqb_spec id CAPTURE_TAG) as [->|N4].
      { destruct rest as [| | |la [| | |lb [| | |lc rest|]|]|]; try discriminate. cbn [tsize] in Hn.
        change (tidy fl (TIdent CAPTURE_TAG (TLit la (TLit lb (TLit lc rest)))) ) with (tidy fl rest) in T.
        apply (IH rest ltac:(lia) _ _ last fl) in H; [exact H| |exact T].
        destruct R as (_ & R2 & _). split; [intro; contradiction|]. split; [exact R2|discriminate]. }
      destruct (str_eqb_spec id CAPTURE_BEGIN) as [->|N5].
      { change (tidy fl (TIdent CAPTURE_BEGIN rest)) with (tidy fl rest) in T.
        apply (IH rest ltac:(lia) _ _ last fl) in H; [exact H| |exact T].
        destruct R as (_ & R2 & _). split; [intro; contradiction|]. split; [exact R2|discriminate]. }
      destruct (str_eqb_spec id CAPTURE_END) as [->|N6].
      { change (tidy fl (TIdent CAPTURE_END rest)) with (tidy fl rest) in T.
        apply (IH rest ltac:(lia) _ _ last fl) in H; [| |exact T].
        - assert (E : out (capture_end s) = out s) by (unfold capture_end; now destruct (last_begin s)). rewrite E in H. exact H.
        - destruct R as (_ & R2 & _). split; [intro; contradiction|]. split; [exact R2|discriminate]. }
      destruct (str_eqb_spec id COMMENT) as [->|N7].
      { destruct rest as [| | |la rest|]; try discriminate. cbn [tsize] in Hn.
        apply (IH rest ltac:(lia) _ (Some (KIdent COMMENT)) COther false) in H; [|now apply ready_other|exact T].
        eapply result_gap; [|reflexivity|reflexivity|exact H]. right. right. right. right. unfold comment_text. eexists. rewrite app_assoc. reflexivity. }
      destruct (str_eqb_spec id LITERALLY) as [->|N8].
      { destruct rest as [| | |la rest|]; try discriminate. cbn [tsize] in Hn.
        apply (IH rest ltac:(lia) _ (Some (KIdent LITERALLY)) COther false) in H; [|now apply ready_other|exact T].
        eapply result_gap; [|reflexivity|reflexivity|exact H]. right. right. right. right. unfold literally_text. eexists. reflexivity. }
      assert (F4 : str_eqb id CAPTURE_TAG = false) by (destruct (str_eqb_spec id CAPTURE_TAG); congruence).
      assert (F5 : str_eqb id CAPTURE_BEGIN = false) by (destruct (str_eqb_spec id CAPTURE_BEGIN); congruence).
      assert (F6 : str_eqb id CAPTURE_END = false) by (destruct (str_eqb_spec id CAPTURE_END); congruence).
      assert (F7 : str_eqb id COMMENT = false) by (destruct (str_eqb_spec id COMMENT); congruence).
      assert (F8 : str_eqb id LITERALLY = false) by (destruct (str_eqb_spec id LITERALLY); congruence).
      eapply word_case; [exact IH| |exact Hkind|exact Hl|reflexivity| |exact H| |reflexivity]; [lia| |].
      * cbn [tidy] in T. rewrite F4, F5, F6 in T. exact T.
      * cbn [words]. rewrite F4, F7, F8. cbn [orb]. rewrite placeholder_false; try assumption; [reflexivity| | |].
        -- destruct (str_eqb_spec id NEWLINE); congruence.
        -- destruct (str_eqb_spec id SPACE); congruence.
        -- destruct (str_eqb_spec id HASH); congruence.
    + cbn [tsize] in Hn. cbn [write_stream] in H. destruct (N.eqb_spec c colon) as [->|Nc].
      * cbn [tidy] in T. rewrite N.eqb_refl in T. apply andb_prop in T as [T1 T2]. apply negb_true_iff in T1. subst fl.
        destruct R as (_ & R2 & R3). assert (Hl : last <> CColon) by (intro X; specialize (R2 X); discriminate).
        assert (Hp : match prev with Some p => get_colon p | None => None end <> Some Joint). { intro X. specialize (R3 X). discriminate R3. }
        destruct (match sp with Joint => head_colon rest | Alone => false end) eqn:Epair.
        -- (* the two halves of a path separator *)
           destruct sp; [discriminate|]. destruct rest as [| |c2 sp2 rest2| |]; try discriminate. cbn [head_colon] in Epair.
           rewrite Epair in T2. apply N.eqb_eq in Epair. subst c2. destruct sp2; [|discriminate].
           cbn [tsize] in Hn. cbn [write_stream] in H.
           set (s1 := ordinary s prev (KPunct colon Joint) [colon] (TPunct colon Alone rest2)) in *.
           assert (E1 : out s1 = out s ++ [colon]) by (unfold s1; rewrite ordinary_out; cbn [space_after peek tokens_require_whitespace is_ident_or_literal andb get_colon]; now rewrite app_nil_r).
           clearbody s1.
           assert (E2 : space_after (Some (KPunct colon Joint)) (KPunct colon Alone) rest2 = head_colon rest2).
           { rewrite colon_no_space. destruct (peek rest2) as [k|] eqn:Ek; [|now destruct rest2]. now rewrite (head_colon_peek _ _ Ek). }
           destruct (head_colon rest2) eqn:Eh; cbn [negb] in T2.
           ++ apply (IH rest2 ltac:(lia) _ _ COther false) in H; [|now apply ready_other|exact T2].
              destruct H as (cs & E & Ew & Ec & S & F). rewrite ordinary_out, E2, E1 in E. exists (Colons 2 :: Gap (lit " ") :: cs).
              cbn [texts_of flat_map text_of words_of colons_of app repeat]. split; [rewrite E, <- !app_assoc; reflexivity|].
              split; [exact Ew|]. split; [cbn [colons]; rewrite N.eqb_refl; f_equal; exact Ec|].
              split; [|constructor; [now right|constructor; [now left|exact F]]]. cbn [separated class_of]. split; [now destruct last|]. split; [exact I|exact S].
           ++ apply (IH rest2 ltac:(lia) _ _ CColon true) in H; [| |exact T2].
              ** destruct H as (cs & E & Ew & Ec & S & F). rewrite ordinary_out, E2, E1, app_nil_r in E. exists (Colons 2 :: cs).
                 cbn [texts_of flat_map text_of words_of colons_of app repeat]. split; [rewrite E, <- !app_assoc; reflexivity|].
                 split; [exact Ew|]. split; [cbn [colons]; rewrite N.eqb_refl; f_equal; exact Ec|].
                 split; [|constructor; [now right|exact F]]. cbn [separated class_of]. split; [now destruct last|exact S].
              ** split; [discriminate|]. split; [reflexivity|discriminate].
        -- assert (Ecol : colons (TPunct colon sp rest) = 1%nat :: colons rest).
           { cbn [colons]. rewrite N.eqb_refl. destruct sp; [reflexivity|]. destruct rest; try reflexivity. cbn [head_colon] in Epair. now rewrite Epair. }
           destruct sp.
           ++ (* a lone colon *)
              destruct (peek rest) as [k|] eqn:Ek.
              ** assert (E2 : space_after prev (KPunct colon Alone) rest = true).
                 { rewrite colon_no_space, Ek. destruct (match prev with Some p => get_colon p | None => None end) as [[]|]; auto. }
                 apply (IH rest ltac:(lia) _ _ COther false) in H; [|now apply ready_other|exact T2].
                 destruct H as (cs & E & Ew & Ec & S & F). rewrite ordinary_out, E2 in E. exists (Colons 1 :: Gap (lit " ") :: cs).
                 cbn [texts_of flat_map text_of words_of colons_of app repeat]. split; [rewrite E, <- !app_assoc; reflexivity|].
                 split; [exact Ew|]. split; [rewrite Ecol; f_equal; exact Ec|].
                 split; [|constructor; [now left|constructor; [now left|exact F]]]. cbn [separated class_of]. split; [now destruct last|]. split; [exact I|exact S].
              ** destruct rest; try discriminate Ek. cbn [write_stream] in H. injection H as <-. rewrite ordinary_out. exists [Colons 1].
                 cbn. split; [reflexivity|]. split; [reflexivity|]. split; [reflexivity|]. split; [split; [now destruct last|exact I]|]. constructor; [now left|constructor].
           ++ apply (IH rest ltac:(lia) _ _ CColon true) in H.
              ** destruct H as (cs & E & Ew & Ec & S & F). rewrite ordinary_out in E.
                 assert (E2 : space_after prev (KPunct colon Joint) rest = false) by (rewrite colon_no_space; now destruct (peek rest)).
                 rewrite E2, app_nil_r in E. exists (Colons 1 :: cs).
                 cbn [texts_of flat_map text_of words_of colons_of app repeat]. split; [rewrite E, <- !app_assoc; reflexivity|].
                 split; [exact Ew|]. split; [rewrite Ecol; f_equal; exact Ec|].
                 split; [|constructor; [now left|exact F]]. cbn [separated class_of]. split; [now destruct last|exact S].
              ** split; [discriminate|]. split; [reflexivity|]. intros _. exact Epair.
              ** destruct rest; try exact T2. cbn [head_colon] in Epair. now rewrite Epair in T2.
      * cbn [tidy] in T. assert (Ec : c =? colon = false) by now apply N.eqb_neq. rewrite Ec in T.
        assert (E2 : space_after prev (KPunct c sp) rest = false).
        { unfold space_after. destruct (peek rest); [|reflexivity]. unfold tokens_require_whitespace. cbn [is_ident_or_literal andb get_colon].
          change (ch ":") with colon. now rewrite Ec. }
        apply (IH rest ltac:(lia) _ _ COther false) in H; [| |exact T].
        -- rewrite ordinary_out, E2, app_nil_r in H. eapply result_gap; [| | |exact H]; [right; right; left; now exists c|reflexivity|cbn [colons]; now rewrite Ec].
        -- apply ready_other. cbn [get_colon]. change (ch ":") with colon. rewrite Ec. discriminate.
    + cbn [tsize] in Hn. cbn [write_stream] in H. cbn [tidy] in T.
      eapply word_case; [exact IH| | | | |exact T|exact H|reflexivity|reflexivity]; [lia|reflexivity| |reflexivity].
      intro X. destruct R as [R _]. specialize (R X _ eq_refl). discriminate.
    + cbn [tsize] in Hn. cbn [write_stream] in H. cbn [tidy] in T.
      assert (Td : d <> NoDelim /\ tidy false inner = true /\ tidy false rest = true) by (destruct d; [| | |discriminate]; apply andb_prop in T as [? ?]; split; (discriminate || auto)).
      destruct Td as (Hd & T1 & T2). destruct (delimiters d) as [o c] eqn:Ed.
      destruct (write_stream (emit s o) None inner) as [s1|] eqn:E1; [|discriminate].
      apply (IH inner ltac:(lia) _ None COther false) in E1; [|now apply ready_other|exact T1].
      apply (IH rest ltac:(lia) _ (Some KGroup) COther false) in H; [|now apply ready_other|exact T2].
      destruct E1 as (cs1 & O1 & W1 & C1 & S1 & F1). destruct H as (cs2 & O2 & W2 & C2 & S2 & F2).
      cbn [emit out] in O1, O2. exists (Gap o :: cs1 ++ Gap c :: cs2).
      cbn [texts_of flat_map text_of words_of colons_of app words colons].
      split; [change (flat_map text_of (cs1 ++ Gap c :: cs2)) with (texts_of (cs1 ++ Gap c :: cs2)); rewrite texts_app, O2, O1; cbn [texts_of flat_map text_of]; rewrite <- !app_assoc; reflexivity|].
      split; [change (words_of (cs1 ++ Gap c :: cs2) = words inner ++ words rest); rewrite words_of_app; cbn [words_of flat_map app]; now rewrite W1, <- W2|].
      split; [change (colons_of (cs1 ++ Gap c :: cs2) = colons inner ++ colons rest); rewrite colons_of_app; cbn [colons_of flat_map app]; now rewrite C1, <- C2|].
      split.
      * cbn [separated class_of]. split; [now destruct last|]. apply separated_app. split; [exact S1|]. cbn [separated class_of].
        split; [now destruct (last_class COther cs1)|exact S2].
      * constructor; [|apply Forall_app; split; [exact F1|constructor; [|exact F2]]]; right; right; right; left; destruct d; cbn in Ed; injection Ed as <- <-; cbn; auto 10; contradiction.
Qed.
