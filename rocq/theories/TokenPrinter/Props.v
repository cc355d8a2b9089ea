(** Property theorems for common/token_stream_printer.rs (C22-C25). *)
From Coq Require Import List NArith Bool Arith Lia.
From Coq Require Import Strings.String.
From Verif.Common Require Import Str Replace.
From Verif.TokenPrinter Require Import Model Spec Chunks Quote Capture.
Import ListNotations.
Local Open Scope N_scope.
Local Open Scope list_scope.

(** ** C22: words and colons do not fuse *)
(** The output of a stream (as made by [quote!]) can be cut into pieces such that the words are
    the words of the stream in order, the runs of colons are its [:] and [::] tokens in order, no two
    words touch, no two runs of colons touch, and what is in between is as described by [gap_ok]. *)
Theorem C22_words_and_colons_kept_apart_partial : forall t o,
  tidy false t = true -> tokens_to_string t = Some o ->
  exists cs, o = texts_of cs /\ words_of cs = words t /\ colons_of cs = colons t /\
             separated COther cs /\ Forall gap_ok cs.
Proof.
  intros t o T H. unfold tokens_to_string in H. destruct (write_stream st_new None t) as [s|] eqn:E; [|discriminate].
  cbn in H. injection H as <-. assert (R : ready COther None false t) by (apply ready_other; discriminate).
  destruct (write_chunks (tsize t) t (le_n _) st_new None COther false s R T E) as (cs & Ho & W). exists cs. split; [exact Ho|exact W].
Qed.
Print Assumptions C22_words_and_colons_kept_apart_partial.
(** A word followed by a word at its own level is followed by a space, in every context (no
    assumption on the stream at all). *)
Definition ordinary_word (t : ts) : option (str * ts) :=
  match t with
  | TIdent id rest => if placeholder id then None else Some (id, rest)
  | TLit text rest => Some (text, rest)
  | _ => None
  end.
Theorem C22_neighbouring_words : forall s prev t w1 w2 rest1 rest2 s',
  ordinary_word t = Some (w1, rest1) -> ordinary_word rest1 = Some (w2, rest2) ->
  write_stream s prev t = Some s' ->
  exists tail, out s' = out s ++ w1 ++ lit " " ++ w2 ++ tail.
Proof.
  assert (A : forall s prev t w rest, ordinary_word t = Some (w, rest) -> exists k, is_ident_or_literal k = true /\ peek t = Some k /\
     write_stream s prev t = write_stream (ordinary s prev k w rest) (Some k) rest).
  { intros s prev t w rest H. destruct t as [|id r|c sp r|x r|d i r]; cbn [ordinary_word] in H; try discriminate.
    - destruct (placeholder id) eqn:P; [discriminate|]. injection H as -> ->. exists (KIdent w).
      unfold placeholder, placeholders in P. cbn [existsb] in P. repeat rewrite orb_false_iff in P. destruct P as (P1 & P2 & P3 & P4 & P5 & P6 & P7 & P8 & _).
      split; [cbn [is_ident_or_literal]; now rewrite P1, P2|]. split; [reflexivity|]. cbn [write_stream]. now rewrite P1, P2, P3, P4, P5, P6, P7, P8.
    - injection H as -> ->. exists KLit. repeat split. }
  assert (B : forall s prev t w rest s', ordinary_word t = Some (w, rest) -> write_stream s prev t = Some s' -> exists tail, out s' = out s ++ w ++ tail).
  { intros s prev t w rest s' H E. destruct (A s prev _ _ _ H) as (k & Hk & _ & X). rewrite X in E. apply write_traced in E as (es & -> & _).
    assert (G : forall es s, exists tl, out (fold_left step es s) = out s ++ tl).
    { clear. induction es as [|e es IH]; intro s; [exists []; now rewrite app_nil_r|]. cbn. destruct (IH (step s e)) as [tl ->].
      destruct e; cbn; try (now exists tl); [exists (s0 ++ tl); now rewrite app_assoc|]. unfold capture_end. destruct (last_begin s); now exists tl. }
    destruct (G es (ordinary s prev k w rest)) as [tl ->]. rewrite ordinary_out. rewrite <- !app_assoc. eexists. reflexivity. }
  intros s prev t w1 w2 rest1 rest2 s' H1 H2 E. destruct (A s prev _ _ _ H1) as (k & Hk & _ & X). rewrite X in E.
  destruct (A s prev _ _ _ H2) as (k2 & Hk2 & P2 & _).
  destruct (B _ _ _ _ _ _ H2 E) as [tl ->]. exists tl. rewrite ordinary_out. unfold space_after. rewrite P2.
  unfold tokens_require_whitespace. rewrite Hk, Hk2. cbn [andb]. now rewrite <- !app_assoc.
Qed.
Print Assumptions C22_neighbouring_words.
(** Without tidiness the words can fuse: a group without delimiters has no space after it. *)
Theorem C22_undelimited_group_fuses_refuted : exists t a b,
  words t = [a; b] /\ a <> [] /\ b <> [] /\ tokens_to_string t = Some (a ++ b).
Proof. exists (TGroup NoDelim (TIdent (lit "a") TNil) (TIdent (lit "b") TNil)), (lit "a"), (lit "b"). repeat split; discriminate. Qed.
Print Assumptions C22_undelimited_group_fuses_refuted.
(** A capture between [::] and [:] lets them fuse, and two punctuation characters that
    were apart can be printed as a comment sign. *)
Theorem C22_capture_fuses_colons_refuted : exists t, colons t = [2; 1]%nat /\ tokens_to_string t = Some (lit ":::").
Proof.
  exists (TPunct colon Joint (TPunct colon Alone (TIdent CAPTURE_BEGIN (TPunct colon Alone TNil)))). split; reflexivity.
Qed.
Print Assumptions C22_capture_fuses_colons_refuted.
Theorem C22_punctuation_fuses_refuted : exists t rest,
  t = TPunct (ch "/") Alone (TPunct (ch "*") Alone rest) /\ tokens_to_string t = Some (lit "/*").
Proof. eexists _, TNil. split; [reflexivity|]. reflexivity. Qed.
Print Assumptions C22_punctuation_fuses_refuted.
(** [a :: b : c { d e } / 1] *)
Example C22_case : let c := TPunct colon in
  let t := TIdent (lit "a") (c Joint (c Alone (TIdent (lit "b") (c Alone (TIdent (lit "c")
             (TGroup Brace (TIdent (lit "d") (TIdent (lit "e") TNil)) (TPunct (ch "/") Alone (TLit (lit "1") TNil)))))))) in
  tidy false t = true /\ words t = [lit "a"; lit "b"; lit "c"; lit "d"; lit "e"; lit "1"] /\ colons t = [2; 1]%nat /\
  tokens_to_string t = Some (lit "a::b: c{ d e }/1").
Proof. repeat split. Qed.

(** ** C23: text printed literally *)
Theorem C23_literally_round_trip_partial : forall name rest,
  (forall name', name <> name' ++ [dquote]) ->
  forall s prev, write_stream s prev (literally_tokens name rest) =
                 write_stream (emit s (name ++ nl)) (Some (KIdent LITERALLY)) rest.
Proof. intros name rest H s prev. unfold literally_tokens. rewrite <- (literally_round_trip name H). reflexivity. Qed.
Print Assumptions C23_literally_round_trip_partial.
Theorem C23_trailing_quote_refuted : forall x,
  tokens_to_string (literally_tokens (x ++ [dquote]) TNil) = Some (x ++ [bslash] ++ nl) /\
  x ++ [bslash] ++ nl <> (x ++ [dquote]) ++ nl.
Proof.
  intro x. split.
  - unfold tokens_to_string, literally_tokens. rewrite <- (literally_ending_in_quote x). reflexivity.
  - rewrite <- app_assoc. intro H. apply app_inv_head in H. discriminate.
Qed.
Print Assumptions C23_trailing_quote_refuted.
Example C23_case : let name := lit "a\" ++ [dquote] ++ lit "\\b" in
  (forall name', name <> name' ++ [dquote]) /\ tokens_to_string (literally_tokens name TNil) = Some (name ++ nl).
Proof.
  split; [|reflexivity]. intros n H. apply (f_equal (fun l => hd 0 (rev l))) in H. cbv beta in H. rewrite (rev_app_distr n [dquote]) in H. change (98 = 34) in H. discriminate.
Qed.

(** ** C24: comments *)
(** A text is all comment: it starts with the comment sign, and after every line break comes the
    sign again or the end. *)
Theorem C24_comment_stays_comment_partial : forall text rest s prev s',
  ~ In 10 text -> write_stream s prev (TIdent COMMENT (TLit text rest)) = Some s' ->
  exists body, write_stream (emit s (body ++ nl)) (Some (KIdent COMMENT)) rest = Some s' /\
    starts (lit "// ") (body ++ nl) /\
    forall a b, body ++ nl = a ++ nl ++ b -> b = [] \/ starts (lit "// ") b.
Proof.
  intros text rest s prev s' H E. change (write_stream (emit s (comment_text text)) (Some (KIdent COMMENT)) rest = Some s') in E.
  destruct (comment_lines text H) as [A B].
  exists (lit "// " ++ str_replace [bslash; ch "n"] (nl ++ lit "// ") (str_replace [bslash; dquote] [dquote] (trim_c dquote text))).
  rewrite <- app_assoc. change (_ ++ _ ++ nl) with (comment_text text) at 1. split; [exact E|]. split; [exact A|exact B].
Qed.
Print Assumptions C24_comment_stays_comment_partial.
(** A string literal with a real line break in it becomes code. *)
Theorem C24_raw_newline_refuted : forall code, code <> [] -> (forall c, In c code -> c <> dquote /\ c <> bslash) ->
  tokens_to_string (TIdent COMMENT (TLit ([dquote] ++ lit "x" ++ nl ++ code ++ [dquote]) TNil)) = Some (lit "// x" ++ nl ++ code ++ nl).
Proof.
  intros code Hne Hc.
  assert (T : trim_c dquote ([dquote] ++ lit "x" ++ nl ++ code ++ [dquote]) = lit "x" ++ nl ++ code).
  { assert (K : lit "x" ++ nl ++ code ++ [dquote] = (lit "x" ++ nl ++ code) ++ [dquote]) by (cbn; reflexivity).
    rewrite K. apply trim_quotes.
    - cbn. intros c s' H. injection H as <- _. discriminate.
    - intros c s' H. destruct (exists_last Hne) as (c0 & e & ->). rewrite !app_assoc in H. apply app_inj_tail in H as [_ <-].
      apply Hc. apply in_or_app. right. now left. }
  assert (R : forall b to s, (forall c, In c s -> c <> bslash) -> str_replace [bslash; b] to s = s).
  { clear. intros b to s. induction s as [|c s IH]; intro H; [now apply replace_nil|]. rewrite replace_no_head; [|apply H; now left]. rewrite IH; [reflexivity|]. intros. apply H. now right. }
  assert (F : forall c, In c (lit "x" ++ nl ++ code) -> c <> bslash).
  { intros c H. apply in_app_or in H as [H|H]; [cbn in H; destruct H as [<-|[]]; discriminate|].
    apply in_app_or in H as [H|H]; [cbn in H; destruct H as [<-|[]]; discriminate|]. now apply Hc. }
  unfold tokens_to_string. change (option_map out (Some (emit st_new (comment_text ([dquote] ++ lit "x" ++ nl ++ code ++ [dquote])))) = Some (lit "// x" ++ nl ++ code ++ nl)).
  cbn [option_map emit out st_new]. f_equal. unfold comment_text. rewrite T; rewrite (R dquote [dquote] _ F); rewrite (R (ch "n") _ _ F). cbn. now rewrite <- ?app_assoc.
Qed.
Print Assumptions C24_raw_newline_refuted.
(** C++ joins a line that ends in a backslash with the next one (translation phase 2), so a
    comment text ending in a backslash comments out the line after it. *)
Fixpoint splice (s : str) : str :=
  match s with
  | [] => []
  | c :: s' => match s' with
               | d :: s'' => if (c =? bslash) && (d =? 10) then splice s'' else c :: splice s'
               | [] => [c]
               end
  end.
Theorem C24_trailing_backslash_refuted : forall next, placeholder next = false ->
  exists o, tokens_to_string (TIdent COMMENT (TLit ([dquote] ++ lit "a\" ++ [dquote]) (TIdent next TNil))) = Some o /\
            o = lit "// a\" ++ nl ++ next /\ splice o = lit "// a" ++ splice next.
Proof.
  intros n P. exists (lit "// a\" ++ nl ++ n). split; [|split; reflexivity]. unfold tokens_to_string. unfold placeholder, placeholders in P. cbn [existsb] in P.
  repeat rewrite orb_false_iff in P. destruct P as (P1 & P2 & P3 & P4 & P5 & P6 & P7 & P8 & _).
  assert (E : comment_text ([dquote] ++ lit "a\" ++ [dquote]) = lit "// a\" ++ nl) by reflexivity.
  change (write_stream st_new None (TIdent COMMENT (TLit ([dquote] ++ lit "a\" ++ [dquote]) (TIdent n TNil))))
    with (write_stream (emit st_new (comment_text ([dquote] ++ lit "a\" ++ [dquote]))) (Some (KIdent COMMENT)) (TIdent n TNil)).
  rewrite E. cbn [write_stream]. rewrite P1, P2, P3, P4, P5, P6, P7, P8. reflexivity.
Qed.
Print Assumptions C24_trailing_backslash_refuted.
Example C24_case : let text := [dquote] ++ lit "one\ntwo" ++ [dquote] in
  ~ In 10 text /\ tokens_to_string (TIdent COMMENT (TLit text TNil)) = Some (lit "// one" ++ nl ++ lit "// two" ++ nl).
Proof. split; [|reflexivity]. cbn. intuition discriminate. Qed.

(** ** C25: captures *)
(** Whatever is printed: the records kept are exactly the captures of the printing history (the
    history prints the output and its placeholders are those of the stream, in order), and the
    recorded offsets cut exactly the captured text out of the output. *)
Theorem C25_records_are_the_captures : forall t s, write_stream st_new None t = Some s ->
  exists es, printed es = out s /\ marks_of es = marks t /\
    forall k v, map_get k (pmap s) = Some v <->
      exists before body p a b c, captures es k before body p a b c /\
        search_start v = List.length p /\ dest_start v = List.length before /\ dest_end v = List.length (before ++ body) /\
        o_path v = clean_literal a /\ o_start v = clean_literal b /\ o_end v = clean_literal c.
Proof.
  intros t s H. apply write_traced in H as (es & -> & M). exists es. split; [symmetry; apply run_out|]. split; [exact M|].
  intros k v. change (fold_left step es st_new) with (run es). rewrite run_records. split; intros (bf & bd & p & a & b & c & C & X); exists bf, bd, p, a, b, c; (split; [exact C|]).
  - subst v. repeat split.
  - destruct v, X as (X1 & X2 & X3 & X4 & X5 & X6). cbn -[clean_literal List.length app] in *. unfold record. now subst.
Qed.
Print Assumptions C25_records_are_the_captures.
Theorem C25_slice_is_the_captured_text : forall es k before body p a b c,
  captures es k before body p a b c ->
  slice (List.length before) (List.length (before ++ body)) (printed es) = body.
Proof. intros es k bf bd p a b c C. destruct (captures_printed _ _ _ _ _ _ _ _ C) as (rest & -> & _). apply slice_mid. Qed.
Print Assumptions C25_slice_is_the_captured_text.
(** A captured identifier: wherever it stands, the capture is the identifier and the space after it. *)
Theorem C25_captured_identifier : forall s prev w rest, placeholder w = false ->
  write_stream s prev (TIdent CAPTURE_BEGIN (TIdent w (TIdent CAPTURE_END rest))) =
  write_stream (capture_end (emit (emit (capture_begin s) w) (lit " "))) (Some (KIdent CAPTURE_END)) rest /\
  (forall v, map_get (index s) (pmap (capture_end (emit (emit (capture_begin s) w) (lit " ")))) = Some v ->
     dest_start v = List.length (out s) /\ dest_end v = List.length (out s ++ w ++ lit " ")).
Proof.
  intros s prev w rest P. unfold placeholder, placeholders in P. cbn [existsb] in P.
  repeat rewrite orb_false_iff in P. destruct P as (P1 & P2 & P3 & P4 & P5 & P6 & P7 & P8 & _). split.
  - change (write_stream s prev (TIdent CAPTURE_BEGIN (TIdent w (TIdent CAPTURE_END rest))))
      with (write_stream (capture_begin s) (Some (KIdent CAPTURE_BEGIN)) (TIdent w (TIdent CAPTURE_END rest))).
    assert (X : forall s prev, write_stream s prev (TIdent w (TIdent CAPTURE_END rest)) =
                write_stream (ordinary s prev (KIdent w) w (TIdent CAPTURE_END rest)) (Some (KIdent w)) (TIdent CAPTURE_END rest)).
    { intros. cbn [write_stream]. rewrite P1, P2, P3, P4, P5, P6, P7, P8. reflexivity. }
    rewrite X. unfold ordinary. cbn [peek]. unfold tokens_require_whitespace. cbn [is_ident_or_literal]. rewrite P1, P2. reflexivity.
  - intros v. unfold capture_end, capture_begin, emit. cbn [last_begin index entry pmap out]. rewrite map_get_insert, Nat.eqb_refl.
    intro H. injection H as <-. cbn. now rewrite <- app_assoc.
Qed.
Print Assumptions C25_captured_identifier.
(** A record is resolved without a panic, to an index that finds the token where it was printed,
    provided the token cannot be mistaken for something that starts before it. *)
Theorem C25_index_finds_the_token_partial : forall ws es k before body p a b c mid lead trail,
  captures es k before body p a b c -> body <> [] -> before = p ++ mid ->
  stands_at ws before body lead (trim_ws ws body) trail ->
  (trim_ws ws body <> [] -> clean_start (trim_ws ws body) (mid ++ lead)) ->
  exists i, resolve ws (printed es) (record before body p a b c) =
              Some (Some (Sub (trim_ws ws body) i (clean_literal a) (clean_literal b) (clean_literal c))) /\
            (trim_ws ws body <> [] ->
             nth_error (match_indices (trim_ws ws body) (skipn (List.length p) (printed es))) i = Some (List.length (mid ++ lead))).
Proof.
  intros ws es k bf bd p a b c mid lead trail C Hb -> St Cl. destruct (captures_printed _ _ _ _ _ _ _ _ C) as (rest & -> & _).
  rewrite <- app_assoc. now apply resolve_found with (trail := trail).
Qed.
Print Assumptions C25_index_finds_the_token_partial.
(** If that holds of every capture, printing does not panic, and the map returned has one entry per
    capture that is not empty and not started before its tag. *)
Lemma run_map_nodup es : NoDup (map fst (pmap (run es))).
Proof.
  induction es as [|e es IH] using rev_ind; [constructor|]. rewrite run_snoc.
  destruct e; cbn; try exact IH. unfold capture_end. destruct (last_begin (run es)); [|exact IH]. cbn [pmap map_insert map fst].
  assert (G : forall (m : list (nat * gen)) k, NoDup (map fst m) -> NoDup (k :: map fst (filter (fun q => negb (Nat.eqb (fst q) k)) m))).
  { clear. intros m k. induction m as [|[k1 v1] m IH]; intro H; cbn; [repeat constructor; tauto|]. inversion H as [|? ? Hn Hm]; subst.
    specialize (IH Hm). destruct (Nat.eqb_spec k1 k); cbn; [exact IH|]. inversion IH as [|? ? Hk Hf]; subst. constructor.
    - cbn. intros [X|X]; [congruence|contradiction].
    - constructor; [|exact Hf]. intro X. apply Hn. apply in_map_iff in X as (q & Q1 & Q2). apply in_map_iff. exists q. split; [exact Q1|]. now apply filter_In in Q2. }
  now apply G.
Qed.
Lemma map_get_in {A} k (v : A) m : NoDup (map fst m) -> (map_get k m = Some v <-> In (k, v) m).
Proof.
  induction m as [|[k1 v1] m IH]; intro H; cbn; [split; [discriminate|tauto]|]. inversion H as [|? ? Hn Hm]; subst. destruct (Nat.eqb_spec k1 k) as [->|Hne].
  - split; [intro X; injection X as ->; now left|]. intros [X|X]; [congruence|]. exfalso. apply Hn. apply (in_map fst) in X. exact X.
  - rewrite IH by exact Hm. split; [now right|]. intros [X|X]; [congruence|exact X].
Qed.
Lemma resolve_all_some ws o m : (forall k v, In (k, v) m -> resolve ws o v <> None) ->
  exists l, resolve_all ws o m = Some l /\ forall k x, In (k, x) l <-> exists v, In (k, v) m /\ resolve ws o v = Some (Some x).
Proof.
  induction m as [|[k1 v1] m IH]; intro H; cbn.
  - exists []. split; [reflexivity|]. intros. cbn. split; [tauto|]. intros (v & [] & _).
  - destruct IH as (l & -> & G); [intros; eapply H; right; eassumption|]. destruct (resolve ws o v1) as [[x1|]|] eqn:E.
    + eexists. split; [reflexivity|]. intros k x. cbn. rewrite G. split.
      * intros [X|(v & X & Y)]; [injection X as <- <-; exists v1; auto|]. exists v. auto.
      * intros (v & [X|X] & Y); [injection X as <- <-; left; congruence|right; now exists v].
    + exists l. split; [reflexivity|]. intros k x. rewrite G. split.
      * intros (v & X & Y). exists v. auto.
      * intros (v & [X|X] & Y); [injection X as <- <-; congruence|now exists v].
    + exfalso. apply (H k1 v1); [now left|exact E].
Qed.
Theorem C25_no_panic_partial : forall ws t s, write_stream st_new None t = Some s ->
  exists es, printed es = out s /\ marks_of es = marks t /\
  ((forall k before body p a b c, captures es k before body p a b c -> body <> [] -> (List.length p <= List.length before)%nat ->
     forall mid lead trail, before = p ++ mid -> stands_at ws before body lead (trim_ws ws body) trail -> trim_ws ws body <> [] ->
     clean_start (trim_ws ws body) (mid ++ lead)) ->
  exists l, tokens_to_string_with_provenance ws t = Some (Some (out s, l)) /\
    forall k, (exists x, In (k, x) l) <->
      exists before body p a b c, captures es k before body p a b c /\ body <> [] /\ (List.length p <= List.length before)%nat).
Proof.
  intros ws t s W. pose proof W as W0. apply write_traced in W0 as (es & -> & M0). exists es. split; [symmetry; apply run_out|]. split; [exact M0|].
  intro H. change (fold_left step es st_new) with (run es) in *. unfold tokens_to_string_with_provenance. rewrite W.
  assert (K : forall k before body p a b c, captures es k before body p a b c ->
     (body = [] \/ (List.length before < List.length p)%nat -> resolve ws (printed es) (record before body p a b c) = Some None) /\
     (body <> [] -> (List.length p <= List.length before)%nat -> exists x, resolve ws (printed es) (record before body p a b c) = Some (Some x))).
  { intros k bf bd p a b c C. split.
    - intro X. unfold resolve, record. cbn [dest_end dest_start search_start]. destruct X as [->|X].
      + rewrite app_nil_r, Nat.leb_refl. reflexivity.
      + apply Nat.ltb_lt in X. rewrite X, orb_true_r. reflexivity.
    - intros Hb Hle. destruct (captures_printed _ _ _ _ _ _ _ _ C) as (rest & Eo & q & Eq).
      assert (M : exists mid, bf = p ++ mid).
      { clear - Hle Eq. revert bf Hle Eq. induction p as [|x p IH]; intros bf Hle Eq; [now exists bf|].
        destruct bf as [|y bf]; [cbn in Hle; lia|]. cbn in Eq. injection Eq as -> Eq. destruct (IH bf) as [mid ->]; [cbn in Hle; lia|exact Eq|]. now exists mid. }
      destruct M as [mid Em]. destruct (trim_ws_spec ws bf bd) as (lead & trail & St).
      destruct (C25_index_finds_the_token_partial ws _ _ _ _ _ _ _ _ _ _ _ C Hb Em St) as (i & R & _); [|eauto].
      intro Ht. eapply H; eauto. }
  rewrite run_out.
  destruct (resolve_all_some ws (printed es) (pmap (run es))) as (l & -> & G).
  { intros k v Hin. apply map_get_in in Hin; [|apply run_map_nodup]. apply run_records in Hin as (bf & bd & p & a & b & c & C & ->).
    destruct (K _ _ _ _ _ _ _ C) as [K1 K2]. destruct bd as [|x bd]; [rewrite K1; [discriminate|now left]|].
    destruct (le_lt_dec (List.length p) (List.length bf)) as [L|L]; [|rewrite K1; [discriminate|now right]].
    destruct K2 as [y ->]; [discriminate|exact L|]. discriminate. }
  exists l. split; [reflexivity|]. intro k. split.
  - intros (x & Hx). apply G in Hx as (v & Hin & R). apply map_get_in in Hin; [|apply run_map_nodup]. apply run_records in Hin as (bf & bd & p & a & b & c & C & ->).
    destruct (K _ _ _ _ _ _ _ C) as [K1 _]. exists bf, bd, p, a, b, c. split; [exact C|]. split.
    + intros ->. rewrite K1 in R; [discriminate|now left].
    + destruct (le_lt_dec (List.length p) (List.length bf)) as [L|L]; [exact L|]. rewrite K1 in R; [discriminate|now right].
  - intros (bf & bd & p & a & b & c & C & Hb & Hle). destruct (K _ _ _ _ _ _ _ C) as [_ K2]. destruct (K2 Hb Hle) as [x R].
    exists x. apply G. exists (record bf bd p a b c). split; [|exact R]. apply map_get_in; [apply run_map_nodup|]. apply run_records. now exists bf, bd, p, a, b, c.
Qed.
Print Assumptions C25_no_panic_partial.
(** Otherwise it can panic: a capture of [++] after a [+]. *)
Definition panic_stream : ts :=
  TIdent CAPTURE_TAG (TLit (lit "p") (TLit (lit "1") (TLit (lit "2")
    (TPunct (ch "+") Alone (TIdent CAPTURE_BEGIN (TPunct (ch "+") Alone (TPunct (ch "+") Alone (TIdent CAPTURE_END TNil)))))))).
Theorem C25_straddling_match_panics_refuted : forall ws, ws (ch "+") = false ->
  tokens_to_string panic_stream = Some (lit "+++") /\ tokens_to_string_with_provenance ws panic_stream = Some None.
Proof.
  intros ws H. split; [reflexivity|]. unfold tokens_to_string_with_provenance.
  change (write_stream st_new None panic_stream) with (Some (St (lit "+++") (Some 1%nat) 1 (Gen 0 0 0 (lit "p") (lit "1") (lit "2")) [(1%nat, Gen 0 1 3 (lit "p") (lit "1") (lit "2"))])).
  cbn [resolve_all out pmap]. unfold resolve. cbn [dest_start dest_end search_start Nat.leb Nat.ltb orb].
  change (slice 1 3 (lit "+++")) with (lit "++"). assert (E : trim_ws ws (lit "++") = lit "++") by (unfold trim_ws; cbn; change 43 with (ch "+"); rewrite H; cbn; change 43 with (ch "+"); now rewrite H).
  rewrite E. reflexivity.
Qed.
Print Assumptions C25_straddling_match_panics_refuted.

(** After formatting: every span put in the map lies at or after its marker, spells its token, and
    carries the origin recorded for its tag. *)
Theorem C25_formatted_spans_spell_tokens : forall content pattern m tag f,
  In (tag, f) (fix_provenance_map_postformatting content pattern m) ->
  exists n o v, tag = S n /\ nth_error (match_indices pattern content) n = Some o /\ map_get tag m = Some v /\ s_text v <> [] /\
    (o <= fo_start f)%nat /\ slice (fo_start f) (fo_end f) content = s_text v /\
    fo_path f = s_path v /\ fo_ostart f = s_start v /\ fo_oend f = s_end v.
Proof.
  intros content pattern m tag f. unfold fix_provenance_map_postformatting.
  assert (G : forall offs t0, In (tag, f) (fix_loop content offs t0 m) ->
    exists n o v, tag = S (t0 + n) /\ nth_error offs n = Some o /\ map_get tag m = Some v /\ s_text v <> [] /\
    (o <= fo_start f)%nat /\ slice (fo_start f) (fo_end f) content = s_text v /\
    fo_path f = s_path v /\ fo_ostart f = s_start v /\ fo_oend f = s_end v).
  { induction offs as [|o offs IH]; intros t0 H; [destruct H|]. cbn [fix_loop] in H.
    assert (More : In (tag, f) (fix_loop content offs (S t0) m) -> exists n o0 v, tag = S (t0 + n) /\ nth_error (o :: offs) n = Some o0 /\ map_get tag m = Some v /\ s_text v <> [] /\
      (o0 <= fo_start f)%nat /\ slice (fo_start f) (fo_end f) content = s_text v /\ fo_path f = s_path v /\ fo_ostart f = s_start v /\ fo_oend f = s_end v).
    { intro X. destruct (IH _ X) as (n & o' & v & -> & Y). exists (S n), o', v. split; [lia|]. exact Y. }
    destruct (map_get (S t0) m) as [v|] eqn:Em; [|now apply More]. destruct (s_text v) as [|c tx] eqn:Et; [now apply More|].
    destruct (nth_error _ (s_index v)) as [i|] eqn:En; [|now apply More]. destruct H as [H|H]; [|now apply More].
    injection H as <- <-. exists 0%nat, o, v. split; [lia|]. split; [reflexivity|]. split; [exact Em|]. split; [congruence|].
    cbn [fo_start fo_end fo_path fo_ostart fo_oend]. split; [lia|]. split; [|repeat split].
    apply nth_error_In in En. apply match_indices_sound in En as (u & w & Eu & ->). rewrite <- (firstn_skipn o content). rewrite Eu, Et.
    assert (Lo : (o <= List.length content)%nat).
    { destruct (le_lt_dec o (List.length content)); [assumption|]. rewrite skipn_all2 in Eu by lia. destruct u; discriminate. }
    replace (List.length u + o)%nat with (List.length (firstn o content ++ u)) by (rewrite app_length, firstn_length; lia).
    replace (List.length (firstn o content ++ u) + S (List.length tx))%nat with (List.length ((firstn o content ++ u) ++ (c :: tx))) by (rewrite (app_length _ (c :: tx)); reflexivity).
    rewrite (app_assoc (firstn o content)). apply slice_mid. }
  intro H. apply (G _ 0%nat) in H. exact H.
Qed.
Print Assumptions C25_formatted_spans_spell_tokens.
(** If the formatter changed nothing after the [k]-th marker, the span of tag [k] is exactly the
    place where the token was printed. *)
Theorem C25_formatted_span_is_exact_partial : forall content pattern out p mid lead tok rest i path a b m n o,
  out = p ++ mid ++ lead ++ tok ++ rest -> tok <> [] ->
  map_get (S n) m = Some (Sub tok i path a b) ->
  nth_error (match_indices tok (skipn (List.length p) out)) i = Some (List.length (mid ++ lead)) ->
  nth_error (match_indices pattern content) n = Some o ->
  skipn o content = skipn (List.length p) out ->
  In (S n, FmtOff (List.length (mid ++ lead) + o) (List.length (mid ++ lead) + o + List.length tok) path a b)
     (fix_provenance_map_postformatting content pattern m).
Proof.
  intros content pattern out p mid lead tok rest i path a b m n o _ Ht Em Ei Eo Es. unfold fix_provenance_map_postformatting.
  assert (G : forall offs t0 n0, (t0 + n0 = n)%nat -> nth_error offs n0 = Some o ->
    In (S n, FmtOff (List.length (mid ++ lead) + o) (List.length (mid ++ lead) + o + List.length tok) path a b) (fix_loop content offs t0 m)).
  { induction offs as [|o1 offs IH]; intros t0 n0 E H; [destruct n0; discriminate|]. cbn [fix_loop]. destruct n0 as [|n0].
    - cbn in H. injection H as ->. replace t0 with n by lia. rewrite Em. cbn [s_text s_index s_path s_start s_end]. destruct tok as [|c tok]; [contradiction|].
      rewrite Es, Ei. now left.
    - assert (X : In (S n, FmtOff (List.length (mid ++ lead) + o) (List.length (mid ++ lead) + o + List.length tok) path a b) (fix_loop content offs (S t0) m))
        by (apply (IH _ n0); [lia|exact H]).
      destruct (map_get (S t0) m) as [v|]; [|exact X]. destruct (s_text v) as [|c0 t1]; [exact X|]. destruct (nth_error (match_indices (c0 :: t1) (skipn o1 content)) (s_index v)) as [f0|]; [right; exact X|exact X]. }
  now apply (G _ 0%nat n).
Qed.
Print Assumptions C25_formatted_span_is_exact_partial.
(** TAG "p" "1" "2" a BEGIN a END b *)
Example C25_case : let sp := fun c => c =? ch " " in
  tokens_to_string_with_provenance sp
    (TIdent CAPTURE_TAG (TLit (lit "p") (TLit (lit "1") (TLit (lit "2") (TIdent (lit "a") (TIdent CAPTURE_BEGIN (TIdent (lit "a")
       (TIdent CAPTURE_END (TIdent (lit "b") TNil))))))))) =
  Some (Some (lit "a a b", [(1%nat, Sub (lit "a") 1 (lit "p") (lit "1") (lit "2"))])) /\
  captures [Tag (lit "p") (lit "1") (lit "2"); Text (lit "a "); Begin; Text (lit "a "); End; Text (lit "b")] 1 (lit "a ") (lit "a ") [] (lit "p") (lit "1") (lit "2") /\
  clean_start (lit "a") (lit "a ").
Proof.
  split; [reflexivity|]. split.
  - exists [Tag (lit "p") (lit "1") (lit "2"); Text (lit "a "); Begin; Text (lit "a ")], [Text (lit "b")].
    split; [reflexivity|]. split; [reflexivity|]. split; [right; exists [], [Text (lit "a "); Begin; Text (lit "a ")]; repeat split|]. split.
    + exists [Tag (lit "p") (lit "1") (lit "2"); Text (lit "a ")], [Text (lit "a ")]. split; [reflexivity|]. split; [cbn; intuition discriminate|]. split; reflexivity.
    + intros [|x u] v H; [discriminate|]. destruct u; discriminate.
  - right. exists (lit "a"), (ch " "). split; [reflexivity|]. cbn. intuition discriminate.
Qed.
Example C25_fix_case : fix_provenance_map_postformatting (lit "@ a a b") (lit "@") [(1%nat, Sub (lit "a") 1 (lit "p") (lit "1") (lit "2"))]
  = [(1%nat, FmtOff 4 5 (lit "p") (lit "1") (lit "2"))].
Proof. reflexivity. Qed.
