(** Properties of the extraction of C++ from Rust files (C143-C149). *)
From Coq Require Import List NArith Arith Bool Ascii String Sorted Lia.
From Verif Require Import InlineCpp.Model InlineCpp.Spec InlineCpp.Proofs InlineCpp.Proofs2
  InlineCpp.Hash InlineCpp.Names InlineCpp.Proofs3 InlineCpp.Proofs4.
Import ListNotations.
Local Open Scope string_scope.
Local Open Scope nat_scope.
Local Open Scope list_scope.

(** Tokens for the examples. *)
Definition I s := Tok Ident (T s).
Definition W s := Tok Whitespace (T s).
Definition O s := Tok OtherTok (T s).
Definition C s := Tok Comment (T s).
Definition NL := Tok Whitespace [10%N].
Definition colon := Tok Colon (T ":").
Definition bang := Tok Bang (T "!").
Definition lb := Tok OpenBrace (T "{").
Definition rb := Tok CloseBrace (T "}").
Definition lp := Tok OpenParen (T "(").
Definition rp := Tok CloseParen (T ")").

Definition tok_okb (t : tok) : bool :=
  negb (text_eqb (tx t) [])
  && (negb (tkind_eqb (tk t) OpenBrace) || text_eqb (tx t) [123%N])
  && (negb (tkind_eqb (tk t) CloseBrace) || text_eqb (tx t) [125%N]).
Lemma tok_okb_ok ts : forallb tok_okb ts = true -> Forall tok_ok ts.
Proof.
  intros H. apply Forall_forall. intros t Ht. rewrite forallb_forall in H. specialize (H t Ht).
  unfold tok_okb in H. apply andb_prop in H. destruct H as [H H3]. apply andb_prop in H. destruct H as [H1 H2].
  split.
  - intros K. rewrite K in H1. discriminate.
  - split; intros K; rewrite K in *; cbn [tkind_eqb negb orb] in *.
    + destruct (text_eqb_spec (tx t) [123%N]); [assumption|discriminate].
    + destruct (text_eqb_spec (tx t) [125%N]); [assumption|discriminate].
Qed.

(** ** C143: the embedded blocks are found *)

(** Everything reported is really there, with its coordinates, in source order and
    without overlap; every call with braces and only white space between its
    tokens is reported or is inside the body of a reported one; and an error is
    reported only when a block is not closed. *)
Theorem C143_blocks_found_partial : forall ts, Forall tok_ok ts ->
  match parse ts with
  | POk ms =>
      Forall (Describes ts) ms /\ StronglySorted Before ms
      /\ forall pre k name w1 bang w2 o rest,
           ts = pre ++ name :: w1 ++ bang :: w2 ++ o :: rest -> Call k name w1 bang w2 o ->
           exists m, In m ms /\ Covered k pre (name :: w1 ++ bang :: w2 ++ [o]) m
  | PErr line => Unclosed ts line
  end.
Proof.
  intros ts Hok. pose proof (parse_good ts Hok) as G. destruct (parse ts) as [ms|l]; cbn [Good app] in G; [|exact G].
  destruct G as (G1 & G2 & _ & G4). split; [exact G1|]. split; [exact G2|exact G4].
Qed.
Print Assumptions C143_blocks_found_partial.

(** A block that is not closed makes the whole file an error: a file without error
    has no unclosed call outside the bodies of the reported blocks.  (The call of
    an unclosed block cannot be reported: what is reported has a closing brace.) *)
Theorem C143_no_silent_unclosed_partial : forall ts ms, Forall tok_ok ts -> parse ts = POk ms ->
  forall pre k name w1 bang w2 o rest,
    ts = pre ++ name :: w1 ++ bang :: w2 ++ o :: rest -> Call k name w1 bang w2 o ->
    ~ (exists body c after, rest = body ++ c :: after /\ Balanced body /\ tk c = CloseBrace) ->
    exists m, In m ms /\ m_body_start m <= size (src pre) /\ size (src pre) < m_body_end m.
Proof.
  intros ts ms Hok EP pre k name w1 bg w2 o rest E HC HN.
  pose proof (parse_good ts Hok) as G. rewrite EP in G. cbn [Good app] in G.
  destruct G as (G1 & _ & _ & G4). destruct (G4 pre k name w1 bg w2 o rest E HC) as (m & Hm & [[Hk Hs]|Hc]).
  2:{ exists m. auto. }
  exfalso. rewrite Forall_forall in G1. specialize (G1 m Hm).
  destruct G1 as (b & p & v1 & g & v2 & o' & body & c & after & E2 & Hp & _ & Hv1 & Hg & Hv2 & Ho' & Hb & Hc & S0 & _ & S1 & _).
  rewrite Hs in S1.
  (* the same number of bytes, so the same tokens *)
  assert (X : (pre ++ name :: w1 ++ bg :: w2 ++ [o]) ++ rest
            = (b ++ p ++ v1 ++ g :: v2 ++ [o']) ++ body ++ c :: after).
  { transitivity ts.
    - rewrite E, <- !app_assoc. cbn [app]. rewrite <- !app_assoc. cbn [app]. rewrite <- !app_assoc. reflexivity.
    - rewrite E2, <- !app_assoc. cbn [app]. rewrite <- ?app_assoc. reflexivity. }
  apply HN. exists body, c, after. split; [|auto].
  assert (Hpos : forall l : list tok, Forall tok_ok l -> size (src l) = 0 -> l = []).
  { intros [|t l] Hl Hz; [reflexivity|]. exfalso. pose proof (Forall_inv Hl) as (K & _).
    change (src (t :: l)) with (tx t ++ src l) in Hz. rewrite size_app in Hz.
    destruct (tx t) as [|d r]; [congruence|].
    change (d :: r) with ([d] ++ r) in Hz. rewrite size_app, (size_bytes [d]) in Hz. cbn [bytes] in Hz.
    pose proof (len8_pos d). lia. }
  assert (Hall : Forall tok_ok ((pre ++ name :: w1 ++ bg :: w2 ++ [o]) ++ rest)).
  { rewrite X. replace ((b ++ p ++ v1 ++ g :: v2 ++ [o']) ++ body ++ c :: after) with ts; [exact Hok|].
    rewrite E2, <- !app_assoc. cbn [app]. rewrite <- ?app_assoc. reflexivity. }
  remember (pre ++ name :: w1 ++ bg :: w2 ++ [o]) as x eqn:Ex.
  remember (b ++ p ++ v1 ++ g :: v2 ++ [o']) as y eqn:Ey. clear - X S1 Hpos Hall.
  revert y X S1 Hall. induction x as [|t x IH]; intros y X S1 Hall.
  - assert (y = []).
    { apply Hpos; [|symmetry; exact S1]. cbn [app] in X. cbn [app] in Hall. rewrite X in Hall.
      apply Forall_app in Hall. exact (proj1 Hall). }
    subst y. exact X.
  - destruct y as [|u y].
    + exfalso. assert (K : t :: x = []); [|discriminate].
      apply Hpos; [|exact S1]. apply Forall_app in Hall. exact (proj1 Hall).
    + cbn [app] in X. injection X as -> X. apply (IH y X).
      * change (src (u :: x)) with (tx u ++ src x) in S1. change (src (u :: y)) with (tx u ++ src y) in S1.
        rewrite !size_app in S1. lia.
      * cbn [app] in Hall. exact (Forall_inv_tail Hall).
Qed.
Print Assumptions C143_no_silent_unclosed_partial.

(** A file with three blocks, one of them in a call that is inside another. *)
Definition c143_file : list tok :=
  [ I "fn"; W " "; I "f"; lp; rp; lb; NL; W "  ";
    colon; colon; I "crubit_support"; colon; colon; I "inline_cpp"; bang; W " "; lb; W " ";
      lp; rp; W " "; O "-"; O ">"; I "int"; lb; I "return"; W " "; O "1"; O ";"; rb; W " "; rb; NL; rb; NL;
    C "// global_cpp! { }"; NL;
    I "global_cpp"; W " "; bang; NL; lb; I "inline_cpp"; bang; lb; rb; rb ].
Example C143_example : Forall tok_ok c143_file
  /\ exists m1 m2, parse c143_file = POk [m1; m2]
     /\ m_kind m1 = InlineCpp /\ (m_line m1, m_col m1, m_start m1) = (2, 3, 10)
     /\ m_body m1 = T " () ->int{return 1;} "
     /\ m_kind m2 = GlobalCpp /\ (m_line m2, m_col m2) = (5, 1) /\ m_body m2 = T "inline_cpp!{}".
Proof.
  split; [apply tok_okb_ok; vm_compute; reflexivity|].
  eexists. eexists. split; [vm_compute; reflexivity|].
  split; [reflexivity|]. split; [vm_compute; reflexivity|]. split; [reflexivity|].
  split; [reflexivity|]. split; reflexivity.
Qed.
Example C143_example_err : parse [I "x"; NL; I "global_cpp"; bang; lb; lb; rb] = PErr 2.
Proof. vm_compute. reflexivity. Qed.

(** Not every macro invocation that Rust accepts is found: with parentheses, or
    with a comment before the brace, a block is dropped without an error, and its
    C++ never reaches the header. *)
Theorem C143_every_invocation_refuted :
  (exists ts body, Forall tok_ok ts /\ body <> [] /\ RustCall GlobalCpp ts body /\ parse ts = POk [])
  /\ (exists ts body pre c post, Forall tok_ok ts /\ body <> [] /\ RustCall GlobalCpp ts body
        /\ ts = pre ++ c :: post /\ tk c = Comment
        /\ RustCall GlobalCpp (pre ++ post) body
        /\ parse ts = POk [] /\ (exists m, parse (pre ++ post) = POk [m])).
Proof.
  split.
  - exists [I "global_cpp"; bang; lp; I "int"; W " "; I "x"; O ";"; rp], [I "int"; W " "; I "x"; O ";"].
    split; [apply tok_okb_ok; vm_compute; reflexivity|]. split; [discriminate|]. split; [|vm_compute; reflexivity].
    exists [I "global_cpp"], [], bang, [], lp, rp. split; [reflexivity|].
    split; [constructor; split; reflexivity|]. split; [constructor|]. split; [reflexivity|]. split; [constructor|].
    split; [right; left; auto|].
    intros t [<-|[<-|[<-|[<-|[]]]]]; intros K; exact K.
  - exists [I "global_cpp"; bang; C "/* why */"; lb; I "int"; W " "; I "x"; O ";"; rb],
      [I "int"; W " "; I "x"; O ";"], [I "global_cpp"; bang], (C "/* why */"),
      [lb; I "int"; W " "; I "x"; O ";"; rb].
    assert (HB : forall t, In t [I "int"; W " "; I "x"; O ";"] -> ~ is_delim t).
    { intros t [<-|[<-|[<-|[<-|[]]]]]; intros K; exact K. }
    split; [apply tok_okb_ok; vm_compute; reflexivity|]. split; [discriminate|].
    split.
    { exists [I "global_cpp"], [], bang, [C "/* why */"], lb, rb. split; [reflexivity|].
      split; [constructor; split; reflexivity|]. split; [constructor|]. split; [reflexivity|].
      split; [constructor; [right; reflexivity|constructor]|].
      split; [left; auto|exact HB]. }
    split; [reflexivity|]. split; [reflexivity|]. split.
    { exists [I "global_cpp"], [], bang, [], lb, rb. split; [reflexivity|].
      split; [constructor; split; reflexivity|]. split; [constructor|]. split; [reflexivity|].
      split; [constructor|]. split; [left; auto|exact HB]. }
    split; [vm_compute; reflexivity|]. eexists. vm_compute. reflexivity.
Qed.
Print Assumptions C143_every_invocation_refuted.

(** ** C144: errors in the embedded C++ are reported at the Rust line and column *)
Theorem C144_line_mapping : forall lex target srcs content,
  snippets lex srcs target = Some content ->
  forall file ts ms m, In (file, ts) srcs -> Forall tok_ok ts -> parse ts = POk ms -> In m ms ->
  exists before chunk rest pre post,
    (* the header has, at the beginning of a line, a directive for this block ... *)
    header content = (before ++ [10%N]) ++ chunk ++ rest
    /\ LineChunk file (m_body_line m) (m_body_col m - 1) (m_body m) chunk
    (* ... and each place of the block has there the line and column that it has in
       the Rust file *)
    /\ src ts = pre ++ m_body m ++ post /\ size pre = m_body_start m
    /\ forall b1 b2 line col, m_body m = b1 ++ b2 -> At (pre ++ b1) line col ->
         PresumedAt (m_body_line m) (repeat 32%N (m_body_col m - 1) ++ b1) line col.
Proof.
  intros lex target srcs content H file ts ms m Hin Hok EP Hm.
  destruct (snippets_spec _ _ _ _ H) as (blocks & -> & HB).
  destruct (blocks_at _ _ _ (file, ts) (fun x b R => match R with ex_intro _ ms (conj _ (conj F _)) => fileblock_nl _ _ _ _ F end) HB Hin)
    as (a & b & c & E1 & Ha & ms' & EP' & HF & _). cbn [fst snd] in *.
  rewrite EP in EP'. injection EP' as <-.
  destruct (fileblock_at _ _ _ _ m HF Hm) as (a2 & u & b2 & -> & Ha2 & Hu).
  destruct (piece_chunk _ _ _ _ Hu) as (a3 & t & b3 & -> & Ha3 & HL).
  assert (E2 : List.concat blocks = (a ++ a2 ++ a3) ++ t ++ b3 ++ b2 ++ c).
  { rewrite E1, <- !app_assoc. reflexivity. }
  destruct (header_split _ _ _ E2) as (h & tl & EH).
  { apply ends_nl_app; [exact Ha|]. apply ends_nl_app; assumption. }
  pose proof (parse_good ts Hok) as G. rewrite EP in G. destruct G as (G1 & _). cbn [app] in G1.
  rewrite Forall_forall in G1. specialize (G1 m Hm).
  destruct G1 as (bf & p & v1 & g & v2 & o & body & cc & after & Ets & _ & _ & _ & _ & _ & _ & _ & _ & _ & _ & S1 & A1 & _ & S3).
  exists h, t, ((b3 ++ b2 ++ c) ++ tl), (src (bf ++ p ++ v1 ++ g :: v2 ++ [o])), (src (cc :: after)).
  split; [rewrite EH, <- !app_assoc; reflexivity|]. split; [exact HL|].
  split.
  { rewrite Ets, S3.
    replace (bf ++ p ++ v1 ++ g :: v2 ++ o :: body ++ cc :: after)
      with ((bf ++ p ++ v1 ++ g :: v2 ++ [o]) ++ body ++ cc :: after).
    - rewrite (src_app _ (body ++ cc :: after)), (src_app body). reflexivity.
    - rewrite <- !app_assoc. cbn [app]. rewrite <- ?app_assoc. reflexivity. }
  split; [symmetry; exact S1|].
  intros b1 b2' line col _ HA. exact (presumed_pad _ _ _ _ _ _ A1 HA).
Qed.
Print Assumptions C144_line_mapping.

(** The lexing of the bodies in the examples: the given tokens for the given
    body, one token for any other text. *)
Definition lex_for (body : list tok) (t : text) : list tok :=
  if text_eqb t (texts body) then body else [Tok OtherTok t].
Definition ex_body : list tok :=
  [W " "; lp; rp; W " "; O "-"; O ">"; I "int"; lb; I "return"; W " "; O "1"; O ";"; rb; W " "].
Definition ex_src : list tok :=
  [I "let"; W " "; I "r"; O "="; I "inline_cpp"; bang; lb] ++ ex_body ++ [rb; O ";"; NL;
   I "global_cpp"; bang; lb; NL; W "  "; I "int"; W " "; I "x"; O ";"; NL; rb].
Example C144_example : exists content ms m,
  snippets (lex_for ex_body) [(T "a/x.rs", ex_src)] (T "//a:x") = Some content
  /\ parse ex_src = POk ms /\ In m ms /\ Forall tok_ok ex_src
  /\ m_body_line m = 1 /\ m_body_col m = 19.
Proof.
  eexists. eexists. eexists. split; [vm_compute; reflexivity|]. split; [vm_compute; reflexivity|].
  split; [left; reflexivity|]. split; [apply tok_okb_ok; vm_compute; reflexivity|].
  split; reflexivity.
Qed.

(** ** C145: names of the thunks *)

(** Two inline blocks of one file never get the same name, in files of fewer than
    65536 lines and columns below 256 - for every target, path and content. *)
Theorem C145_names_distinct_partial : forall ts ms target file m1 m2,
  Forall tok_ok ts -> parse ts = POk ms -> In m1 ms -> In m2 ms ->
  (N.of_nat (m_line m1) < 65536)%N -> (N.of_nat (m_line m2) < 65536)%N -> m_col m1 < 256 -> m_col m2 < 256 ->
  compute_thunk_name target file (N.of_nat (m_line m1)) (N.of_nat (m_col m1))
  = compute_thunk_name target file (N.of_nat (m_line m2)) (N.of_nat (m_col m2)) ->
  m1 = m2.
Proof.
  intros ts ms target file m1 m2 Hok EP H1 H2 L1 L2 C1 C2 E.
  apply thunk_name_inj in E; [|lia|lia|lia|lia]. destruct E as [El Ec].
  apply Nat2N.inj in El, Ec.
  pose proof (parse_good ts Hok) as G. rewrite EP in G. destruct G as (G1 & G2 & _). cbn [app] in G1.
  apply (sorted_start ts ms); try assumption.
  rewrite Forall_forall in G1. apply (described_positions ts); auto.
Qed.
Print Assumptions C145_names_distinct_partial.

(** The hash separates all positions of a file, whatever the rest of its input. *)
Theorem C145_positions_separated_partial : forall target file l c l' c',
  (l < 65536)%N -> (l' < 65536)%N -> (c < 256)%N -> (c' < 256)%N ->
  compute_thunk_name target file l c = compute_thunk_name target file l' c' -> l = l' /\ c = c'.
Proof. exact thunk_name_inj. Qed.
Print Assumptions C145_positions_separated_partial.

(** For the usual file names the name is an identifier. *)
Theorem C145_valid_identifier_partial : forall target file l c,
  Forall (fun ch => ch = 47%N \/ plain_file_char ch) file -> Identifier (compute_thunk_name target file l c).
Proof. exact thunk_name_ident. Qed.
Print Assumptions C145_valid_identifier_partial.

Example C145_example : Forall tok_ok (ex_src ++ ex_src) /\ exists ms m1 m2,
  parse (ex_src ++ ex_src) = POk ms /\ In m1 ms /\ In m2 ms /\ m1 <> m2
  /\ (N.of_nat (m_line m1) < 65536)%N /\ (N.of_nat (m_line m2) < 65536)%N /\ m_col m1 < 256 /\ m_col m2 < 256
  /\ Forall (fun ch => ch = 47%N \/ plain_file_char ch) (T "a/x.rs").
Proof.
  split; [apply tok_okb_ok; vm_compute; reflexivity|].
  eexists. eexists. eexists.
  split; [vm_compute; reflexivity|]. split; [left; reflexivity|]. split; [right; right; left; reflexivity|].
  split; [discriminate|].
  cbn [m_line m_col].
  split; [vm_compute; reflexivity|]. split; [vm_compute; reflexivity|].
  split; [apply Nat.ltb_lt; vm_compute; reflexivity|]. split; [apply Nat.ltb_lt; vm_compute; reflexivity|].
  unfold plain_file_char, ident_char.
  repeat (constructor; [vm_compute; first [left; reflexivity | right; right; left; reflexivity | right; left; intuition discriminate]|]).
  constructor.
Qed.

(** Across targets the names are not distinct: the target and the path are hashed
    one after the other, without a separator. *)
Theorem C145_distinct_targets_refuted : exists target file target' file' l c,
  target <> target' /\ file <> file'
  /\ compute_thunk_name target file l c = compute_thunk_name target' file' l c.
Proof.
  exists (T "//lib:a"), (T "bc/x.rs"), (T "//lib:ab"), (T "c/x.rs"), 3%N, 5%N.
  split; [discriminate|]. split; [discriminate|]. vm_compute. reflexivity.
Qed.
Print Assumptions C145_distinct_targets_refuted.

(** A file name with another character makes a name that is not an identifier. *)
Theorem C145_valid_identifier_refuted : exists target file l c,
  ~ Identifier (compute_thunk_name target file l c).
Proof.
  exists (T "//a:x"), (T "a/x+y.rs"), 1%N, 1%N. intros (_ & H & _). rewrite Forall_forall in H.
  specialize (H 43%N). assert (K : ident_char 43%N); [|destruct K as [K|[K|[K|K]]]; lia].
  apply H. vm_compute. tauto.
Qed.
Print Assumptions C145_valid_identifier_refuted.

(** The macro computes its name from the position of the first token of the
    invocation.  With white space in the path the extractor computes it from
    another position, so the two names differ and the call does not resolve. *)
Theorem C145_macro_and_header_agree_refuted : exists target file pre ts body line col ms m,
  RustCall InlineCpp ts body /\ Forall tok_ok (pre ++ ts) /\ At (src pre) line col
  /\ parse (pre ++ ts) = POk ms /\ ms = [m] /\ m_body m = src body
  /\ compute_thunk_name target file (N.of_nat (m_line m)) (N.of_nat (m_col m))
     <> compute_thunk_name target file (N.of_nat line) (N.of_nat col).
Proof.
  exists (T "//a:x"), (T "a/x.rs"), [I "let"; W " "; I "f"; O "="],
    [I "crubit_support"; W " "; colon; colon; W " "; I "inline_cpp"; bang; lb; O "1"; rb], [O "1"], 1, 7.
  eexists. eexists.
  split.
  { exists [I "crubit_support"; W " "; colon; colon; W " "; I "inline_cpp"], [], bang, [], lb, rb.
    split; [reflexivity|]. split.
    - apply (rp_more InlineCpp (I "crubit_support") [W " "] colon colon [W " "] [I "inline_cpp"]); try reflexivity.
      + constructor; [left; reflexivity|constructor].
      + constructor; [left; reflexivity|constructor].
      + constructor. split; reflexivity.
    - split; [constructor|]. split; [reflexivity|]. split; [constructor|]. split; [left; auto|].
      intros t [<-|[]] K. exact K. }
  split; [apply tok_okb_ok; vm_compute; reflexivity|].
  split; [apply at_adv; vm_compute; reflexivity|].
  split; [vm_compute; reflexivity|]. split; [reflexivity|]. split; [vm_compute; reflexivity|].
  intros E. apply thunk_name_inj in E; [|vm_compute; reflexivity ..].
  destruct E as [_ E]. vm_compute in E. discriminate.
Qed.
Print Assumptions C145_macro_and_header_agree_refuted.

(** ** C146: the header has every block once *)
Theorem C146_header_complete_partial : forall lex target srcs content,
  snippets lex srcs target = Some content ->
  exists blocks, content = List.concat blocks
    /\ Forall2 (fun s b => exists ms, parse (snd s) = POk ms
         /\ FileBlock (fst s) (fun m => compute_thunk_name target (fst s) (N.of_nat (m_line m)) (N.of_nat (m_col m))) ms b
         /\ Forall (fun m => Signature (lex (m_body m))) (filter is_inline ms)) srcs blocks
    /\ exists guard, GuardedHeader (header content) guard content.
Proof.
  intros lex target srcs content H. destruct (snippets_spec _ _ _ _ H) as (blocks & -> & HB).
  exists blocks. split; [reflexivity|]. split.
  - clear H. induction HB as [|s b srcs blocks (ms & E & HF & HV) HB IH]; constructor; [|exact IH].
    exists ms. split; [exact E|]. split; [exact HF|].
    eapply Forall_impl; [|exact HV]. intros m K. apply validate_sig. exact K.
  - exists guard_name, (T "  // " ++ guard_name ++ [newline]). unfold header.
    change (T "#endif  // ") with (T "#endif" ++ T "  // "). rewrite <- !app_assoc. reflexivity.
Qed.
Print Assumptions C146_header_complete_partial.

(** Nothing is written when a file has an unclosed block. *)
Theorem C146_no_partial_header_partial : forall lex target srcs file ts line,
  In (file, ts) srcs -> parse ts = PErr line -> snippets lex srcs target = None.
Proof.
  intros lex target srcs file ts line Hin HE. induction srcs as [|[f t] srcs IH]; [destruct Hin|].
  cbn [snippets]. destruct Hin as [E|Hin].
  - injection E as -> ->. rewrite HE. reflexivity.
  - rewrite (IH Hin). destruct (parse t); [|reflexivity].
    destruct (extract_inline_cpp lex ms f target); reflexivity.
Qed.
Print Assumptions C146_no_partial_header_partial.

Example C146_example : exists content, snippets (lex_for ex_body) [(T "a/x.rs", ex_src); (T "a/y.rs", ex_src)] (T "//a:x") = Some content
  /\ content <> [].
Proof. eexists. split; [vm_compute; reflexivity|discriminate]. Qed.

(** All headers have the same include guard: a translation unit that includes the
    headers of two libraries sees only the first. *)
Theorem C146_two_libraries_refuted : forall c1 c2, exists guard,
  GuardedHeader (header c1) guard c1 /\ GuardedHeader (header c2) guard c2
  /\ forall out, Sees [] [(guard, c1); (guard, c2)] out -> out = c1.
Proof.
  assert (HG : forall c, GuardedHeader (header c) guard_name c).
  { intros c. exists (T "  // " ++ guard_name ++ [newline]). unfold header.
    change (T "#endif  // ") with (T "#endif" ++ T "  // "). rewrite <- !app_assoc. reflexivity. }
  intros c1 c2. exists guard_name. split; [apply HG|]. split; [apply HG|].
  intros out H. inversion H; subst.
  - match goal with K : Sees [guard_name] _ _ |- _ => inversion K; subst end.
    + match goal with K : ~ In guard_name [guard_name] |- _ => elim K; left; reflexivity end.
    + match goal with K : Sees _ [] _ |- _ => inversion K; subst end. apply app_nil_r.
  - match goal with K : In guard_name [] |- _ => destruct K end.
Qed.
Print Assumptions C146_two_libraries_refuted.

(** The inline functions of a file come before the global blocks of the next
    file, so they cannot use what those declare. *)
Theorem C146_globals_first_refuted : exists lex target f1 f2 ts1 ts2 content m2 a name b g2 c,
  (forall t, texts (lex t) = t)
  /\ snippets lex [(f1, ts1); (f2, ts2)] target = Some content
  /\ parse ts2 = POk [m2] /\ m_kind m2 = GlobalCpp
  /\ content = a ++ T "inline auto " ++ name ++ b ++ g2 ++ c
  /\ LineChunk f2 (m_body_line m2) (m_body_col m2 - 1) (m_body m2) g2 /\ ~ In 10%N name.
Proof.
  assert (HT : forall t, texts (lex_for ex_body t) = t).
  { intros t. unfold lex_for. destruct (text_eqb_spec t (texts ex_body)) as [-> |_]; [reflexivity|].
    unfold texts. cbn [List.map List.concat tx]. apply app_nil_r. }
  pose (ts1 := [I "inline_cpp"; bang; lb] ++ ex_body ++ [rb]).
  pose (ts2 := [I "global_cpp"; bang; lb; I "int"; W " "; I "x"; O ";"; rb]).
  pose (m1 := PMacro InlineCpp 0 1 1 12 32 1 13 (texts ex_body)).
  pose (m2 := PMacro GlobalCpp 0 1 1 12 18 1 13 (T "int x;")).
  exists (lex_for ex_body), (T "//a:x"), (T "1.rs"), (T "2.rs"), ts1, ts2,
    ((T "inline auto " ++ compute_thunk_name (T "//a:x") (T "1.rs") 1 1 ++ [newline] ++ line_chunk (T "1.rs") m1 ++ [newline])
      ++ line_chunk (T "2.rs") m2), m2,
    [], (compute_thunk_name (T "//a:x") (T "1.rs") 1 1), ([newline] ++ line_chunk (T "1.rs") m1 ++ [newline]),
    (line_chunk (T "2.rs") m2), [].
  split; [exact HT|]. split; [vm_compute; reflexivity|]. split; [vm_compute; reflexivity|].
  split; [reflexivity|]. split; [|split; [apply line_chunk_spec|]].
  - generalize (line_chunk (T "2.rs") m2). generalize (line_chunk (T "1.rs") m1).
    generalize (compute_thunk_name (T "//a:x") (T "1.rs") 1 1). intros x y z.
    cbn [app]. rewrite app_nil_r, <- !app_assoc. cbn [app]. rewrite <- ?app_assoc. reflexivity.
  - intros K. vm_compute in K. repeat (destruct K as [K|K]; [discriminate|]). exact K.
Qed.
Print Assumptions C146_globals_first_refuted.
