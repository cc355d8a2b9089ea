(** Properties of the formatter, of the signature check and of the placeholder
    (C147-C149). *)
From Coq Require Import List NArith Arith Bool Ascii String Sorted Lia.
From Verif Require Import InlineCpp.Model InlineCpp.Spec InlineCpp.Proofs InlineCpp.Proofs2
  InlineCpp.Hash InlineCpp.Names InlineCpp.Proofs3 InlineCpp.Proofs4 InlineCpp.Props.
Import ListNotations.
Local Open Scope string_scope.
Local Open Scope nat_scope.
Local Open Scope list_scope.

(** ** C147: the formatter changes only the blocks *)

Lemma format_spliced cf ts out : Forall tok_ok ts -> format cf ts = Some out ->
  exists ms, parse ts = POk ms /\ Spliced (pairs cf (src ts) ms) (src ts) out.
Proof.
  intros Hok H. pose proof (parse_good ts Hok) as G. unfold format in H.
  destruct (parse ts) as [ms|l] eqn:EP; [|discriminate]. exists ms. split; [reflexivity|].
  cbn [Good app] in G. destruct G as (G1 & G2 & _).
  destruct (repl_spliced cf ts ms Hok [] (src ts) eq_refl G1 G2) as (rs & t' & R1 & R2 & R3).
  { apply Forall_forall. intros m _. cbn. lia. }
  rewrite <- src_texts in H. rewrite R1 in H. cbn [option_map] in H. rewrite R2 in H. cbn [app] in H.
  destruct ms as [|m ms].
  - injection H as <-. cbn [pairs List.map] in *. constructor.
  - injection H as <-. exact R3.
Qed.
Lemma format_total cf ts ms : Forall tok_ok ts -> parse ts = POk ms -> exists out, format cf ts = Some out.
Proof.
  intros Hok EP. pose proof (parse_good ts Hok) as G. unfold format. rewrite EP in *.
  cbn [Good app] in G. destruct G as (G1 & G2 & _).
  destruct (repl_spliced cf ts ms Hok [] (src ts) eq_refl G1 G2) as (rs & t' & R1 & R2 & R3).
  { apply Forall_forall. intros m _. cbn. lia. }
  rewrite <- src_texts, R1. destruct ms; eexists; reflexivity.
Qed.

(** The output is the input with, for each block, the text between its braces and
    the braces replaced by another block that starts with a brace and ends with
    one, indented by four more spaces than the line of the macro; nothing else is
    changed, whatever clang-format prints or if it cannot run.  It fails exactly
    when a block is not closed. *)
Theorem C147_only_blocks_changed_partial : forall cf ts, Forall tok_ok ts ->
  match format cf ts with
  | Some out => exists ms repls,
      parse ts = POk ms /\ Forall2 (fun m repl => exists pre post n,
          src ts = pre ++ post /\ size pre = m_start m /\ Indent pre n /\ Block n repl) ms repls
      /\ Spliced (combine (List.map m_body ms) repls) (src ts) out
  | None => exists line, Unclosed ts line
  end.
Proof.
  intros cf ts Hok. destruct (format cf ts) as [out|] eqn:EF.
  - destruct (format_spliced cf ts out Hok EF) as (ms & EP & HS).
    exists ms, (List.map (replacement cf (src ts)) ms). split; [exact EP|]. split.
    + pose proof (parse_good ts Hok) as G. rewrite EP in G. cbn [Good app] in G. destruct G as (G1 & _).
      clear - G1 Hok. induction ms as [|m ms IH]; constructor; [|exact (IH (Forall_inv_tail G1))].
      pose proof (Forall_inv G1) as D.
      destruct D as (b & p & w1 & g & w2 & o & body & c & after & E & _ & _ & _ & _ & _ & _ & _ & _ & S0 & _).
      exists (src b), (src (p ++ w1 ++ g :: w2 ++ o :: body ++ c :: after)), (base_indent (src ts) m).
      split; [rewrite E; apply src_app|]. split; [symmetry; exact S0|].
      split; [|apply replacement_block].
      unfold base_indent. rewrite E, S0, src_app, size_bytes, btake_app. apply indent_spec.
    + replace (combine (List.map m_body ms) (List.map (replacement cf (src ts)) ms)) with (pairs cf (src ts) ms); [exact HS|].
      clear. unfold pairs. induction ms as [|m ms IH]; [reflexivity|]. cbn [List.map combine]. rewrite IH. reflexivity.
  - pose proof (parse_good ts Hok) as G. destruct (parse ts) as [ms|l] eqn:EP.
    + destruct (format_total cf ts ms Hok EP) as [out K]. congruence.
    + exists l. exact G.
Qed.
Print Assumptions C147_only_blocks_changed_partial.

(** If clang-format changes only white space and leaves the synthetic head at the
    beginning as it is, formatting a file changes only white space. *)
Theorem C147_code_kept_partial : forall cf ts out, Forall tok_ok ts ->
  WhitespaceOnly cf -> KeepsHead cf -> format cf ts = Some out -> SameCode (src ts) out.
Proof.
  intros cf ts out Hok HW HK H. destruct (format_spliced cf ts out Hok H) as (ms & _ & HS).
  apply same_squash. apply (spliced_code _ _ _ HS). intros b r K. unfold pairs in K.
  apply in_map_iff in K. destruct K as (m & E & _). injection E as <- <-.
  apply replacement_code; assumption.
Qed.
Print Assumptions C147_code_kept_partial.

Definition same_cf (i : text) (_ : nat) : option text := Some i.
Lemma same_cf_ws : WhitespaceOnly same_cf.
Proof. intros i n o E. injection E as <-. apply same_squash. reflexivity. Qed.
Lemma same_cf_head : KeepsHead same_cf.
Proof. intros h r n o _ E. injection E as <-. exists r. reflexivity. Qed.

(** A file with a two-line body. *)
Definition c147_file : list tok :=
  [W "  "; I "inline_cpp"; bang; lb; NL; lp; rp; W " "; O "-"; O ">"; I "int"; lb; NL; W "  ";
   I "return"; W " "; O "1"; O ";"; rb; NL; rb; O ";"].
Example C147_example : Forall tok_ok c147_file
  /\ exists out, format same_cf c147_file = Some out
     /\ out = T "  inline_cpp!{" ++ [10%N] ++ T "      () ->int{" ++ [10%N]
              ++ T "        return 1;}" ++ [10%N] ++ T "  };".
Proof.
  split; [apply tok_okb_ok; vm_compute; reflexivity|]. eexists. split; [vm_compute; reflexivity|].
  vm_compute. reflexivity.
Qed.

(** The second hypothesis is needed: if clang-format breaks the line inside the
    synthetic head (it only changes white space there), the head stays in the
    user's file. *)
Definition break_cf (i : text) (_ : nat) : option text :=
  Some (List.map (fun c => if (c =? 32)%N then 10%N else c) i).
Lemma break_cf_ws : WhitespaceOnly break_cf.
Proof.
  intros i n o E. injection E as <-. apply same_squash.
  induction i as [|c i IH]; [reflexivity|]. cbn [List.map].
  change (squash (c :: i)) with (if negb (is_ws c) then c :: squash i else squash i).
  destruct (N.eqb_spec c 32) as [-> |N0].
  - change (squash (10%N :: List.map (fun c => if (c =? 32)%N then 10%N else c) i))
      with (squash (List.map (fun c => if (c =? 32)%N then 10%N else c) i)). exact IH.
  - change (squash (c :: List.map (fun c => if (c =? 32)%N then 10%N else c) i))
      with (if negb (is_ws c) then c :: squash (List.map (fun c => if (c =? 32)%N then 10%N else c) i)
            else squash (List.map (fun c => if (c =? 32)%N then 10%N else c) i)).
    rewrite IH. reflexivity.
Qed.
Lemma infix_find x t : Infix x t -> find_after x t <> None.
Proof.
  intros (a & b & ->). induction a as [|c a IH].
  - cbn [app]. rewrite find_after_head. discriminate.
  - cbn [app find_after]. destruct (starts_with x (c :: a ++ x ++ b)); [discriminate|exact IH].
Qed.
Theorem C147_head_left_in_refuted : exists cf ts out, Forall tok_ok ts
  /\ WhitespaceOnly cf /\ format cf ts = Some out
  /\ ~ Infix (T "__crubit_fmt_wrapper") (src ts) /\ Infix (T "__crubit_fmt_wrapper") out
  /\ ~ SameCode (src ts) out.
Proof.
  exists break_cf, c147_file. eexists.
  split; [apply tok_okb_ok; vm_compute; reflexivity|]. split; [exact break_cf_ws|].
  split; [vm_compute; reflexivity|]. split.
  { intros K. apply infix_find in K. apply K. vm_compute. reflexivity. }
  split.
  { exists (T "  inline_cpp!{" ++ [10%N] ++ T "      inline" ++ [10%N] ++ T "      auto" ++ [10%N] ++ T "      ").
    eexists. vm_compute. reflexivity. }
  rewrite same_squash. vm_compute. discriminate.
Qed.
Print Assumptions C147_head_left_in_refuted.

(** A string literal over several lines (a C++ raw string) is indented like code,
    so its value changes, even when clang-format leaves it as it is; and for the
    same reason formatting twice indents twice. *)
Definition raw_tok : tok := Tok OtherTok (T """(a" ++ [10%N] ++ T "b)""").
Definition c147_raw : list tok :=
  [I "global_cpp"; bang; lb; I "auto"; W " "; I "s"; O "="; I "R"; raw_tok; O ";"; rb].
(** The tokens of the formatted file. *)
Definition c147_raw' : list tok :=
  [I "global_cpp"; bang; lb; Tok Whitespace (10%N :: T "    "); I "auto"; W " "; I "s"; O "="; I "R";
   Tok OtherTok (T """(a" ++ [10%N] ++ T "    b)"""); O ";"; NL; rb].
Theorem C147_literals_and_idempotence_refuted : exists cf ts lit out ts' out',
  WhitespaceOnly cf /\ KeepsHead cf
  /\ (forall i n o, cf i n = Some o -> cf o n = Some o)
  /\ Forall tok_ok ts /\ In lit ts /\ (exists q, tx lit = [34%N] ++ q ++ [34%N])
  /\ format cf ts = Some out /\ ~ Infix (tx lit) out
  /\ Forall tok_ok ts' /\ src ts' = out /\ format cf ts' = Some out' /\ out' <> out.
Proof.
  exists same_cf, c147_raw, raw_tok. eexists. exists c147_raw'. eexists.
  split; [exact same_cf_ws|]. split; [exact same_cf_head|].
  split; [intros i n o E; injection E as <-; reflexivity|].
  split; [apply tok_okb_ok; vm_compute; reflexivity|].
  split; [unfold c147_raw; do 8 right; left; reflexivity|].
  split; [exists (T "(a" ++ [10%N] ++ T "b)"); reflexivity|].
  split; [vm_compute; reflexivity|].
  split; [intros K; apply infix_find in K; apply K; vm_compute; reflexivity|].
  split; [apply tok_okb_ok; vm_compute; reflexivity|].
  split; [vm_compute; reflexivity|]. split; [vm_compute; reflexivity|]. discriminate.
Qed.
Print Assumptions C147_literals_and_idempotence_refuted.

(** ** C148: the signature check *)

(** An inline block is accepted exactly when it has the form of the error
    messages: a parameter list, an arrow, a brace, and a brace at the end. *)
Theorem C148_signature_partial : forall ts, validate ts = None <-> Signature ts.
Proof. intros ts. split; [apply validate_sig|apply sig_validate]. Qed.
Print Assumptions C148_signature_partial.

(** So every block of a header has that form, and one that does not stops the
    tool. *)
Theorem C148_header_signatures_partial : forall lex target srcs,
  (exists content, snippets lex srcs target = Some content)
  <-> forall file ts, In (file, ts) srcs -> exists ms, parse ts = POk ms
        /\ forall m, In m ms -> m_kind m = InlineCpp -> Signature (lex (m_body m)).
Proof.
  intros lex target srcs.
  assert (HI : forall ms f, (exists o, extract_inline_cpp lex ms f target = inl o)
     <-> forall m, In m ms -> m_kind m = InlineCpp -> Signature (lex (m_body m))).
  { intros ms f. induction ms as [|m ms IH].
    - split; [intros _ m []|]. intros _. eexists. reflexivity.
    - cbn [extract_inline_cpp]. destruct (m_kind m) eqn:K.
      + destruct (validate (lex (m_body m))) eqn:V.
        * split; [intros [o E]; discriminate|]. intros H. exfalso.
          specialize (H m (or_introl eq_refl) K). apply sig_validate in H. congruence.
        * destruct (extract_inline_cpp lex ms f target) as [o|e] eqn:E.
          -- split; [|intros _; eexists; reflexivity]. intros _ m' [<-|Hm'] K'; [apply validate_sig; exact V|].
             exact (proj1 IH (ex_intro _ o eq_refl) m' Hm' K').
          -- split; [intros [o E']; discriminate|]. intros H. apply (proj2 IH).
             intros m' Hm'. apply H. right. exact Hm'.
      + split.
        * intros H m' [<-|Hm'] K'; [congruence|]. exact (proj1 IH H m' Hm' K').
        * intros H. apply (proj2 IH). intros m' Hm'. apply H. right. exact Hm'.
      + split.
        * intros H m' [<-|Hm'] K'; [congruence|]. exact (proj1 IH H m' Hm' K').
        * intros H. apply (proj2 IH). intros m' Hm'. apply H. right. exact Hm'. }
  induction srcs as [|[f t] srcs IH].
  - split; [intros _ file ts []|]. intros _. eexists. reflexivity.
  - cbn [snippets]. destruct (parse t) as [ms|l] eqn:EP.
    + destruct (extract_inline_cpp lex ms f target) as [o|e] eqn:E.
      * destruct (snippets lex srcs target) as [c|] eqn:ES; cbn [option_map].
        -- split; [|intros _; eexists; reflexivity]. intros _ file ts [X|Hin].
           ++ injection X as <- <-. exists ms. split; [exact EP|]. apply (proj1 (HI ms f)). eexists. exact E.
           ++ exact (proj1 IH (ex_intro _ c eq_refl) file ts Hin).
        -- split; [intros [c E']; discriminate|]. intros H. apply (proj2 IH).
           intros file ts Hin. apply (H file ts). right. exact Hin.
      * split; [intros [c E']; discriminate|]. intros H. exfalso.
        destruct (H f t (or_introl eq_refl)) as (ms' & EP' & HS). rewrite EP in EP'. injection EP' as <-.
        destruct (proj2 (HI ms f) HS) as [o K]. congruence.
    + split; [intros [c E']; discriminate|]. intros H. exfalso.
      destruct (H f t (or_introl eq_refl)) as (ms' & EP' & _). congruence.
Qed.
Print Assumptions C148_header_signatures_partial.
Example C148_example : Signature ex_body /\ ~ Signature [W " "; I "int"; lb; rb].
Proof.
  split; [apply validate_sig; vm_compute; reflexivity|].
  intros K. apply sig_validate in K. vm_compute in K. discriminate.
Qed.

(** A reader of the form of [OneFunction]. *)
Fixpoint to_brace (ts : list tok) : option (list tok) :=
  match ts with
  | [] => None
  | t :: r => if tkind_eqb (tk t) OpenBrace then Some r else to_brace r
  end.
Fixpoint cl (n : nat) (ts : list tok) : option (list tok) :=
  match ts with
  | [] => None
  | t :: r => if tkind_eqb (tk t) OpenBrace then cl (n + 1) r
              else if tkind_eqb (tk t) CloseBrace then
                if n - 1 =? 0 then Some r else cl (n - 1) r
              else cl n r
  end.
Definition one_fn (ts : list tok) : bool :=
  match close_paren 0 (drop_ws_toks ts) with
  | None => false
  | Some r => match to_brace r with
              | None => false
              | Some r' => match cl 1 r' with
                           | None => false
                           | Some w => forallb (fun t => tkind_eqb (tk t) Whitespace) w
                           end
              end
  end.
Lemma to_brace_of ret ob r : (forall t, In t ret -> tk t <> OpenBrace) -> tk ob = OpenBrace ->
  to_brace (ret ++ ob :: r) = Some r.
Proof.
  intros H Ho. induction ret as [|t ret IH]; cbn [app to_brace].
  - rewrite Ho. reflexivity.
  - destruct (tkind_eqb_spec (tk t) OpenBrace) as [E|_]; [elim (H t (or_introl eq_refl) E)|].
    apply IH. intros u Hu. apply H. right. exact Hu.
Qed.
Lemma cl_bal body : Balanced body -> forall n r, 1 <= n -> cl n (body ++ r) = cl n r.
Proof.
  induction 1 as [|t l H1 H2 H IH|o a c b Ho Ha IHa Hc Hb IHb]; intros n r Hn; [reflexivity| |].
  - cbn [app cl]. destruct (tkind_eqb_spec (tk t) OpenBrace) as [E|_]; [contradiction|].
    destruct (tkind_eqb_spec (tk t) CloseBrace) as [E|_]; [contradiction|]. apply IH. exact Hn.
  - cbn [app cl]. rewrite Ho. cbn [tkind_eqb]. rewrite <- app_assoc, IHa by lia.
    cbn [app cl]. rewrite Hc. cbn [tkind_eqb].
    destruct (Nat.eqb_spec (n + 1 - 1) 0) as [E|_]; [lia|].
    rewrite Nat.add_sub. apply IHb. exact Hn.
Qed.
Lemma one_fn_of ts : OneFunction ts -> one_fn ts = true.
Proof.
  intros (w0 & op & params & cp & ret & ob & body & cb & w1 & -> & H0 & Hop & HP & Hcp & HR & Hob & HB & Hcb & H1).
  unfold one_fn. rewrite drop_ws_of by (try exact H0; congruence).
  cbn [close_paren]. rewrite Hop. cbn [tkind_eqb]. rewrite close_paren_bal by (try exact HP; lia).
  cbn [close_paren]. rewrite Hcp. cbn [tkind_eqb Nat.add Nat.sub Nat.eqb].
  rewrite to_brace_of by assumption. rewrite cl_bal by (try exact HB; lia).
  cbn [cl]. rewrite Hcb. cbn [tkind_eqb Nat.add Nat.sub Nat.eqb].
  apply forallb_forall. intros t Ht. rewrite Forall_forall in H1. rewrite (H1 t Ht). reflexivity.
Qed.

(** What passes the check need not be one function: another function may follow the
    first, and the arrow need not have a type. *)
Theorem C148_one_function_refuted :
  (exists ts, validate ts = None /\ ~ OneFunction ts)
  /\ (exists ts ret, validate ts = None /\ OneFunction ts
        /\ ts = [lp; rp] ++ ret ++ [lb; rb] /\ src ret = T "->").
Proof.
  split.
  - exists [lp; rp; W " "; O "-"; O ">"; I "int"; lb; I "return"; W " "; O "1"; O ";"; rb; W " ";
            I "int"; W " "; I "g"; lp; rp; lb; I "return"; W " "; O "2"; O ";"; rb].
    split; [vm_compute; reflexivity|]. intros K. apply one_fn_of in K. vm_compute in K. discriminate.
  - exists [lp; rp; O "-"; O ">"; lb; rb], [O "-"; O ">"]. split; [vm_compute; reflexivity|].
    split; [|split; reflexivity].
    exists [], lp, [], rp, [O "-"; O ">"], lb, [], rb, [].
    split; [reflexivity|]. split; [constructor|]. split; [reflexivity|]. split; [constructor|].
    split; [reflexivity|]. split; [intros t [<-|[<-|[]]]; discriminate|]. split; [reflexivity|].
    split; [constructor|]. split; [reflexivity|constructor].
Qed.
Print Assumptions C148_one_function_refuted.

(** A function with a comment before its parameter list is rejected. *)
Theorem C148_comment_rejected_refuted : exists ts, CommentedFunction ts /\ validate ts <> None.
Proof.
  exists ([C "/* adds */"] ++ ex_body). split; [|vm_compute; discriminate].
  exists [C "/* adds */"], ex_body. split; [reflexivity|].
  split; [constructor; [right; reflexivity|constructor]|].
  split; [|apply validate_sig; vm_compute; reflexivity].
  exists [W " "], lp, [], rp, [W " "; O "-"; O ">"; I "int"], lb, [I "return"; W " "; O "1"; O ";"], rb, [W " "].
  split; [reflexivity|]. split; [constructor; [reflexivity|constructor]|]. split; [reflexivity|]. split; [constructor|].
  split; [reflexivity|]. split; [intros t [<-|[<-|[<-|[<-|[]]]]]; discriminate|]. split; [reflexivity|].
  split; [repeat (apply bal_tok; [discriminate|discriminate|]); apply bal_nil|].
  split; [reflexivity|constructor; [reflexivity|constructor]].
Qed.
Print Assumptions C148_comment_rejected_refuted.

(** ** C149: the placeholder *)
Lemma commas_count ps : ps <> [] -> Forall (fun p => p <> [] /\ ~ In Comma p) ps ->
  commas ps <> [] /\
  List.length (filter (fun t => match t with Comma => true | _ => false end) (commas ps)) + 1 = List.length ps.
Proof.
  assert (HF : forall p, ~ In Comma p -> filter (fun t => match t with Comma => true | _ => false end) p = []).
  { induction p as [|x p IH]; intros H; [reflexivity|]. cbn [filter]. destruct x.
    - apply IH. intros K. apply H. right. exact K.
    - elim H. left. reflexivity.
    - apply IH. intros K. apply H. right. exact K. }
  induction ps as [|p ps IH]; intros N0 HP; [congruence|].
  pose proof (Forall_inv HP) as [Hp1 Hp2]. destruct ps as [|q ps].
  - cbn [commas]. rewrite (HF p Hp2). split; [exact Hp1|reflexivity].
  - destruct IH as [I1 I2]; [discriminate|exact (Forall_inv_tail HP)|].
    change (commas (p :: q :: ps)) with (p ++ Comma :: commas (q :: ps)). split.
    + destruct p; discriminate.
    + rewrite filter_app, (HF p Hp2). cbn [app filter List.length] in *. lia.
Qed.
(** The closure that stands for the function in an editor takes as many arguments
    as the signature has parameters, when no parameter has a comma of its own
    outside of parentheses, braces and brackets. *)
Theorem C149_arity_partial : forall ps rest,
  Forall (fun p => p <> [] /\ ~ In Comma p) ps ->
  param_count (Group Paren (commas ps) :: rest) = List.length ps.
Proof.
  intros ps rest H. destruct ps as [|p ps]; [reflexivity|].
  destruct (commas_count (p :: ps)) as [N0 E]; [discriminate|exact H|].
  unfold param_count. destruct (commas (p :: ps)); [congruence|exact E].
Qed.
Print Assumptions C149_arity_partial.
Example C149_example : Forall (fun p => p <> [] /\ ~ In Comma p)
    [[Leaf (T "int"); Leaf (T "a")]; [Leaf (T "F"); Group Paren [Leaf (T "x"); Comma; Leaf (T "y")]]]
  /\ param_count [Group Paren [Leaf (T "int"); Leaf (T "a"); Comma; Leaf (T "F");
        Group Paren [Leaf (T "x"); Comma; Leaf (T "y")]]; Leaf (T "->")] = 2.
Proof.
  split; [|reflexivity]. repeat constructor; try discriminate; cbn; intuition discriminate.
Qed.

(** A comma between angle brackets counts as a separator, and a lone [void] as a
    parameter. *)
Theorem C149_arity_refuted :
  (exists ps, Forall (fun p => p <> []) ps /\ param_count [Group Paren (commas ps)] <> List.length ps
     /\ ps = [[Leaf (T "std"); Leaf (T "::"); Leaf (T "map"); Leaf (T "<"); Leaf (T "int"); Comma;
              Leaf (T "int"); Leaf (T ">"); Leaf (T "m")]])
  /\ param_count [Group Paren [Leaf (T "void")]] = 1.
Proof.
  split; [|reflexivity]. eexists. split; [|split; [|reflexivity]].
  - constructor; [discriminate|constructor].
  - discriminate.
Qed.
Print Assumptions C149_arity_refuted.
