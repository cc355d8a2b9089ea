(** The formatter and the header. *)
From Coq Require Import List NArith Arith Bool Ascii String Sorted Lia Permutation.
From Verif Require Import InlineCpp.Model InlineCpp.Spec InlineCpp.Proofs InlineCpp.Proofs2
  InlineCpp.Names.
Import ListNotations.
Local Open Scope string_scope.
Local Open Scope nat_scope.
Local Open Scope list_scope.

(** ** White space *)
Definition squash (t : text) : text := filter (fun c => negb (is_ws c)) t.
Definition ws_list : list N :=
  ([9; 10; 11; 12; 13; 32; 133; 160; 5760] ++ List.map (fun i => 8192 + N.of_nat i)%N (seq 0 11)
          ++ [8232; 8233; 8239; 8287; 12288])%N.
Lemma is_ws_in c : is_ws c = true -> In c ws_list.
Proof.
  intros H. unfold is_ws in H.
  repeat (apply orb_prop in H; destruct H as [H|H]);
    try (apply N.eqb_eq in H; subst c; vm_compute; tauto).
  - apply andb_prop in H. destruct H as [H1 H2]. apply N.leb_le in H1, H2.
    assert (K : (c = 9 \/ c = 10 \/ c = 11 \/ c = 12 \/ c = 13)%N) by lia.
    destruct K as [K|[K|[K|[K|K]]]]; subst c; vm_compute; tauto.
  - apply andb_prop in H. destruct H as [H1 H2]. apply N.leb_le in H1, H2.
    assert (K : (c = 8192 \/ c = 8193 \/ c = 8194 \/ c = 8195 \/ c = 8196 \/ c = 8197 \/ c = 8198
      \/ c = 8199 \/ c = 8200 \/ c = 8201 \/ c = 8202)%N) by lia.
    repeat (destruct K as [K|K]; [subst c; vm_compute; tauto|]). subst c; vm_compute; tauto.
Qed.
Lemma in_is_ws c : In c ws_list -> is_ws c = true.
Proof.
  intros H. assert (K : forallb is_ws ws_list = true) by (vm_compute; reflexivity).
  rewrite forallb_forall in K. exact (K c H).
Qed.
Lemma is_ws_spec c : is_ws c = existsb (N.eqb c) ws_list.
Proof.
  apply eq_iff_eq_true. split.
  - intros H. apply existsb_exists. exists c. split; [apply is_ws_in; exact H|apply N.eqb_refl].
  - intros H. apply existsb_exists in H. destruct H as (d & Hd & E). apply N.eqb_eq in E. subst d.
    apply in_is_ws. exact Hd.
Qed.
Lemma solid_squash t u : solid t u <-> u = squash t.
Proof.
  unfold solid, squash.
  assert (E : filter (fun c => negb (is_ws c)) t = filter (fun c => negb (existsb (N.eqb c)
        ([9; 10; 11; 12; 13; 32; 133; 160; 5760] ++ List.map (fun i => 8192 + N.of_nat i)%N (seq 0 11)
          ++ [8232; 8233; 8239; 8287; 12288])%N)) t).
  { apply filter_ext. intros c. rewrite is_ws_spec. reflexivity. }
  rewrite E. reflexivity.
Qed.
Lemma same_squash t u : SameCode t u <-> squash t = squash u.
Proof.
  split.
  - intros (s & H1 & H2). apply solid_squash in H1, H2. congruence.
  - intros E. exists (squash t). split; apply solid_squash; auto.
Qed.
Lemma white_spec c : White c <-> is_ws c = true.
Proof.
  unfold White, is_ws. rewrite !orb_true_iff, !andb_true_iff, !N.leb_le, !N.eqb_eq. cbn [In].
  split.
  - intros [H|[H|H]]; [tauto|tauto|].
    repeat (destruct H as [H|H]; [symmetry in H; tauto|]). destruct H.
  - intros H. repeat (destruct H as [H|H]; [|]); first [tauto|right; right; subst c; tauto].
Qed.
Lemma squash_app a b : squash (a ++ b) = squash a ++ squash b.
Proof. apply filter_app. Qed.
Lemma squash_rev t : squash (rev t) = rev (squash t).
Proof.
  induction t as [|c t IH]; [reflexivity|]. cbn [rev]. rewrite squash_app, IH.
  unfold squash at 2 3. cbn [filter]. destruct (negb (is_ws c)); [reflexivity|apply app_nil_r].
Qed.
Lemma squash_trim_start t : squash (trim_start t) = squash t.
Proof.
  induction t as [|c t IH]; [reflexivity|]. cbn [trim_start]. destruct (is_ws c) eqn:E; [|reflexivity].
  rewrite IH. unfold squash at 2. cbn [filter]. rewrite E. reflexivity.
Qed.
Lemma squash_trim t : squash (trim t) = squash t.
Proof.
  unfold trim, trim_end. rewrite squash_rev, squash_trim_start, squash_rev, rev_involutive.
  apply squash_trim_start.
Qed.
Lemma squash_drop_nl t : squash (drop_nl t) = squash t.
Proof.
  induction t as [|c t IH]; [reflexivity|]. cbn [drop_nl]. destruct (N.eqb_spec c newline) as [-> |E]; [|reflexivity].
  rewrite IH. reflexivity.
Qed.
Lemma squash_trim_nl t : squash (trim_nl t) = squash t.
Proof.
  unfold trim_nl. rewrite squash_rev, squash_drop_nl, squash_rev, rev_involutive. apply squash_drop_nl.
Qed.
Lemma squash_strip_cr t : squash (strip_cr t) = squash t.
Proof.
  induction t as [|c [|d t] IH]; [reflexivity| |].
  - cbn [strip_cr]. destruct (N.eqb_spec c 13) as [-> |E]; reflexivity.
  - change (strip_cr (c :: d :: t)) with (c :: strip_cr (d :: t)).
    change (squash (c :: strip_cr (d :: t))) with (squash ([c] ++ strip_cr (d :: t))).
    change (squash (c :: d :: t)) with (squash ([c] ++ d :: t)).
    rewrite !(squash_app [c]), IH. reflexivity.
Qed.
Lemma squash_repeat n : squash (repeat space n) = [].
Proof. induction n as [|n IH]; [reflexivity|]. cbn [repeat]. exact IH. Qed.
Lemma squash_indent_line n l : squash (indent_line n l) = squash l.
Proof.
  unfold indent_line. destruct (trim l) as [|c r] eqn:E.
  - rewrite <- (squash_trim l), E. reflexivity.
  - rewrite !squash_app, squash_repeat. change (squash [newline]) with (@nil N). rewrite app_nil_r. reflexivity.
Qed.
Lemma squash_lines n t : forall cur,
  squash (List.concat (List.map (indent_line n) (lines_from cur t))) = squash (cur ++ t).
Proof.
  induction t as [|c t IH]; intros cur; cbn [lines_from].
  - rewrite app_nil_r. destruct cur as [|d cur]; [reflexivity|]. cbn [List.map List.concat].
    rewrite app_nil_r. apply squash_indent_line.
  - destruct (N.eqb_spec c newline) as [-> |E].
    + cbn [List.map List.concat]. rewrite squash_app, IH, squash_indent_line, squash_strip_cr, (squash_app cur).
      reflexivity.
    + rewrite IH, <- app_assoc. reflexivity.
Qed.

(** ** The replacement of one block *)
Lemma starts_with_spec p t : starts_with p t = true <-> exists r, t = p ++ r.
Proof.
  revert t. induction p as [|x p IH]; intros t; cbn [starts_with].
  - split; [intros _; exists t; reflexivity|reflexivity].
  - destruct t as [|y t]; [split; [discriminate|intros [r K]; discriminate]|].
    rewrite andb_true_iff, N.eqb_eq, IH. split.
    + intros [-> [r ->]]. exists r. reflexivity.
    + intros [r K]. injection K as -> ->. eauto.
Qed.
Lemma find_after_head p r : find_after p (p ++ r) = Some r.
Proof.
  destruct (p ++ r) as [|c t] eqn:E.
  - destruct p; [|discriminate]. cbn in E. subst r. reflexivity.
  - cbn [find_after].
    assert (H : starts_with p (c :: t) = true) by (apply starts_with_spec; exists r; congruence).
    rewrite H, <- E. rewrite skipn_app, skipn_all, Nat.sub_diag. reflexivity.
Qed.

Lemma rcf_code cf body k limit f : WhitespaceOnly cf -> KeepsHead cf ->
  run_clang_format cf body k limit = Some f -> squash f = squash body.
Proof.
  intros HW HK. unfold run_clang_format.
  assert (W1 : head_of wrap1) by (left; reflexivity).
  assert (W2 : head_of wrap2) by (right; reflexivity).
  assert (Hplain : forall o, cf (trim body) limit = Some o -> squash (trim_nl o) = squash body).
  { intros o E. apply HW, same_squash in E. rewrite squash_trim_nl, <- E. apply squash_trim. }
  assert (Hwrap : forall h o, head_of h -> cf (h ++ T " " ++ trim body) limit = Some o ->
    exists rest, find_after h o = Some rest /\ squash (trim_nl (trim_start rest)) = squash body).
  { intros h o Hh E. destruct (HK h _ limit o Hh E) as [r' ->].
    exists r'. split; [apply find_after_head|].
    apply HW, same_squash in E. rewrite !squash_app in E. apply app_inv_head in E.
    change (squash (T " ")) with (@nil N) in E. cbn [app] in E.
    rewrite squash_trim_nl, squash_trim_start, <- E. apply squash_trim. }
  destruct k.
  - destruct (starts_with (T "(") (trim body)).
    + destruct (cf (wrap1 ++ T " " ++ trim body) limit) as [o|] eqn:E; [|discriminate].
      destruct (Hwrap _ _ W1 E) as (rest & -> & K). intros X. injection X as <-. exact K.
    + destruct (cf (wrap2 ++ T " " ++ trim body) limit) as [o|] eqn:E; [|discriminate].
      destruct (Hwrap _ _ W2 E) as (rest & -> & K). intros X. injection X as <-. exact K.
  - destruct (cf (trim body) limit) as [o|] eqn:E; [|discriminate].
    intros X. injection X as <-. exact (Hplain o eq_refl).
  - destruct (cf (trim body) limit) as [o|] eqn:E; [|discriminate].
    intros X. injection X as <-. exact (Hplain o eq_refl).
Qed.
Lemma replacement_code cf s m : WhitespaceOnly cf -> KeepsHead cf ->
  squash (replacement cf s m) = [123%N] ++ squash (m_body m) ++ [125%N].
Proof.
  intros HW HK. unfold replacement. cbv zeta.
  remember (match run_clang_format cf (m_body m) (m_kind m) _ with Some f => f | None => _ end) as f eqn:Ef.
  assert (Hf : squash f = squash (m_body m)).
  { subst f. destruct (run_clang_format _ _ _ _) as [f|] eqn:E; [exact (rcf_code _ _ _ _ _ HW HK E)|].
    apply squash_trim. }
  remember (List.concat _) as b eqn:Eb.
  assert (Hb : squash b = squash (m_body m)).
  { subst b. unfold lines. rewrite squash_lines. exact Hf. }
  rewrite <- Hb. destruct b as [|c b]; [reflexivity|].
  rewrite !squash_app, squash_repeat. change (squash (T "{")) with [123%N].
  change (squash [newline]) with (@nil N). change (squash (T "}")) with [125%N]. reflexivity.
Qed.

Lemma lines_no_nl t : forall cur, ~ In 10%N cur -> forall l, In l (lines_from cur t) -> ~ In 10%N l.
Proof.
  assert (HC : forall l, ~ In 10%N l -> ~ In 10%N (strip_cr l)).
  { induction l as [|c [|d l] IH]; intros H; [exact H| |].
    - cbn [strip_cr]. destruct (c =? 13)%N; [intros []|exact H].
    - change (strip_cr (c :: d :: l)) with (c :: strip_cr (d :: l)).
      intros [K|K]; [apply H; left; exact K|]. apply IH in K; [exact K|].
      intros K2. apply H. right. exact K2. }
  induction t as [|c t IH]; intros cur Hcur l Hl; cbn [lines_from] in Hl.
  - destruct cur; [destruct Hl|]. destruct Hl as [<-|[]]. exact Hcur.
  - destruct (N.eqb_spec c newline) as [E|E].
    + destruct Hl as [<-|Hl]; [apply HC; exact Hcur|]. apply (IH [] (fun x => x) l Hl).
    + apply (IH (cur ++ [c])); [|exact Hl]. intros K. apply in_app_or in K. destruct K as [K|[K|[]]].
      * exact (Hcur K).
      * apply E. exact K.
Qed.
Lemma replacement_block cf s m : Block (base_indent s m) (replacement cf s m).
Proof.
  unfold replacement. cbv zeta.
  remember (match run_clang_format cf (m_body m) (m_kind m) _ with Some f => f | None => _ end) as f eqn:Ef.
  assert (HL : forall ls, (forall l, In l ls -> ~ In 10%N l) ->
     Lines (base_indent s m) (List.concat (List.map (indent_line (base_indent s m + 4)) ls))).
  { induction ls as [|l ls IH]; intros H; cbn [List.map List.concat]; [constructor|].
    unfold indent_line at 1. destruct (trim l).
    - cbn [app]. constructor. apply IH. intros l' K. apply H. right. exact K.
    - rewrite <- app_assoc. rewrite <- app_assoc. cbn [app].
      constructor; [apply H; left; reflexivity|]. apply IH. intros l' K. apply H. right. exact K. }
  specialize (HL (lines f) (lines_no_nl f [] (fun x => x))).
  destruct (List.concat _) as [|c b]; [left; reflexivity|]. right.
  exists (c :: b). split; [exact HL|]. reflexivity.
Qed.
Lemma replacement_braces cf s m : exists mid, replacement cf s m = [123%N] ++ mid ++ [125%N].
Proof.
  destruct (replacement_block cf s m) as [-> |(ls & _ & ->)].
  - exists []. reflexivity.
  - exists (10%N :: ls ++ repeat 32%N (base_indent s m)). cbn [app]. rewrite <- app_assoc. reflexivity.
Qed.

(** The indentation *)
Lemma last_line_nonl t : ~ In newline t -> last_line t = t.
Proof.
  destruct t as [|c r]; [reflexivity|]. intros H. cbn [last_line].
  destruct (existsb _ (c :: r)) eqn:E; [|reflexivity].
  exfalso. apply existsb_exists in E. destruct E as (d & Hd & K). apply N.eqb_eq in K. subst d. exact (H Hd).
Qed.
Lemma last_line_nl a t : ~ In newline t -> last_line (a ++ newline :: t) = t.
Proof.
  intros H. induction a as [|c a IH].
  - cbn [app last_line existsb]. rewrite N.eqb_refl. cbn [orb]. apply last_line_nonl. exact H.
  - cbn [app last_line].
    assert (E : existsb (fun d => (d =? newline)%N) (c :: a ++ newline :: t) = true).
    { apply existsb_exists. exists newline. split; [|apply N.eqb_refl]. right. apply in_or_app. right. left. reflexivity. }
    rewrite E. exact IH.
Qed.
Lemma leading_spec t : exists l, t = repeat 32%N (leading_spaces t) ++ l /\ (forall l', l <> 32%N :: l').
Proof.
  induction t as [|c t (l & E & H)]; [exists []; split; [reflexivity|discriminate]|].
  cbn [leading_spaces]. destruct (N.eqb_spec c space) as [-> |K].
  - exists l. split; [cbn [repeat app]; rewrite <- E; reflexivity|exact H].
  - exists (c :: t). split; [reflexivity|]. intros l' X. injection X as -> _. apply K. reflexivity.
Qed.
Lemma indent_spec t : Indent t (leading_spaces (last_line t)).
Proof.
  destruct (split_last_nl t) as (a & b & -> & Hb & Ha).
  assert (E : last_line (a ++ b) = b).
  { destruct Ha as [-> |[a' ->]]; [apply last_line_nonl; exact Hb|].
    rewrite <- app_assoc. apply last_line_nl. exact Hb. }
  rewrite E. destruct (leading_spec b) as (l & El & Hl). exists a, l.
  split; [rewrite <- El; reflexivity|]. split; [exact Ha|]. split; [|exact Hl].
  intros K. apply Hb. rewrite El. apply in_or_app. right. exact K.
Qed.

(** ** Splicing *)
Lemma rfind_snoc t : forall off, rfind_brace off (t ++ [123%N]) = Some (off + bytes t).
Proof.
  induction t as [|c t IH]; intros off; cbn [app rfind_brace bytes].
  - cbn. f_equal. lia.
  - rewrite IH. f_equal. lia.
Qed.

Definition pairs (cf : text -> nat -> option text) (s : text) (ms : list pmacro) :=
  List.map (fun m => (m_body m, replacement cf s m)) ms.

Lemma block_at ts m : Forall tok_ok ts -> Describes ts m -> exists head after,
  src ts = head ++ [123%N] ++ m_body m ++ [125%N] ++ after /\ m_body_start m = bytes (head ++ [123%N])
  /\ m_body_end m = bytes (head ++ [123%N] ++ m_body m) /\ m_start m <= bytes head
  /\ btake (m_start m) (src ts) = btake (m_start m) head.
Proof.
  intros Hok (b & p & w1 & g & w2 & o & body & c & after & E & _ & _ & _ & _ & _ & Ho & _ & Hc & S0 & _ & S1 & _ & S2 & S3).
  assert (Oo : tx o = [123%N]).
  { rewrite Forall_forall in Hok. apply (Hok o); [|exact Ho]. rewrite E.
    rewrite !in_app_iff. right; right; right. right. rewrite in_app_iff. right. left. reflexivity. }
  assert (Oc : tx c = [125%N]).
  { rewrite Forall_forall in Hok. apply (Hok c); [|exact Hc]. rewrite E.
    rewrite !in_app_iff. right; right; right. right. rewrite in_app_iff. right. right.
    rewrite in_app_iff. right. left. reflexivity. }
  exists (src (b ++ p ++ w1 ++ g :: w2)), (src after).
  assert (Ets : src ts = src (b ++ p ++ w1 ++ g :: w2) ++ [123%N] ++ m_body m ++ [125%N] ++ src after).
  { rewrite E, S3.
    replace (b ++ p ++ w1 ++ g :: w2 ++ o :: body ++ c :: after)
      with ((b ++ p ++ w1 ++ g :: w2) ++ [o] ++ body ++ [c] ++ after)
      by (rewrite <- !app_assoc; cbn [app]; rewrite <- ?app_assoc; reflexivity).
    rewrite !(src_app (b ++ p ++ w1 ++ g :: w2)), !(src_app [o]), (src_app body), (src_app [c]).
    replace (src [o]) with (tx o) by (cbn; rewrite app_nil_r; reflexivity).
    replace (src [c]) with (tx c) by (cbn; rewrite app_nil_r; reflexivity).
    rewrite Oo, Oc. reflexivity. }
  assert (Ebs : m_body_start m = bytes (src (b ++ p ++ w1 ++ g :: w2) ++ [123%N])).
  { rewrite S1, size_bytes. replace (b ++ p ++ w1 ++ g :: w2 ++ [o]) with ((b ++ p ++ w1 ++ g :: w2) ++ [o])
      by (rewrite <- !app_assoc; reflexivity).
    rewrite (src_app _ [o]). replace (src [o]) with (tx o) by (cbn; rewrite app_nil_r; reflexivity).
    rewrite Oo. reflexivity. }
  split; [exact Ets|]. split; [exact Ebs|].
  split. { rewrite S2, Ebs, S3, size_bytes, (app_assoc _ [123%N]), (bytes_app _ (src body)). reflexivity. }
  rewrite S0, size_bytes. split.
  - rewrite src_app, bytes_app. lia.
  - rewrite Ets. rewrite (src_app b), <- !app_assoc, !btake_app. reflexivity.
Qed.

Lemma repl_spliced cf ts ms : Forall tok_ok ts -> forall pre t,
  src ts = pre ++ t -> Forall (Describes ts) ms -> StronglySorted Before ms ->
  Forall (fun m => bytes pre <= m_start m) ms ->
  exists rs t', replacements cf (src ts) ms = Some rs
    /\ apply_all (src ts) rs = pre ++ t' /\ Spliced (pairs cf (src ts) ms) t t'.
Proof.
  intros Hok. induction ms as [|m ms IH]; intros pre t E HD HS HP.
  - exists [], t. repeat split; [|constructor]. exact E.
  - destruct (block_at ts m Hok (Forall_inv HD)) as (head & after & E2 & B1 & B2 & B3 & _).
    pose proof (Forall_inv HP) as Hpm. cbn beta in Hpm.
    assert (EP : exists g, head = pre ++ g).
    { rewrite E2 in E. apply (prefix_of_size pre head t ([123%N] ++ m_body m ++ [125%N] ++ after) (eq_sym E)).
      rewrite !size_bytes. lia. }
    destruct EP as [g ->].
    apply StronglySorted_inv in HS. destruct HS as [HS HB].
    destruct (IH (pre ++ g ++ [123%N] ++ m_body m ++ [125%N]) after) as (rs & t' & R1 & R2 & R3).
    + rewrite E2, <- !app_assoc. reflexivity.
    + exact (Forall_inv_tail HD).
    + exact HS.
    + eapply Forall_impl; [|exact HB]. intros m' K. unfold Before in K.
      rewrite B2 in K. rewrite <- !app_assoc in K. rewrite !bytes_app in *. cbn [bytes] in *.
      change (len8 125) with 1. lia.
    + exists ((bytes (pre ++ g), m_body_end m + 1, replacement cf (src ts) m) :: rs), (g ++ replacement cf (src ts) m ++ t').
      cbn [replacements].
      rewrite E2 at 1. rewrite B1. rewrite (app_assoc (pre ++ g) [123%N]).
      rewrite btake_app, rfind_snoc. rewrite R1. split; [reflexivity|]. split.
      * unfold apply_all in *. cbn [rev]. rewrite fold_left_app, R2. cbn [fold_left].
        unfold replace_range.
        replace (m_body_end m + 1) with (bytes (pre ++ g ++ [123%N] ++ m_body m ++ [125%N])).
        2:{ rewrite B2, <- !app_assoc, !bytes_app. cbn [bytes]. change (len8 125) with 1. lia. }
        rewrite bdrop_app.
        replace ((pre ++ g ++ [123%N] ++ m_body m ++ [125%N]) ++ t')
          with ((pre ++ g) ++ ([123%N] ++ m_body m ++ [125%N]) ++ t')
          by (rewrite <- !app_assoc; reflexivity).
        rewrite btake_app, <- !app_assoc. reflexivity.
      * rewrite E2 in E. rewrite <- app_assoc in E. apply app_inv_head in E. subst t.
        cbn [pairs List.map]. apply splice_cons. exact R3.
Qed.

Lemma spliced_code bs t t' : Spliced bs t t' ->
  (forall b r, In (b, r) bs -> squash r = [123%N] ++ squash b ++ [125%N]) -> squash t = squash t'.
Proof.
  induction 1 as [g|g body repl bs t t' H IH]; intros HB; [reflexivity|].
  rewrite !squash_app, IH by (intros b r K; apply HB; right; exact K).
  rewrite (HB body repl) by (left; reflexivity).
  change (squash [123%N]) with [123%N]. change (squash [125%N]) with [125%N].
  rewrite <- !app_assoc. reflexivity.
Qed.
