(** Literals printed verbatim and comments. *)
From Coq Require Import List NArith Bool Arith Lia.
From Coq Require Import Strings.String.
From Verif.Common Require Import Str Replace.
From Verif.TokenPrinter Require Import Model Spec.
Import ListNotations.
Local Open Scope N_scope.
Local Open Scope list_scope.

Definition dbl (c : char) : str := if c =? bslash then [bslash; bslash] else [c].
Definition esc (c : char) : str :=
  if c =? bslash then [bslash; bslash] else if c =? dquote then [bslash; dquote] else [c].

Lemma replace_nil from to : from <> [] -> str_replace from to [] = [].
Proof. intro H. rewrite str_replace_eq by exact H. destruct from; [contradiction|reflexivity]. Qed.
Lemma replace_single a to s : str_replace [a] to s = flat_map (fun c => if c =? a then to else [c]) s.
Proof.
  induction s as [|c s IH]; [now apply replace_nil|]. rewrite str_replace_eq by discriminate. cbn [expect flat_map].
  rewrite N.eqb_sym. destruct (c =? a); now rewrite IH.
Qed.
Lemma escape_flat name :
  str_replace [dquote] [bslash; dquote] (str_replace [bslash] [bslash; bslash] name) = flat_map esc name.
Proof.
  rewrite !replace_single. induction name as [|c name IH]; [reflexivity|]. cbn [flat_map]. rewrite flat_map_app, IH.
  f_equal. unfold esc. destruct (c =? bslash); [reflexivity|]. cbn [flat_map]. rewrite app_nil_r. now destruct (c =? dquote).
Qed.
Lemma esc_head name c s : flat_map esc name = c :: s -> c <> dquote.
Proof.
  destruct name as [|x name]; [discriminate|]. cbn [flat_map]. unfold esc at 1. destruct (N.eqb_spec x bslash).
  - intro H. injection H as <- _. discriminate.
  - destruct (N.eqb_spec x dquote) as [->|Hne]; intro H; injection H as <- _; [discriminate|exact Hne].
Qed.
(** First replacement: escaped quotes become quotes. *)
Lemma replace_no_head a b to c s : c <> a -> str_replace [a; b] to (c :: s) = c :: str_replace [a; b] to s.
Proof. intro H. rewrite str_replace_eq by discriminate. cbn [expect]. destruct (N.eqb_spec a c); [congruence|reflexivity]. Qed.
Lemma replace_no_second a b to s : (forall c s', s = c :: s' -> c <> b) -> str_replace [a; b] to (a :: s) = a :: str_replace [a; b] to s.
Proof.
  intro H. rewrite str_replace_eq by discriminate. cbn [expect]. rewrite N.eqb_refl. destruct s as [|c s]; [reflexivity|].
  cbn [expect]. destruct (N.eqb_spec b c); [|reflexivity]. exfalso. apply (H c s eq_refl). congruence.
Qed.
Lemma replace_match a b to s : str_replace [a; b] to (a :: b :: s) = to ++ str_replace [a; b] to s.
Proof. rewrite str_replace_eq by discriminate. cbn [expect]. now rewrite !N.eqb_refl. Qed.

Lemma unquote_tail name tl : (forall c s', tl = c :: s' -> c <> dquote) ->
  str_replace [bslash; dquote] [dquote] (flat_map esc name ++ tl) = flat_map dbl name ++ str_replace [bslash; dquote] [dquote] tl.
Proof.
  intro Ht. induction name as [|c name IH]; [reflexivity|]. cbn [flat_map].
  assert (Hh : forall x s', flat_map esc name ++ tl = x :: s' -> x <> dquote).
  { destruct (flat_map esc name) as [|y l] eqn:E; [exact Ht|]. intros x s' X. injection X as <- _. exact (esc_head _ _ _ E). }
  unfold esc at 1, dbl at 1. destruct (N.eqb_spec c bslash) as [->|Hb].
  - cbn [app]. rewrite replace_no_second by (intros x s' X; injection X as <- _; discriminate).
    rewrite replace_no_second by exact Hh. now rewrite IH.
  - destruct (N.eqb_spec c dquote) as [->|Hq]; cbn [app].
    + rewrite replace_match. now rewrite IH.
    + rewrite replace_no_head by exact Hb. now rewrite IH.
Qed.
Lemma undouble_tail name tl :
  str_replace [bslash; bslash] [bslash] (flat_map dbl name ++ tl) = name ++ str_replace [bslash; bslash] [bslash] tl.
Proof.
  induction name as [|c name IH]; [reflexivity|]. cbn [flat_map]. unfold dbl at 1. destruct (N.eqb_spec c bslash) as [->|Hb]; cbn [app].
  - rewrite replace_match. now rewrite IH.
  - rewrite replace_no_head by exact Hb. now rewrite IH.
Qed.

(** Trimming the quotes. *)
Lemma trim_quotes s : (forall c s', s = c :: s' -> c <> dquote) -> (forall c s', s = s' ++ [c] -> c <> dquote) ->
  trim_c dquote ([dquote] ++ s ++ [dquote]) = s.
Proof.
  intros Hs He. unfold trim_c, trim_end_c. cbn [app trim_start_c]. rewrite N.eqb_refl.
  destruct s as [|c s]; [reflexivity|].
  cbn [app]. rewrite trim_start_other by (eapply Hs; reflexivity).
  change (c :: s ++ [dquote]) with ((c :: s) ++ [dquote]). rewrite rev_app_distr. cbn [rev app trim_start_c]. rewrite N.eqb_refl.
  destruct (rev s ++ [c]) as [|x r] eqn:E; [destruct (rev s); discriminate|].
  assert (X : c :: s = rev r ++ [x]) by (rewrite <- (rev_involutive (c :: s)); cbn [rev]; rewrite E; reflexivity).
  rewrite trim_start_other; [|eapply He; exact X]. rewrite X. cbn [rev]. reflexivity.
Qed.
Lemma esc_last name c s : flat_map esc name = s ++ [c] -> exists name', name = name' ++ [c].
Proof.
  destruct name as [|x name _] using rev_ind; [destruct s; discriminate|]. rewrite flat_map_app. cbn [flat_map]. rewrite app_nil_r.
  intro H. exists name. f_equal. f_equal. unfold esc in H. destruct (N.eqb_spec x bslash) as [->|].
  - change [bslash; bslash] with ([bslash] ++ [bslash]) in H. rewrite app_assoc in H. apply app_inj_tail in H as [_ H]. exact H.
  - destruct (N.eqb_spec x dquote) as [->|].
    + change [bslash; dquote] with ([bslash] ++ [dquote]) in H. rewrite app_assoc in H. apply app_inj_tail in H as [_ H]. exact H.
    + apply app_inj_tail in H as [_ H]. exact H.
Qed.
Lemma literally_round_trip name : (forall name', name <> name' ++ [dquote]) ->
  literally_text (quote_name name) = name ++ nl.
Proof.
  intro H. unfold literally_text, quote_name. rewrite escape_flat.
  rewrite trim_quotes.
  - replace (flat_map esc name) with (flat_map esc name ++ []) by apply app_nil_r.
    rewrite unquote_tail by discriminate. rewrite undouble_tail. rewrite !replace_nil by discriminate. now rewrite !app_nil_r.
  - intros c s' E. exact (esc_head _ _ _ E).
  - intros c s' E Hc. apply esc_last in E as [name' E]. apply (H name'). now subst c.
Qed.
Lemma trim_quotes_end s : (forall c s', s = c :: s' -> c <> dquote) -> (exists c s', s = s' ++ [c] /\ c <> dquote) -> forall k,
  trim_c dquote ([dquote] ++ s ++ repeat dquote k) = s.
Proof.
  intros Hs (e & s' & -> & He) k. unfold trim_c, trim_end_c. cbn [app trim_start_c]. rewrite N.eqb_refl.
  assert (X : exists c r, s' ++ [e] = c :: r /\ c <> dquote) by (destruct s' as [|c s']; cbn; do 2 eexists; (split; [reflexivity|]); [exact He|eapply Hs; reflexivity]).
  destruct X as (c & r & E & Hc). rewrite E. cbn [app]. rewrite trim_start_other by exact Hc.
  change (c :: r ++ repeat dquote k) with ((c :: r) ++ repeat dquote k). rewrite <- E, rev_app_distr.
  assert (Y : forall k l, trim_start_c dquote (repeat dquote k ++ l) = trim_start_c dquote l).
  { clear. induction k as [|k IH]; intro l; [reflexivity|]. cbn. rewrite IH. reflexivity. }
  assert (Z : rev (repeat dquote k) = repeat dquote k).
  { clear. induction k as [|k IH]; [reflexivity|]. cbn. rewrite IH. clear IH. induction k as [|k IH]; [reflexivity|]. cbn. now f_equal. }
  rewrite Z, Y, rev_app_distr. cbn [rev app]. rewrite trim_start_other by exact He. cbn [rev]. now rewrite rev_involutive.
Qed.
Lemma literally_ending_in_quote x : literally_text (quote_name (x ++ [dquote])) = x ++ [bslash] ++ nl.
Proof.
  unfold literally_text, quote_name. rewrite escape_flat, flat_map_app. cbn [flat_map esc]. 
  change (esc dquote) with ([bslash] ++ [dquote]). rewrite app_nil_r.
  replace ([dquote] ++ (flat_map esc x ++ [bslash] ++ [dquote]) ++ [dquote])
    with ([dquote] ++ (flat_map esc x ++ [bslash]) ++ repeat dquote 2) by (cbn; rewrite <- !app_assoc; reflexivity).
  rewrite trim_quotes_end.
  - rewrite unquote_tail by (intros c s' E; injection E as <- _; discriminate).
    change (str_replace [bslash; dquote] [dquote] [bslash]) with [bslash].
    rewrite undouble_tail. change (str_replace [bslash; bslash] [bslash] [bslash]) with [bslash]. now rewrite <- app_assoc.
  - intros c s' E. destruct (flat_map esc x) as [|y l] eqn:E2.
    + cbn in E. injection E as <- _. discriminate.
    + injection E as <- _. exact (esc_head _ _ _ E2).
  - exists bslash, (flat_map esc x). split; [reflexivity|discriminate].
Qed.

(** Comments. *)
Lemma trim_start_incl c s x : In x (trim_start_c c s) -> In x s.
Proof. induction s as [|y s IH]; cbn; [tauto|]. destruct (y =? c); [auto|tauto]. Qed.
Lemma trim_incl c s x : In x (trim_c c s) -> In x s.
Proof.
  unfold trim_c, trim_end_c. intro H. apply in_rev in H. apply trim_start_incl in H. apply in_rev in H. now apply trim_start_incl in H.
Qed.
Lemma replace_incl from to : from <> [] -> forall s x, In x (str_replace from to s) -> In x s \/ In x to.
Proof.
  intros Hf s. remember (List.length s) as n eqn:Hn. revert s Hn.
  induction n as [n IH] using lt_wf_ind. intros s -> x. rewrite str_replace_eq by exact Hf.
  destruct (expect from s) as [rest|] eqn:E.
  - pose proof (expect_shrink from Hf _ _ E) as L. apply expect_spec in E. intro H. apply in_app_or in H as [H|H]; [now right|].
    destruct (IH _ L _ eq_refl _ H) as [H1|H1]; [|now right]. left. subst s. apply in_or_app. now right.
  - destruct s as [|c s]; [tauto|]. intros [<-|H]; [left; now left|]. destruct (IH (List.length s) ltac:(cbn; lia) _ eq_refl _ H) as [H1|H1]; [left; now right|now right].
Qed.
Definition starts (p s : str) : Prop := exists r, s = p ++ r.
(** Every line break in the text is followed by the end or by the comment sign. *)
Definition lines_ok (s : str) : Prop := forall a b, s = a ++ nl ++ b -> b = [] \/ starts (lit "// ") b.
Lemma lines_ok_cons c s : c <> 10 -> lines_ok s -> lines_ok (c :: s).
Proof.
  intros Hc H a b E. destruct a as [|x a]; cbn in E.
  - injection E as E _. contradiction.
  - injection E as _ E. now apply (H a b).
Qed.
Lemma replace_lines s : ~ In 10 s -> lines_ok (str_replace [bslash; ch "n"] (nl ++ lit "// ") s ++ nl).
Proof.
  remember (List.length s) as n eqn:Hn. revert s Hn. induction n as [n IH] using lt_wf_ind. intros s -> H10.
  rewrite str_replace_eq by discriminate. destruct (expect [bslash; ch "n"] s) as [rest|] eqn:E.
  - pose proof (expect_shrink [bslash; ch "n"] ltac:(discriminate) _ _ E) as L. apply expect_spec in E.
    assert (Hr : lines_ok (str_replace [bslash; ch "n"] (nl ++ lit "// ") rest ++ nl)).
    { eapply IH; [exact L|reflexivity|]. intro X. apply H10. rewrite E. apply in_or_app. now right. }
    set (tail := str_replace [bslash; ch "n"] (nl ++ lit "// ") rest ++ nl) in *.
    rewrite <- app_assoc. fold tail. clearbody tail. intros a b X. destruct a as [|x a].
    + cbn [nl app] in X. injection X as <-. right. exists tail. reflexivity.
    + cbn [nl app] in X. injection X as _ X. revert a b X. change (lines_ok (lit "// " ++ tail)).
      cbn [lit]. repeat (apply lines_ok_cons; [discriminate|]). exact Hr.
  - destruct s as [|c s].
    + intros a b X. destruct a as [|x a]; cbn in X; [injection X as <-; now left|]. injection X as _ X. destruct a; discriminate.
    + cbn [app]. apply lines_ok_cons; [intro; apply H10; left; congruence|]. eapply IH; [|reflexivity|]; [cbn; lia|]. intro. apply H10. now right.
Qed.
Lemma comment_lines text : ~ In 10 text -> starts (lit "// ") (comment_text text) /\ lines_ok (comment_text text).
Proof.
  intro H. split; [eexists; reflexivity|]. unfold comment_text. cbn [lit]. cbn [app]. repeat (apply lines_ok_cons; [discriminate|]).
  apply replace_lines. intro X. apply replace_incl in X as [X|[X|[]]]; [|discriminate|discriminate]. now apply trim_incl in X.
Qed.
