(** Property theorems C17, C18, C38-C40 about code generation utilities. *)
From Coq Require Import List NArith Arith Bool Lia Sorting.Sorted.
From Coq Require Import Strings.String.
From Verif.Common Require Import Str.
From Verif.Features Require Import Model.
From Verif.CodeGen Require Import Words Model Spec.
Import ListNotations.
Local Open Scope N_scope.
Local Open Scope list_scope.

(** ** C17 *)
Lemma hex_digit_inj a b : a < 16 -> b < 16 -> hex_digit a = hex_digit b -> a = b.
Proof. unfold hex_digit. destruct (N.ltb_spec a 10), (N.ltb_spec b 10); lia. Qed.
Lemma hex_digit_alnum d : d < 16 -> is_ascii_alnum (hex_digit d) = true.
Proof.
  intro H. unfold hex_digit, is_ascii_alnum, is_ascii_alpha, is_ascii_upper, is_ascii_lower, is_ascii_digit.
  destruct (N.ltb_spec d 10);
  repeat match goal with |- context[?a <=? ?b] => destruct (N.leb_spec a b) end; cbn; try reflexivity; lia.
Qed.
Lemma mod16 x : x mod 16 < 16.
Proof. apply N.mod_lt. discriminate. Qed.
Lemma hexn_length n : forall c, List.length (hexn n c) = n.
Proof. induction n as [|n IH]; intro c; cbn; [reflexivity|]. rewrite app_length, IH. cbn. lia. Qed.
Lemma hexn_inj n : forall a b, a < 16 ^ N.of_nat n -> b < 16 ^ N.of_nat n -> hexn n a = hexn n b -> a = b.
Proof.
  induction n as [|n IH]; intros a b Ha Hb E.
  - cbn in Ha, Hb. lia.
  - cbn [hexn] in E. apply app_inj_tail in E as [E1 E2].
    apply hex_digit_inj in E2; [|apply mod16|apply mod16].
    rewrite Nat2N.inj_succ, N.pow_succ_r' in Ha, Hb.
    apply IH in E1; [|apply N.div_lt_upper_bound; lia|apply N.div_lt_upper_bound; lia].
    rewrite (N.div_mod' a 16), (N.div_mod' b 16). congruence.
Qed.
Lemma hexn_alnum n : forall c, Forall (fun x => is_ascii_alnum x = true) (hexn n c).
Proof.
  induction n as [|n IH]; intro c; cbn; [constructor|]. apply Forall_app. split; [apply IH|].
  constructor; [|constructor]. apply hex_digit_alnum, mod16.
Qed.

Lemma app_eq_len (a b r t : str) : List.length a = List.length b -> a ++ r = b ++ t -> a = b /\ r = t.
Proof.
  revert b. induction a as [|x a IH]; intros [|y b] L E; try discriminate L; [now split|].
  cbn in *. injection E as -> E. injection L as L. destruct (IH _ L E) as [-> ->]. now split.
Qed.
Lemma escape_char_prefix xs xc f a b r t : scalar a -> scalar b ->
  escape_char xs xc f a ++ r = escape_char xs xc f b ++ t -> a = b /\ r = t.
Proof.
  intros Sa Sb. unfold escape_char. change (ch "_") with 95. change (ch "$") with 36. change (ch ".") with 46. set (v := if f then xs else xc).
  replace (if f then xs a else xc a) with (v a) by (unfold v; now destruct f).
  replace (if f then xs b else xc b) with (v b) by (unfold v; now destruct f).
  destruct (N.eqb_spec a 95) as [Ea|Na]; [|destruct (N.eqb_spec a 36) as [Ea|Na2];
    [|destruct (N.eqb_spec a 46) as [Ea|Na3]; [|destruct (v a)]]];
  (destruct (N.eqb_spec b 95) as [Eb|Nb]; [|destruct (N.eqb_spec b 36) as [Eb|Nb2];
    [|destruct (N.eqb_spec b 46) as [Eb|Nb3]; [|destruct (v b)]]]);
  cbn [lit app]; intro E; try discriminate E;
  try (pose proof (f_equal (hd 0) E) as E1; pose proof (f_equal (@tl N) E) as E2; cbn in E1, E2;
       try (pose proof (f_equal (@tl N) E2) as E3; cbn [tl] in E3); split; [congruence|assumption]);
  try (exfalso; pose proof (f_equal (hd 0) E) as E1; cbn in E1; congruence).
  (* both escaped as hex *)
  pose proof (f_equal (@tl N) E) as E0. cbn [tl] in E0. apply (f_equal (@tl N)) in E0. cbn [tl] in E0.
  apply app_eq_len in E0 as [E1 E2]; [|now rewrite !hexn_length].
  split; [|exact E2]. apply (hexn_inj 8); [| |exact E1]; unfold scalar in *; cbn; lia.
Qed.
Lemma escape_char_nonempty xs xc f a : escape_char xs xc f a <> [].
Proof.
  unfold escape_char. repeat match goal with |- context[if ?c then _ else _] => destruct c end; discriminate.
Qed.

Theorem C17_escape_injective :
  forall xid_start xid_continue s t, wf s -> wf t ->
    escape_non_identifier_chars xid_start xid_continue s = escape_non_identifier_chars xid_start xid_continue t ->
    s = t.
Proof.
  intros xs xc s t Ws Wt E.
  assert (X : forall a b, wf a -> wf b -> flat_map (escape_char xs xc false) a = flat_map (escape_char xs xc false) b -> a = b).
  { clear. intro a. induction a as [|x a IH]; intros [|y b] Wa Wb E; cbn in E.
    - reflexivity.
    - symmetry in E. apply app_eq_nil in E as [E _]. now apply escape_char_nonempty in E.
    - apply app_eq_nil in E as [E _]. now apply escape_char_nonempty in E.
    - inversion Wa. inversion Wb. subst. apply escape_char_prefix in E as [-> E]; auto. f_equal. auto. }
  destruct s as [|x s], t as [|y t]; cbn in E.
  - reflexivity.
  - symmetry in E. apply app_eq_nil in E as [E _]. now apply escape_char_nonempty in E.
  - apply app_eq_nil in E as [E _]. now apply escape_char_nonempty in E.
  - inversion Ws. inversion Wt. subst. apply escape_char_prefix in E as [-> E]; auto. f_equal. auto.
Qed.

Theorem C17_escape_yields_identifier :
  forall xid_start xid_continue, xid_ok xid_continue -> forall s,
    s <> [] ->
    exists c r, escape_non_identifier_chars xid_start xid_continue s = c :: r /\
      (xid_start c = true \/ c = ch "_") /\ Forall (fun x => xid_continue x = true) r.
Proof.
  intros xs xc Hx s Hs. destruct s as [|x s]; [contradiction|]. cbn [escape_non_identifier_chars].
  assert (A : forall w, Forall (fun x => is_ascii_alnum x = true \/ x = ch "_") w -> Forall (fun x => xc x = true) w).
  { intros w Hw. eapply Forall_impl; [|exact Hw]. intros a Ha. now apply Hx. }
  assert (Hh : forall c, Forall (fun x => is_ascii_alnum x = true \/ x = ch "_") (hexn 8 c)).
  { intro c. eapply Forall_impl; [|apply hexn_alnum]. intros a Ha. now left. }
  assert (Hall : Forall (fun x => xc x = true) (flat_map (escape_char xs xc false) s)).
  { apply Forall_forall. intros y Hy. apply in_flat_map in Hy as (c & _ & Hy). revert y Hy. apply Forall_forall.
    unfold escape_char.
    destruct (c =? ch "_"); [apply A; constructor; [now right|constructor; [now left|constructor]]|].
    destruct (c =? ch "$"); [apply A; constructor; [now right|constructor; [now left|constructor]]|].
    destruct (c =? ch "."); [apply A; constructor; [now right|constructor; [now left|constructor]]|].
    destruct (xc c) eqn:E; [constructor; [exact E|constructor]|].
    cbn [lit app]. constructor; [apply Hx; now right|]. constructor; [apply Hx; now left|]. apply A, Hh. }
  unfold escape_char.
  destruct (x =? ch "_"); [exists (ch "_"), (ch "u" :: flat_map (escape_char xs xc false) s)|
  destruct (x =? ch "$"); [exists (ch "_"), (ch "d" :: flat_map (escape_char xs xc false) s)|
  destruct (x =? ch "."); [exists (ch "_"), (ch "p" :: flat_map (escape_char xs xc false) s)|
  destruct (xs x) eqn:E; [exists x, (flat_map (escape_char xs xc false) s)|
  exists (ch "_"), (ch "x" :: hexn 8 x ++ flat_map (escape_char xs xc false) s)]]]].
  - repeat split; [now right|]. constructor; [apply Hx; now left|exact Hall].
  - repeat split; [now right|]. constructor; [apply Hx; now left|exact Hall].
  - repeat split; [now right|]. constructor; [apply Hx; now left|exact Hall].
  - repeat split; [now left|exact Hall].
  - repeat split; [now right|]. constructor; [apply Hx; now left|]. apply Forall_app. split; [apply A, Hh|exact Hall].
Qed.

(** ** C18 *)
Lemma word_in_spec s l : word_in s l = true <-> exists w, In w l /\ s = lit w.
Proof.
  unfold word_in. rewrite existsb_exists. split; intros (w & H1 & H2); exists w; (split; [exact H1|]); now apply str_eqb_eq.
Qed.
(** No word of either list is another word with an underscore appended. *)
Lemma no_underscore_twin : forall w, In w (reserved_cc_keywords ++ reserved_cc_macros) ->
  word_in (lit w ++ lit "_") (reserved_cc_keywords ++ reserved_cc_macros) = false.
Proof.
  apply Forall_forall.
  assert (X : forallb (fun w => negb (word_in (lit w ++ lit "_") (reserved_cc_keywords ++ reserved_cc_macros)))
               (reserved_cc_keywords ++ reserved_cc_macros) = true) by (vm_compute; reflexivity).
  rewrite forallb_forall in X. apply Forall_forall. intros w Hw. specialize (X w Hw). now apply negb_true_iff.
Qed.
Lemma nonportable_spec s fs : is_cpp_nonportable_word s fs = true <->
  word_in s reserved_cc_keywords = true \/ (fs ReserveStandardMacros = true /\ word_in s reserved_cc_macros = true).
Proof.
  unfold is_cpp_nonportable_word, is_cpp_reserved_keyword. destruct (word_in s reserved_cc_keywords); [intuition|].
  destruct (fs ReserveStandardMacros); cbn; intuition congruence.
Qed.
Lemma word_in_app s a b : word_in s (a ++ b) = word_in s a || word_in s b.
Proof. unfold word_in. apply existsb_app. Qed.

Lemma keywords_complete s : cpp_keyword s -> is_cpp_reserved_keyword s = true.
Proof.
  intros (w & Hw & ->). unfold is_cpp_reserved_keyword.
  assert (X : forallb (fun w => word_in (lit w) reserved_cc_keywords) cpp20_keywords = true) by (vm_compute; reflexivity).
  rewrite forallb_forall in X. now apply X.
Qed.

(** The result is never reserved (with the same features), never a C++20 keyword whatever the
    features, and names that are not reserved are kept. *)
Theorem C18_unkeyword_never_reserved :
  forall ident features,
    is_cpp_nonportable_word (unkeyword_cpp_ident ident features) features = false /\
    ~ cpp_keyword (unkeyword_cpp_ident ident features) /\
    (is_cpp_nonportable_word ident features = false -> unkeyword_cpp_ident ident features = ident) /\
    (is_cpp_nonportable_word ident features = true -> unkeyword_cpp_ident ident features = ident ++ lit "_").
Proof.
  intros s fs.
  assert (A : is_cpp_nonportable_word (unkeyword_cpp_ident s fs) fs = false).
  { unfold unkeyword_cpp_ident. destruct (is_cpp_nonportable_word s fs) eqn:E; [|exact E].
    apply nonportable_spec in E.
    assert (exists w, In w (reserved_cc_keywords ++ reserved_cc_macros) /\ s = lit w) as (w & Hw & ->).
    { apply word_in_spec. rewrite word_in_app. destruct E as [->|[_ ->]]; [reflexivity|apply orb_true_r]. }
    apply no_underscore_twin in Hw. rewrite word_in_app in Hw. apply orb_false_iff in Hw as [H1 H2].
    destruct (is_cpp_nonportable_word (lit w ++ lit "_") fs) eqn:E2; [|reflexivity].
    apply nonportable_spec in E2. destruct E2 as [E2|[_ E2]]; congruence. }
  split; [exact A|]. split.
  - intro K. apply keywords_complete in K. unfold is_cpp_nonportable_word in A. rewrite K in A. discriminate.
  - unfold unkeyword_cpp_ident. split; intros ->; reflexivity.
Qed.

(** Renaming is not injective: a reserved word and the same word with an underscore clash. *)
Theorem C18_unkeyword_injective_refuted :
  ~ (forall a b fs, a <> b -> unkeyword_cpp_ident a fs <> unkeyword_cpp_ident b fs).
Proof. intro H. apply (H (lit "for") (lit "for_") empty); [discriminate|reflexivity]. Qed.

Section Fmt.
  Variable xs xc : char -> bool.
  (** [format_cc_ident] and the name checks succeed only on names that are not reserved. *)
  Theorem C18_format_cc_ident_rejects_reserved :
    forall ident features id, format_cc_ident xs xc ident features = Some id ->
      is_cpp_nonportable_word ident features = false /\ ~ cpp_keyword ident /\ ident <> [].
  Proof.
    intros ident fs id. unfold format_cc_ident, unchecked_format_cc_ident.
    destruct (is_cpp_nonportable_word ident fs) eqn:E; cbn; [discriminate|]. intro H.
    split; [reflexivity|]. split; [|intros ->; discriminate]. intro K. apply keywords_complete in K.
    unfold is_cpp_nonportable_word in E. now rewrite K in E.
  Qed.
  Theorem C18_check_name_rejects_reserved :
    forall name features,
      (check_portable_cc_name xs name features = true ->
         is_cpp_nonportable_word name features = false /\ name <> [] /\ check_valid_cc_name xs name = true) /\
      (check_valid_cc_name xs name = true -> ~ cpp_keyword name).
  Proof.
    intros name fs. unfold check_portable_cc_name, check_valid_cc_name. split.
    - intro H. apply andb_prop in H as [H1 H2]. apply negb_true_iff in H1. split; [exact H1|]. split; [intros ->; discriminate|].
      rewrite H2, andb_true_r. apply negb_true_iff. unfold is_cpp_nonportable_word in H1.
      now destruct (is_cpp_reserved_keyword name).
    - intros H K. apply keywords_complete in K. rewrite K in H. discriminate.
  Qed.
  (** For names without white space at either end, the identifier produced is the name itself,
      so it is not reserved. *)
  Definition trimmed (s : str) : Prop :=
    (forall c r, s = c :: r -> is_space c = false) /\ (forall c r, s = r ++ [c] -> is_space c = false).
  Lemma trim_trimmed s : trimmed s -> trim s = s.
  Proof.
    intros [H1 H2]. unfold trim. assert (X : trim_start s = s).
    { destruct s as [|c r]; [reflexivity|]. cbn. now rewrite (H1 c r eq_refl). }
    rewrite X. destruct (rev s) as [|c r] eqn:E.
    - apply (f_equal (@rev N)) in E. rewrite rev_involutive in E. now subst.
    - cbn. assert (E' : s = rev r ++ [c]) by (rewrite <- (rev_involutive s), E; reflexivity).
      rewrite (H2 _ _ E'). cbn. now rewrite <- E'.
  Qed.
  Theorem C18_format_cc_ident_output_partial :
    forall ident features id, trimmed ident -> format_cc_ident xs xc ident features = Some id ->
      id = ident /\ is_cpp_nonportable_word id features = false /\ ~ cpp_keyword id.
  Proof.
    intros ident fs id Ht H. destruct (C18_format_cc_ident_rejects_reserved _ _ _ H) as (H1 & H2 & H3).
    assert (id = ident) as ->; [|now repeat split].
    unfold format_cc_ident in H. rewrite H1 in H. cbn in H. unfold unchecked_format_cc_ident, parse_any in H.
    rewrite (trim_trimmed _ Ht) in H. destruct ident; [contradiction|]. destruct (is_ident _ _ _); congruence.
  Qed.
End Fmt.
(** With white space around it a keyword gets through: the check is made on the raw string, the
    parser then drops the white space. *)
Theorem C18_format_cc_ident_output_refuted :
  forall xs xc, (forall c, is_ascii_alpha c = true -> xs c = true) -> xid_ok xc ->
  exists ident features id, format_cc_ident xs xc ident features = Some id /\ cpp_keyword id.
Proof.
  intros xs xc Hs Hc. exists (lit "int "), empty, (lit "int"). split.
  - unfold format_cc_ident. cbn [is_cpp_nonportable_word]. vm_compute (negb _). cbn [unchecked_format_cc_ident lit].
    unfold parse_any. change (trim _) with (lit "int"). unfold is_ident. cbn [lit].
    rewrite Hs by reflexivity. cbn [forallb orb andb]. rewrite !Hc by (left; reflexivity). reflexivity.
  - exists "int"%string. split; [|reflexivity]. cbn. tauto.
Qed.

(** ** C38: includes *)
Definition includes_of (ls : list line) : list include :=
  flat_map (fun x => match x with Include i => [i] | Blank => [] end) ls.
Lemma format_includes l : includes_of (format_cc_includes l) = l.
Proof.
  induction l as [|i l IH]; [reflexivity|]. cbn [format_cc_includes includes_of flat_map app].
  f_equal. unfold includes_of in *. rewrite flat_map_app, IH. destruct i, l as [|[]]; reflexivity.
Qed.
Definition is_system (i : include) : Prop := exists p, i = SystemHeader p.
Definition is_user (i : include) : Prop := exists p, i = UserHeader p.

(** For every include set: each include is printed exactly once, in order; there is an empty line
    exactly when there are both system and user headers, and it is right between the
    last system header and the first user header. *)
Theorem C38_format_cc_includes :
  forall l, include_set l ->
    includes_of (format_cc_includes l) = l /\
    (In Blank (format_cc_includes l) <-> Exists is_system l /\ Exists is_user l) /\
    forall a b, format_cc_includes l = a ++ Blank :: b ->
      Forall is_system (includes_of a) /\ Forall (fun i => ~ is_system i) (includes_of b) /\
      ~ In Blank a /\ ~ In Blank b /\ (exists p b', b = Include (UserHeader p) :: b').
Proof.
  intros l Hs. split; [apply format_includes|].
  assert (Hge : forall i l, include_set (i :: l) -> ~ is_system i -> Forall (fun j => ~ is_system j) (i :: l)).
  { clear. intros i l H Hi. inversion H as [|? ? _ Hl]. subst. constructor; [exact Hi|]. eapply Forall_impl; [|exact Hl].
    intros j Hlt [p ->]. unfold include_lt, include_cmp in Hlt. destruct i; cbn in Hlt; try discriminate.
    apply Hi. eexists. reflexivity. }
  assert (Hnb : forall l, Forall (fun j => ~ is_system j) l -> ~ In Blank (format_cc_includes l)).
  { clear. intros l H. induction H as [|i l Hi _ IH]; cbn; [auto|]. intros [E|E]; [discriminate|].
    apply in_app_or in E as [E|E]; [|contradiction]. destruct i; try (destruct E; fail).
    apply Hi. eexists. reflexivity. }
  (* shape *)
  assert (Shape : (~ In Blank (format_cc_includes l) /\ ~ (Exists is_system l /\ Exists is_user l)) \/
    exists s p u, l = s ++ UserHeader p :: u /\ s <> [] /\ Forall is_system s /\
      Forall (fun i => ~ is_system i) (UserHeader p :: u) /\
      format_cc_includes l = map Include s ++ Blank :: format_cc_includes (UserHeader p :: u)).
  { induction l as [|i l IH].
    - left. split; [intros []|]. intros [H _]. inversion H.
    - inversion Hs as [|? ? Hs' Hl]. subst. destruct i as [q|q|q|q].
      2-4: left; (split; [apply Hnb, Hge; [exact Hs|intros [p E]; discriminate]|]);
           intros [H _]; apply Exists_exists in H as (j & Hj & Hsys);
           assert (HF := Hge _ _ Hs); rewrite Forall_forall in HF;
           refine (HF _ _ Hj Hsys); intros [p E]; discriminate.
      destruct (IH Hs') as [[N1 N2]|(s & p & u & -> & Hne & Hsys & Hns & Hfmt)].
      + destruct l as [|[p|p|p|p] l'].
        * left. split; [cbn; intros [E|[]]; discriminate|]. intros [_ H]. inversion H as [? ? [? E]|? ? H']; [discriminate|inversion H'].
        * left. split; [intros [E|E]; [discriminate|]; now apply N1|].
          intros [_ H]. apply N2. split; [left; eexists; reflexivity|]. inversion H as [? ? [? E]|? ? H']; [discriminate|exact H'].
        * right. exists [SystemHeader q], p, l'. repeat split.
          -- discriminate.
          -- constructor; [eexists; reflexivity|constructor].
          -- apply Hge; [exact Hs'|]. intros [r E]. discriminate.
        * left. split; [intros [E|E]; [discriminate|]; now apply N1|].
          intros [_ H]. inversion H as [? ? [? E]|? ? H']; [discriminate|]. subst.
          inversion H' as [? ? [? E]|? ? H'']; [discriminate|]. subst. apply Exists_exists in H'' as (j & Hj & [r ->]).
          inversion Hs' as [|? ? _ Hl']. subst. rewrite Forall_forall in Hl'. specialize (Hl' _ Hj). discriminate.
        * left. split; [intros [E|E]; [discriminate|]; now apply N1|].
          intros [_ H]. inversion H as [? ? [? E]|? ? H']; [discriminate|]. subst.
          inversion H' as [? ? [? E]|? ? H'']; [discriminate|]. subst. apply Exists_exists in H'' as (j & Hj & [r ->]).
          inversion Hs' as [|? ? _ Hl']. subst. rewrite Forall_forall in Hl'. specialize (Hl' _ Hj). discriminate.
      + right. exists (SystemHeader q :: s), p, u. repeat split; try assumption.
        * discriminate.
        * constructor; [eexists; reflexivity|exact Hsys].
        * destruct s as [|s0 s]; [contradiction|]. inversion Hsys as [|? ? [r ->] _]. subst.
          transitivity (Include (SystemHeader q) :: format_cc_includes ((SystemHeader r :: s) ++ UserHeader p :: u)); [reflexivity|].
          exact (f_equal (cons (Include (SystemHeader q))) Hfmt). }
  destruct Shape as [[N1 N2]|(s & p & u & El & Hne & Hsys & Hns & Hfmt)].
  - split; [tauto|]. intros a b E. exfalso. apply N1. rewrite E. apply in_or_app. right. now left.
  - split.
    + split.
      * intros _. subst l. split; apply Exists_app; [left|right; left; eexists; reflexivity].
        destruct s; [contradiction|]. inversion Hsys. now left.
      * intros _. rewrite Hfmt. apply in_or_app. right. now left.
    + intros a b E. rewrite Hfmt in E.
      assert (HB1 : ~ In Blank (map Include s)) by (intro H; apply in_map_iff in H as (j & H & _); discriminate).
      assert (HB2 := Hnb _ Hns).
      assert (a = map Include s /\ b = format_cc_includes (UserHeader p :: u)) as [-> ->].
      { clear - E HB1 HB2. revert a E. induction (map Include s) as [|x m IH]; intros a E; cbn in E.
        - destruct a as [|y a]; cbn in E; [injection E as E2; now subst|]. injection E as E1 E2. exfalso. apply HB2.
          change (In Blank (Include (UserHeader p) :: format_cc_includes u)). rewrite E2.
          apply in_or_app. right. now left.
        - destruct a as [|y a]; cbn in E.
          + injection E as E1 E2. exfalso. apply HB1. now left.
          + injection E as E1 E2. subst y. destruct (IH (fun h => HB1 (or_intror h)) a E2) as [-> ->]. now split. }
      assert (Hmap : includes_of (map Include s) = s).
      { clear. induction s as [|x s IH]; [reflexivity|]. cbn. f_equal. exact IH. }
      rewrite Hmap, format_includes. repeat split; auto.
      exists p. eexists. reflexivity.
Qed.

(** [from_path] never panics; angle-bracketed paths become system headers without the
    brackets, all others user headers. *)
Theorem C38_from_path :
  forall path,
    (forall p, path = ch "<" :: p ++ lit ">" -> from_path path = Some (SystemHeader p)) /\
    ((forall p, path <> ch "<" :: p ++ lit ">") -> from_path path = Some (UserHeader path)).
Proof.
  intro path. split.
  - intros p ->. unfold from_path. unfold starts_with, ends_with_gt. cbn [strip_prefix lit].
    change (ch "<" =? _) with true. cbn iota.
    cbn [rev]. rewrite rev_app_distr. cbn [rev app lit]. cbn [andb].
    match goal with |- (if ?c then _ else _) = _ => change c with true end. cbn iota.
    unfold slice. cbn [List.length]. rewrite app_length. cbn [List.length lit].
    replace (S (List.length p + 1) - 1)%nat with (S (List.length p)) by lia.
    destruct (Nat.leb_spec 1 (S (List.length p))); [|lia].
    destruct (Nat.leb_spec (S (List.length p)) (S (List.length p + 1))); [|lia]. cbn [andb skipn].
    do 2 f_equal. replace (S (List.length p) - 1)%nat with (List.length p) by lia.
    rewrite firstn_app, Nat.sub_diag, firstn_all. cbn. apply app_nil_r.
  - intro H. unfold from_path. destruct (starts_with (lit "<") path && ends_with_gt path) eqn:E; [|reflexivity].
    exfalso. apply andb_prop in E as [E1 E2]. unfold starts_with in E1.
    destruct (strip_prefix (lit "<") path) as [r|] eqn:E3; [|discriminate]. apply strip_prefix_some in E3. subst path.
    unfold ends_with_gt in E2. destruct (rev (lit "<" ++ r)) as [|c q] eqn:E4; [discriminate|].
    apply N.eqb_eq in E2. subst c. apply (f_equal (@rev N)) in E4. rewrite rev_involutive in E4. cbn [rev lit app] in E4.
    destruct (rev q) as [|x q'] eqn:E5; [discriminate|]. cbn in E4. injection E4 as E6 E7. subst.
    apply (H q'). reflexivity.
Qed.

(** ** C39: hyphens *)
Definition dehyphen (c : char) : char := if c =? ch "-" then ch "_" else c.
Lemma split_nonempty c s : split c s <> [].
Proof. destruct s as [|x s]; cbn; [discriminate|]. destruct (x =? c); [discriminate|]. destruct (split c s); discriminate. Qed.
Lemma split_join c d s : match split c s with
  | p :: ps => p ++ flat_map (fun q => d :: q) ps | [] => [] end = map (fun x => if x =? c then d else x) s.
Proof.
  induction s as [|x s IH]; [reflexivity|]. cbn. destruct (x =? c).
  - pose proof (split_nonempty c s). destruct (split c s) as [|p ps]; [contradiction|]. cbn. now rewrite <- IH.
  - pose proof (split_nonempty c s). destruct (split c s) as [|p ps]; [contradiction|]. cbn. now rewrite <- IH.
Qed.
(** Every hyphen becomes one underscore, everything else is kept, and it never panics (not even on
    the empty string, contrary to its comment). *)
Theorem C39_hyphen_to_underscore : forall s, hyphen_to_underscore s = Some (map dehyphen s).
Proof.
  intro s. unfold hyphen_to_underscore, dehyphen. rewrite <- (split_join (ch "-") (ch "_") s).
  pose proof (split_nonempty (ch "-") s). destruct (split (ch "-") s) as [|p [|q ps]]; [contradiction| |].
  - cbn. now rewrite app_nil_r.
  - reflexivity.
Qed.

(** ** C40: pointer types *)
(** Single-level pointers are classified correctly, whatever the position of [const]. *)
Theorem C40_pointer_type_single_level :
  forall cl b cr, b <> lit "const" ->
    is_cpp_pointer_type (spell (Ptr cl b cr [false])) =
      Some (if pointee_const (Ptr cl b cr [false]) then QConst else QMut).
Proof.
  intros cl b cr Hb. unfold is_cpp_pointer_type, spell, pointee_const. cbn [base_const_l base base_const_r stars rev flat_map].
  assert (E : str_eqb b (lit "const") = false) by (destruct (str_eqb_spec b (lit "const")); [contradiction|reflexivity]).
  destruct cl, cr; cbn -[lit str_eqb ch]; unfold is_const, is_star; rewrite ?E; cbn -[lit str_eqb ch]; reflexivity.
Qed.
(** Non-pointers are never reported as pointers. *)
Theorem C40_non_pointer :
  forall cl b cr, is_cpp_pointer_type (spell (Ptr cl b cr [])) = None.
Proof.
  intros cl b cr. unfold is_cpp_pointer_type, spell. destruct cl, cr; cbn -[lit str_eqb ch];
  rewrite ?andb_false_r; reflexivity.
Qed.
(** Two levels: [const int * *] points to a non-const [const int *], but is reported as const; and
    [int * const] is a pointer but is reported as none. *)
Theorem C40_pointer_type_refuted :
  ~ (forall t, stars t <> [] -> base t <> lit "const" ->
       is_cpp_pointer_type (spell t) = Some (if pointee_const t then QConst else QMut)).
Proof.
  intro H. specialize (H (Ptr true (lit "int") false [false; false])). cbn in H. 
  assert (Some QConst = Some QMut) as X; [apply H; discriminate|discriminate].
Qed.
Theorem C40_const_pointer_refuted :
  ~ (forall t, stars t <> [] -> base t <> lit "const" -> is_cpp_pointer_type (spell t) <> None).
Proof. intro H. apply (H (Ptr false (lit "int") false [true])); [discriminate|discriminate|reflexivity]. Qed.

(** Non-vacuity. *)
Example ex_escape : escape_non_identifier_chars is_ascii_alpha is_ascii_alnum (lit "_ZN58_$LT.3")
  = lit "_uZN58_u_dLT_p3".
Proof. reflexivity. Qed.
Example ex_escape_first : escape_non_identifier_chars is_ascii_alpha is_ascii_alnum (lit "3a")
  = lit "_x00000033a".
Proof. reflexivity. Qed.
Example ex_xid_ok : xid_ok (fun c => is_ascii_alnum c || (c =? ch "_")).
Proof. intros c [H| ->]; [now rewrite H|reflexivity]. Qed.
Example ex_unkeyword : unkeyword_cpp_ident (lit "stdin") full = lit "stdin_" /\ unkeyword_cpp_ident (lit "stdin") empty = lit "stdin".
Proof. split; vm_compute; reflexivity. Qed.
Example ex_includes : include_set [SystemHeader (lit "memory"); SystemHeader (lit "tuple"); UserHeader (lit "a.h"); SupportLibHeader (lit "s.h")].
Proof. repeat constructor. Qed.
Example ex_from_path : from_path (lit "<cstddef>") = Some (SystemHeader (lit "cstddef")).
Proof. reflexivity. Qed.
Example ex_trimmed : trimmed (lit "foo").
Proof.
  split.
  - intros c r E. injection E as <- _. reflexivity.
  - intros c r E. change (lit "foo") with (lit "fo" ++ [ch "o"]) in E. apply app_inj_tail in E as [_ <-]. reflexivity.
Qed.

Print Assumptions C17_escape_injective.
Print Assumptions C17_escape_yields_identifier.
Print Assumptions C18_unkeyword_never_reserved.
Print Assumptions C18_unkeyword_injective_refuted.
Print Assumptions C18_format_cc_ident_rejects_reserved.
Print Assumptions C18_check_name_rejects_reserved.
Print Assumptions C18_format_cc_ident_output_partial.
Print Assumptions C18_format_cc_ident_output_refuted.
Print Assumptions C38_format_cc_includes.
Print Assumptions C38_from_path.
Print Assumptions C39_hyphen_to_underscore.
Print Assumptions C40_pointer_type_single_level.
Print Assumptions C40_non_pointer.
Print Assumptions C40_pointer_type_refuted.
Print Assumptions C40_const_pointer_refuted.
