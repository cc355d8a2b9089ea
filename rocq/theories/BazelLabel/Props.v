(** Property theorems C14-C16 about Bazel labels. *)
From Coq Require Import List NArith Bool Lia.
From Coq Require Import Strings.String.
From Verif.Common Require Import Str.
From Verif.BazelLabel Require Import Model Spec.
Import ListNotations.
Local Open Scope N_scope.
Local Open Scope list_scope.

Lemma alnum_ident c : is_ascii_alnum c = true -> ident_char c.
Proof.
  unfold is_ascii_alnum, is_ascii_alpha, is_ascii_upper, is_ascii_lower, is_ascii_digit, ident_char. intro H.
  repeat (apply orb_prop in H as [H|H]); apply andb_prop in H as [H1 H2];
  apply N.leb_le in H1, H2; lia.
Qed.
Lemma ident_alnum c : ident_char c -> c <> ch "_" -> is_ascii_alnum c = true.
Proof.
  unfold is_ascii_alnum, is_ascii_alpha, is_ascii_upper, is_ascii_lower, is_ascii_digit, ident_char.
  intros H Hn. destruct H as [H|[H|[H|H]]]; [| | |contradiction];
  repeat match goal with |- context[?a <=? ?b] => destruct (N.leb_spec a b) end; try reflexivity; lia.
Qed.
Lemma underscore_not_alnum : is_ascii_alnum (ch "_") = false.
Proof. reflexivity. Qed.

Lemma hex_digit_ident d : d < 16 -> ident_char (hex_digit d).
Proof. unfold hex_digit, ident_char. destruct (N.ltb_spec d 10); lia. Qed.
Lemma hex_digit_inj a b : a < 16 -> b < 16 -> hex_digit a = hex_digit b -> a = b.
Proof. unfold hex_digit. destruct (N.ltb_spec a 10), (N.ltb_spec b 10); lia. Qed.
Lemma hex02_inj a b : a < 256 -> b < 256 -> hex02 a = hex02 b -> a = b.
Proof.
  intros Ha Hb E. unfold hex02 in E. injection E as E1 E2.
  assert (forall x, x mod 16 < 16) as Hm by (intro x; apply N.mod_lt; discriminate).
  assert (forall x, x < 256 -> x / 16 < 16) as Hd by (intros x Hx; apply N.div_lt_upper_bound; lia).
  apply hex_digit_inj in E1; [|now apply Hd|now apply Hd]. apply hex_digit_inj in E2; [|apply Hm|apply Hm].
  rewrite (N.div_mod' a 16), (N.div_mod' b 16). congruence.
Qed.

(** ** C14 *)
Theorem C14_cc_identifier_valid : forall s, wf s -> identifier (convert_to_cc_identifier s).
Proof.
  intros s W. exists (ch "_"), (tl (convert_to_cc_identifier s)). split; [reflexivity|]. split.
  - intro H. vm_compute in H. destruct H as [_ H]. now apply H.
  - unfold convert_to_cc_identifier. constructor; [right; right; right; reflexivity|].
    pose proof (utf8_bytes _ W) as Hb. induction Hb as [|b l Hb _ IH]; [constructor|].
    cbn [flat_map]. apply Forall_app. split; [|exact IH]. destruct (is_ascii_alnum b) eqn:E.
    + constructor; [now apply alnum_ident|constructor].
    + constructor; [right; right; right; reflexivity|]. unfold hex02. constructor; [|constructor; [|constructor]]; apply hex_digit_ident.
      * apply N.div_lt_upper_bound; lia.
      * apply N.mod_lt. discriminate.
Qed.

Theorem C14_cc_identifier_injective :
  forall s t, wf s -> wf t -> convert_to_cc_identifier s = convert_to_cc_identifier t -> s = t.
Proof.
  intros s t Ws Wt E. apply utf8_inj; auto. unfold convert_to_cc_identifier in E. injection E as E.
  pose proof (utf8_bytes _ Ws) as Hs. pose proof (utf8_bytes _ Wt) as Ht. revert Hs Ht E.
  generalize (utf8 s) as a. generalize (utf8 t) as b. clear. intros b a. revert b.
  induction a as [|x a IH]; intros [|y b] Ha Hb E; cbn [flat_map] in E; [reflexivity| | |].
  - destruct (is_ascii_alnum y); discriminate.
  - destruct (is_ascii_alnum x); discriminate.
  - inversion Ha as [|? ? Hx Ha']. inversion Hb as [|? ? Hy Hb']. subst.
    destruct (is_ascii_alnum x) eqn:Ex, (is_ascii_alnum y) eqn:Ey; cbn [app] in E.
    + injection E as -> E. f_equal. now apply IH.
    + injection E as -> E. discriminate.
    + injection E as <- E. discriminate.
    + unfold hex02 in E. cbn [app] in E. injection E as E1 E2 E. f_equal; [|now apply IH].
      apply hex02_inj; auto. unfold hex02. congruence.
Qed.

(** ** C15 *)
Definition full_of (s : str) : str :=
  match split_once colon s with
  | Some _ => s
  | None => s ++ colon :: (match rsplit_once slash s with Some (_, t) => t | None => s end)
  end.
Lemma full_of_spec s f : full s f <-> f = full_of s.
Proof.
  unfold full_of. pose proof (split_once_none colon s) as Hn. split.
  - destruct 1 as [s Hin|s l Hnin [Hl Hc]].
    + destruct (split_once colon s); [reflexivity|]. destruct (proj1 Hn eq_refl). exact Hin.
    + rewrite (proj2 Hn Hnin). f_equal. f_equal. destruct Hc as [->|[p ->]].
      * now rewrite (proj2 (rsplit_once_none slash l) Hl).
      * now rewrite (proj2 (rsplit_once_some slash (p ++ ch "/" :: l) p l) (conj eq_refl Hl)).
  - intros ->. destruct (split_once colon s) as [[a b]|] eqn:E.
    + apply split_once_some in E as [-> _]. constructor. apply in_or_app. right. now left.
    + apply Full_short; [now apply Hn|]. destruct (rsplit_once slash s) as [[a b]|] eqn:E'.
      * apply rsplit_once_some in E' as [-> Hb]. split; [exact Hb|]. right. now exists a.
      * apply rsplit_once_none in E'. split; [exact E'|now left].
Qed.

Lemma components_full s : components s = components (full_of s).
Proof.
  unfold full_of. destruct (split_once colon s) as [[a b]|] eqn:E; [reflexivity|].
  pose proof (proj1 (split_once_none _ _) E) as Hn. unfold components, target_name, package_name.
  rewrite E. rewrite (proj2 (rsplit_once_none colon s) Hn).
  set (l := match rsplit_once slash s with Some (_, t) => t | None => s end).
  rewrite (proj2 (split_once_some colon (s ++ colon :: l) s l) (conj eq_refl Hn)).
  assert (Hl : ~ In colon l).
  { unfold l. destruct (rsplit_once slash s) as [[a b]|] eqn:E'; [|exact Hn].
    apply rsplit_once_some in E' as [-> _]. intro H. apply Hn. apply in_or_app. right. now right. }
  rewrite (proj2 (rsplit_once_some colon (s ++ colon :: l) s l) (conj eq_refl Hl)). reflexivity.
Qed.
(** A label with a colon is determined by its components. *)
Lemma components_inj s t : In colon s -> In colon t -> components s = components t -> s = t.
Proof.
  intros Hs Ht E. unfold components, target_name, package_name in E.
  destruct (split_once colon s) as [[a b]|] eqn:S1; [|now apply split_once_none in S1].
  destruct (split_once colon t) as [[a' b']|] eqn:S2; [|now apply split_once_none in S2].
  destruct (rsplit_once colon s) as [[p q]|] eqn:R1; [|now apply rsplit_once_none in R1].
  destruct (rsplit_once colon t) as [[p' q']|] eqn:R2; [|now apply rsplit_once_none in R2].
  injection E as <- <-.
  apply split_once_some in S1 as [S1 Na], S2 as [S2 Na']. apply rsplit_once_some in R1 as [R1 Nq], R2 as [R2 Nq'].
  rewrite S1, S2. f_equal.
  (* the text before the first colon is a prefix of the package that ends at the first colon *)
  assert (X : forall a b p q, a ++ colon :: b = p ++ colon :: q -> ~ In colon a -> ~ In colon q ->
     (split_once colon p = None /\ a = p) \/ exists r, split_once colon p = Some (a, r)).
  { clear. intros a b p q E Na Nq. destruct (split_once colon p) as [[u v]|] eqn:S.
    - right. apply split_once_some in S as [-> Nu]. exists v. f_equal. f_equal.
      assert (Y : Some (a, b) = Some (u, v ++ colon :: q)); [|congruence].
      rewrite <- (proj2 (split_once_some colon (a ++ colon :: b) a b) (conj eq_refl Na)).
      apply split_once_some. split; [|exact Nu]. rewrite E. now rewrite <- app_assoc.
    - left. split; [reflexivity|]. apply split_once_none in S.
      assert (Y : Some (a, b) = Some (p, q)); [|congruence].
      rewrite <- (proj2 (split_once_some colon (a ++ colon :: b) a b) (conj eq_refl Na)).
      apply split_once_some. now split. }
  destruct (X a b p q) as [[Y1 ->]|[r Y1]]; [congruence|assumption|assumption| |];
  (destruct (X a' b p q') as [[Y2 ->]|[r' Y2]]; [congruence|assumption|assumption| |]); congruence.
Qed.
Lemma full_of_colon s : In colon (full_of s).
Proof.
  unfold full_of. destruct (split_once colon s) as [[a b]|] eqn:E.
  - apply split_once_some in E as [-> _]. apply in_or_app. right. now left.
  - apply in_or_app. right. now left.
Qed.
Lemma label_eq_components a b : label_eq a b = true <-> components a = components b.
Proof.
  unfold label_eq, components. cbn [fst snd]. rewrite andb_true_iff, !str_eqb_eq.
  split; [intros [-> ->]; reflexivity|intro H; injection H as -> ->; auto].
Qed.

(** Labels are equal exactly when they are the same once the target is spelled out; every
    label has exactly one such spelling. *)
Theorem C15_label_eq_iff_same_full_label :
  forall a b, (exists f, full a f) /\ (forall f g, full a f -> full b g -> (label_eq a b = true <-> f = g)).
Proof.
  intros a b. split; [exists (full_of a); now apply full_of_spec|].
  intros f g Hf Hg. apply full_of_spec in Hf, Hg. subst. rewrite label_eq_components.
  rewrite (components_full a), (components_full b). split; [|congruence].
  apply components_inj; apply full_of_colon.
Qed.

(** [==], the order and the hash agree. *)
Lemma split_wf c s a b : wf s -> split_once c s = Some (a, b) -> wf a /\ wf b.
Proof. intros W E. apply split_once_some in E as [-> _]. apply Forall_app in W as [Wa W]. inversion W. now split. Qed.
Lemma rsplit_wf c s a b : wf s -> rsplit_once c s = Some (a, b) -> wf a /\ wf b.
Proof. intros W E. apply rsplit_once_some in E as [-> _]. apply Forall_app in W as [Wa W]. inversion W. now split. Qed.
Lemma target_wf s : wf s -> wf (target_name s).
Proof.
  intro W. unfold target_name. destruct (split_once colon s) as [[a b]|] eqn:E; [now apply (split_wf _ _ _ _ W E)|].
  destruct (rsplit_once slash s) as [[a b]|] eqn:E'; [now apply (rsplit_wf _ _ _ _ W E')|exact W].
Qed.
Lemma package_wf s : wf s -> wf (package_name s).
Proof.
  intro W. unfold package_name. destruct (rsplit_once colon s) as [[a b]|] eqn:E; [now apply (rsplit_wf _ _ _ _ W E)|exact W].
Qed.

Theorem C15_label_eq_ord_hash_agree :
  forall a b, wf a -> wf b ->
    (label_cmp a b = Eq <-> label_eq a b = true) /\
    (label_eq a b = true -> forall H (hash : str * str -> H), label_hash hash a = label_hash hash b).
Proof.
  intros a b Wa Wb. split.
  - rewrite label_eq_components. unfold label_cmp, components. cbn [fst snd].
    pose proof (str_cmp_eq (target_name a) (target_name b) (target_wf _ Wa) (target_wf _ Wb)) as H1.
    pose proof (str_cmp_eq (package_name a) (package_name b) (package_wf _ Wa) (package_wf _ Wb)) as H2.
    split.
    + destruct (str_cmp (target_name a) (target_name b)); try discriminate. intro H. f_equal; [now apply H1|now apply H2].
    + intro H. injection H as H3 H4. rewrite (proj2 H1 H3). now apply H2.
  - intros E H hash. apply label_eq_components in E. unfold label_hash. now rewrite E.
Qed.
Theorem C15_label_order_total :
  (forall a b, label_cmp b a = CompOpp (label_cmp a b)) /\
  (forall a b c, label_cmp a b = Lt -> label_cmp b c = Lt -> label_cmp a c = Lt).
Proof.
  assert (S : forall x y, str_cmp y x = CompOpp (str_cmp x y)) by (intros; apply lex_anti).
  assert (T : forall x y z, str_cmp x y = Lt -> str_cmp y z = Lt -> str_cmp x z = Lt) by (intros x y z; apply lex_trans).
  assert (E : forall x y z, str_cmp x y = Eq -> str_cmp x z = str_cmp y z /\ str_cmp z x = str_cmp z y).
  { intros x y z H. unfold str_cmp in *. apply lex_eq in H. now rewrite H. }
  split.
  - intros a b. unfold label_cmp. rewrite (S (fst (components a)) (fst (components b))).
    destruct (str_cmp (fst (components a)) (fst (components b))); cbn; [apply S|reflexivity|reflexivity].
  - intros a b c. unfold label_cmp.
    destruct (str_cmp (fst (components a)) (fst (components b))) eqn:E1; intro H1;
    destruct (str_cmp (fst (components b)) (fst (components c))) eqn:E2; intro H2; try discriminate.
    + rewrite (proj1 (E _ _ _ E1)), E2. eapply T; eassumption.
    + now rewrite (proj1 (E _ _ _ E1)), E2.
    + now rewrite <- (proj2 (E _ _ _ E2)), E1.
    + now rewrite (T _ _ _ E1 E2).
Qed.

(** [//a/b] is the label [//a/b:b]. *)
Theorem C15_shorthand_label : forall p l, ~ In (ch ":") (p ++ ch "/" :: l) -> ~ In (ch "/") l ->
  label_eq (p ++ ch "/" :: l) (p ++ ch "/" :: l ++ ch ":" :: l) = true.
Proof.
  intros p l H1 H2.
  destruct (C15_label_eq_iff_same_full_label (p ++ ch "/" :: l) (p ++ ch "/" :: l ++ ch ":" :: l)) as [_ A].
  eapply A.
  - apply Full_short; [exact H1|]. split; [exact H2|]. right. now exists p.
  - apply Full_long. apply in_or_app. right. right. apply in_or_app. right. now left.
  - now rewrite <- app_assoc.
Qed.

(** Equal labels can have different C++ identifiers and different [as_str]. *)
Theorem C15_equal_labels_equal_identifiers_refuted :
  ~ (forall a b, label_eq a b = true -> convert_to_cc_identifier a = convert_to_cc_identifier b).
Proof. intro H. specialize (H (lit "//a/b") (lit "//a/b:b") eq_refl). discriminate. Qed.

(** ** C16.  [is_numeric] only needs to agree with the ASCII digits on ASCII. *)
Definition numeric_ok (is_numeric : char -> bool) : Prop :=
  forall c, c < 128 -> (is_numeric c = true <-> digit c).

Definition clean (c : char) : char := if is_ascii_alnum c then c else underscore.
Lemma clean_ident c : ident_char (clean c).
Proof.
  unfold clean. destruct (is_ascii_alnum c) eqn:E; [now apply alnum_ident|]. right. right. right. reflexivity.
Qed.

Theorem C16_crate_name_chars :
  forall num s, numeric_ok num ->
    Forall ident_char (target_name_escaped num s) /\
    (forall c r, target_name_escaped num s = c :: r -> ~ digit c) /\
    target_name_escaped num s <> lit "core".
Proof.
  intros num s Hnum. unfold target_name_escaped. fold clean.
  set (t := target_name s). clearbody t. set (t' := if str_eqb t _ then _ else _).
  assert (Hfirst : forall c r, map clean t' = c :: r -> ~ digit c).
  { intros c r. unfold t'. destruct (str_eqb t (lit "core")).
    - cbn. intro H. injection H as <- _. unfold digit. lia.
    - destruct t as [|x t0]; [discriminate|]. destruct (num x) eqn:Ex; cbn [map]; intro H; injection H as <- _.
      + cbn. unfold digit. lia.
      + unfold clean. destruct (is_ascii_alnum x) eqn:Ea; [|unfold digit, underscore; cbn; lia].
        intro Hd. assert (x < 128) by (unfold digit in Hd; lia).
        rewrite (proj2 (Hnum x H) Hd) in Ex. discriminate. }
  split; [|split; [exact Hfirst|]].
  - apply Forall_forall. intros c Hc. apply in_map_iff in Hc as (x & <- & _). apply clean_ident.
  - unfold t'. clear t' Hfirst. destruct (str_eqb_spec t (lit "core")) as [Heq|Hne].
    + cbn. discriminate.
    + assert (Hclean : forall u, map clean u = lit "core" -> u = lit "core").
      { intros u Hu. assert (Hl : List.length u = 4%nat) by (rewrite <- (map_length clean u), Hu; reflexivity).
        destruct u as [|u1 [|u2 [|u3 [|u4 [|]]]]]; try discriminate Hl. cbn in Hu. injection Hu as E1 E2 E3 E4.
        assert (Hone : forall x y, clean x = y -> y <> underscore -> x = y).
        { intros x y. unfold clean. destruct (is_ascii_alnum x); congruence. }
        apply Hone in E1, E2, E3, E4; try discriminate. now subst. }
      destruct t as [|x t0]; [discriminate|]. destruct (num x); [discriminate|].
      intro H. apply Hne. now apply Hclean.
Qed.

(** Character counts: one character per character of the target name, plus the prefix. *)
Theorem C16_crate_name_length :
  forall num s,
    (target_name s = lit "core" /\
       List.length (target_name_escaped num s) = (5 + List.length (last_package_component s))%nat) \/
    (target_name s <> lit "core" /\
       (List.length (target_name_escaped num s) = List.length (target_name s) \/
        List.length (target_name_escaped num s) = S (List.length (target_name s)) /\
        exists c r, target_name s = c :: r /\ num c = true)).
Proof.
  intros num s. unfold target_name_escaped. rewrite map_length.
  destruct (str_eqb_spec (target_name s) (lit "core")) as [E|E].
  - left. split; [exact E|]. rewrite app_length. reflexivity.
  - right. split; [exact E|]. destruct (target_name s) as [|c r] eqn:Et; [now left|].
    destruct (num c) eqn:En; [right|now left]. split; [reflexivity|]. now exists c, r.
Qed.

(** The crate for [//p/l:core] is named after the last package component. *)
Theorem C16_core_crate_name :
  forall num p l, ~ In (ch ":") p -> Forall ident_char l ->
    target_name_escaped num (p ++ ch "/" :: l ++ lit ":core") = lit "core_" ++ l.
Proof.
  intros num p l Hp Hl.
  assert (Hl2 : forall c, ident_char c -> c <> ch ":" /\ c <> ch "/").
  { intros c Hc. unfold ident_char in Hc. change (ch "_") with 95 in Hc. change (ch ":") with 58. change (ch "/") with 47. lia. }
  assert (Hn : ~ In colon (p ++ ch "/" :: l)).
  { intro H. apply in_app_or in H as [H|[H|H]]; [contradiction|discriminate|].
    rewrite Forall_forall in Hl. now destruct (Hl2 _ (Hl _ H)). }
  assert (Hs : ~ In slash l).
  { intro H. rewrite Forall_forall in Hl. now destruct (Hl2 _ (Hl _ H)). }
  assert (E : p ++ ch "/" :: l ++ lit ":core" = (p ++ ch "/" :: l) ++ colon :: lit "core") by now rewrite <- app_assoc.
  unfold target_name_escaped, target_name, last_package_component, package_name. rewrite E.
  rewrite (proj2 (split_once_some colon ((p ++ ch "/" :: l) ++ colon :: lit "core") _ _) (conj eq_refl Hn)).
  assert (Hc : ~ In colon (lit "core")) by (cbn; intuition discriminate).
  rewrite (proj2 (rsplit_once_some colon ((p ++ ch "/" :: l) ++ colon :: lit "core") _ _) (conj eq_refl Hc)).
  rewrite (proj2 (rsplit_once_some slash (p ++ ch "/" :: l) _ _) (conj eq_refl Hs)).
  rewrite str_eqb_refl, map_app. f_equal. rewrite <- (map_id l) at 2. apply map_ext_in. intros x Hx.
  rewrite Forall_forall in Hl. destruct (N.eq_dec x (ch "_")) as [->|Hu]; [reflexivity|].
  now rewrite (ident_alnum x (Hl _ Hx) Hu).
Qed.

(** Clean target names are kept as they are. *)
Theorem C16_crate_name_identity :
  forall num s, numeric_ok num -> identifier (target_name s) -> target_name s <> lit "core" ->
    target_name_escaped num s = target_name s.
Proof.
  intros num s Hnum (c & r & E & Hd & Hall) Hne. unfold target_name_escaped.
  destruct (str_eqb_spec (target_name s) (lit "core")) as [|_]; [contradiction|].
  rewrite E in *. inversion Hall as [|? ? Hc Hr]. subst.
  assert (num c = false) as ->.
  { destruct (num c) eqn:Ec; [|reflexivity]. exfalso. apply Hd. apply Hnum; [|exact Ec].
    unfold ident_char in Hc. change (ch "_") with 95 in Hc. lia. }
  rewrite <- (map_id (c :: r)) at 2. apply map_ext_in. intros x Hx. rewrite Forall_forall in Hall.
  destruct (N.eq_dec x (ch "_")) as [->|Hu]; [reflexivity|]. now rewrite (ident_alnum x (Hall _ Hx) Hu).
Qed.

(** Not every label yields a legal name (empty target), and different targets can clash. *)
Theorem C16_crate_name_legal_refuted :
  forall num, ~ (forall s, identifier (target_name_escaped num s)).
Proof. intros num H. destruct (H (lit "//foo:")) as (c & r & E & _). discriminate. Qed.
Theorem C16_crate_name_injective_refuted :
  forall num, numeric_ok num -> ~ (forall s t, label_eq s t = false -> target_name_escaped num s <> target_name_escaped num t).
Proof.
  intros num Hn H. assert (num (ch "a") = false) as Ha.
  { destruct (num (ch "a")) eqn:E; [|reflexivity]. apply Hn in E; [|reflexivity]. unfold digit in E. vm_compute in E.
    exfalso. destruct E as [_ E]. now apply E. }
  apply (H (lit "//x:a-b") (lit "//x:a_b") eq_refl). unfold target_name_escaped. cbn.
  change 97 with (ch "a"). rewrite Ha. reflexivity.
Qed.

(** Non-vacuity *)
Example ex_ident : convert_to_cc_identifier (lit "//foo") = lit "__2f_2ffoo".
Proof. reflexivity. Qed.
Example ex_wf : wf (lit "//foo").
Proof. repeat constructor. Qed.
Example ex_multi : components (lit "//a:b:c") = (lit "b:c", lit "//a:b").
Proof. reflexivity. Qed.
Example ex_core : target_name_escaped is_ascii_digit (lit "//foo/bar:core") = lit "core_bar".
Proof. reflexivity. Qed.
Example ex_num : target_name_escaped is_ascii_digit (lit "//foo:7-up") = lit "n7_up".
Proof. reflexivity. Qed.
Example ex_numeric_ok : numeric_ok is_ascii_digit.
Proof. intros c Hc. unfold is_ascii_digit, digit. rewrite andb_true_iff, !N.leb_le. lia. Qed.

Print Assumptions C14_cc_identifier_valid.
Print Assumptions C14_cc_identifier_injective.
Print Assumptions C15_label_eq_iff_same_full_label.
Print Assumptions C15_label_eq_ord_hash_agree.
Print Assumptions C15_label_order_total.
Print Assumptions C15_shorthand_label.
Print Assumptions C15_equal_labels_equal_identifiers_refuted.
Print Assumptions C16_crate_name_chars.
Print Assumptions C16_crate_name_length.
Print Assumptions C16_crate_name_identity.
Print Assumptions C16_core_crate_name.
Print Assumptions C16_crate_name_legal_refuted.
Print Assumptions C16_crate_name_injective_refuted.
