(** Proofs about [hide_unstable_details]. *)
From Coq Require Import List NArith Bool Arith Lia.
From Coq Require Import Strings.String.
From Verif.Common Require Import Str Replace.
From Verif.ErrorReport Require Import Hide HideSpec.
Import ListNotations.
Local Open Scope N_scope.
Local Open Scope list_scope.

Section Hide.
  Variable digit : char -> bool.
  Hypothesis LD : lawful_digit digit.

  Lemma skip_run_shrink p s : (List.length (skip_run p s) <= List.length s)%nat.
  Proof. induction s as [|c s IH]; cbn; [lia|]. destruct (p c); cbn; lia. Qed.
  Lemma plus_shrink p s rest : plus p s = Some rest -> (List.length rest <= List.length s)%nat.
  Proof.
    destruct s as [|c s]; cbn; [discriminate|]. destruct (p c); [|discriminate]. intro H. injection H as <-.
    pose proof (skip_run_shrink p s). lia.
  Qed.
  Lemma skip_run_split p s : exists n, s = n ++ skip_run p s /\ Forall (fun c => p c = true) n.
  Proof.
    induction s as [|c s (n & E & F)]; cbn; [now exists []|]. destruct (p c) eqn:Ec.
    - exists (c :: n). cbn. rewrite <- E. split; [reflexivity|now constructor].
    - now exists [].
  Qed.
  Lemma plus_split p s rest : plus p s = Some rest -> exists n, n <> [] /\ Forall (fun c => p c = true) n /\ s = n ++ rest.
  Proof.
    destruct s as [|c s]; cbn; [discriminate|]. destruct (p c) eqn:Ec; [|discriminate]. intro H. injection H as <-.
    destruct (skip_run_split p s) as (n & E & F). exists (c :: n). split; [discriminate|]. split; [now constructor|].
    cbn. congruence.
  Qed.
  Lemma skip_run_app p n c s : Forall (fun c => p c = true) n -> p c = false -> skip_run p (n ++ c :: s) = c :: s.
  Proof. induction 1 as [|d n Hd _ IH]; cbn; intro Hc; [now rewrite Hc|]. rewrite Hd. now apply IH. Qed.
  Lemma plus_app p n c s : n <> [] -> Forall (fun c => p c = true) n -> p c = false -> plus p (n ++ c :: s) = Some (c :: s).
  Proof.
    destruct 2 as [|d n Hd F]; [contradiction|]. intro Hc. cbn. rewrite Hd. f_equal. now apply skip_run_app.
  Qed.

  Lemma match_def_id_spec s rest : match_def_id digit s = Some rest <-> exists n k, number digit n /\ number digit k /\ s = def_id n k ++ rest.
  Proof.
    split.
    - unfold match_def_id, bind. destruct (expect (lit "DefId(") s) as [s1|] eqn:E1; [|discriminate].
      destruct (plus digit s1) as [s2|] eqn:E2; [|discriminate].
      destruct (expect (lit ":") s2) as [s3|] eqn:E3; [|discriminate].
      destruct (plus digit s3) as [s4|] eqn:E4; [|discriminate]. intro E5.
      apply expect_spec in E1, E3, E5. apply plus_split in E2 as (n & N1 & N2 & ->). apply plus_split in E4 as (k & K1 & K2 & ->).
      exists n, k. split; [now split|]. split; [now split|]. subst. unfold def_id. now rewrite <- !app_assoc.
    - intros (n & k & [N1 N2] & [K1 K2] & ->). unfold match_def_id, bind, def_id. rewrite <- !app_assoc.
      rewrite (proj2 (expect_spec (lit "DefId(") _ _) eq_refl).
      change (lit ":" ++ ?x) with (58 :: x). rewrite plus_app; [|assumption|assumption|now apply LD].
      change (58 :: ?x) with (lit ":" ++ x). rewrite (proj2 (expect_spec (lit ":") _ _) eq_refl).
      change (lit " ~ " ++ rest) with (32 :: (lit "~ ") ++ rest). rewrite plus_app; [|assumption|assumption|now apply LD].
      change (32 :: lit "~ " ++ rest) with (lit " ~ " ++ rest). now apply expect_spec.
  Qed.
  Lemma def_id_shrink s rest : match_def_id digit s = Some rest -> (List.length rest < List.length s)%nat.
  Proof. intro H. apply match_def_id_spec in H as (n & k & _ & _ & ->). unfold def_id. rewrite !app_length. cbn. lia. Qed.

  Lemma match_hash_spec s rest : match_hash s = Some rest <-> exists h, four_hex h /\ s = hash h ++ rest.
  Proof.
    split.
    - destruct s as [|a [|b [|c [|d [|e [|f s]]]]]]; try discriminate. cbn [match_hash].
      destruct ((a =? ch "[") && hex b && hex c && hex d && hex e && (f =? ch "]"))%bool eqn:E; [|discriminate].
      intro H. injection H as <-. repeat (apply andb_prop in E as [E ?]).
      apply N.eqb_eq in E. match goal with H : (f =? _) = true |- _ => apply N.eqb_eq in H; subst f end.
      subst a. exists [b; c; d; e]. split; [|reflexivity]. split; [reflexivity|]. repeat constructor; assumption.
    - intros (h & [L F] & ->). destruct h as [|b [|c [|d [|e [|? ?]]]]]; try discriminate.
      repeat match goal with H : Forall _ (_ :: _) |- _ => inversion H; subst; clear H end.
      unfold hash. cbn [app lit match_hash]. repeat match goal with H : hex _ = true |- _ => rewrite H; clear H end. reflexivity.
  Qed.
  Lemma hash_shrink s rest : match_hash s = Some rest -> (List.length rest < List.length s)%nat.
  Proof. intro H. apply match_hash_spec in H as (h & _ & ->). unfold hash. rewrite !app_length. cbn. lia. Qed.

  (** Barriers. *)
  Lemma expect_app l t tl : ~ In t l -> forall x,
    expect l (x ++ t :: tl) = option_map (fun y => y ++ t :: tl) (expect l x).
  Proof.
    induction l as [|a l IH]; intros Ht x; cbn; [reflexivity|]. destruct x as [|b x]; cbn.
    - destruct (N.eqb_spec a t) as [->|]; [|reflexivity]. exfalso. apply Ht. now left.
    - destruct (a =? b); [|reflexivity]. apply IH. intro. apply Ht. now right.
  Qed.
  Lemma plus_barrier p t tl : p t = false -> forall x,
    plus p (x ++ t :: tl) = option_map (fun y => y ++ t :: tl) (plus p x).
  Proof.
    intros Ht [|c x]; cbn; [now rewrite Ht|]. destruct (p c); [|reflexivity]. cbn. f_equal.
    induction x as [|d x IH]; cbn; [now rewrite Ht|]. now destruct (p d).
  Qed.
  Lemma def_id_barrier t tl x : t = 68 \/ t = 91 -> x <> [] ->
    match_def_id digit (x ++ t :: tl) = option_map (fun y => y ++ t :: tl) (match_def_id digit x).
  Proof.
    intros Ht Hx. destruct x as [|c x]; [contradiction|].
    assert (Dt : digit t = false) by (destruct Ht as [->| ->]; now apply LD).
    assert (H1 : expect (lit "DefId(") ((c :: x) ++ t :: tl) = option_map (fun y => y ++ t :: tl) (expect (lit "DefId(") (c :: x))).
    { change (lit "DefId(") with (68 :: lit "efId("). cbn [app expect]. destruct (68 =? c); [|reflexivity].
      apply expect_app. cbn. destruct Ht as [->| ->]; intuition discriminate. }
    unfold match_def_id, bind. rewrite H1. destruct (expect (lit "DefId(") (c :: x)) as [s1|]; [|reflexivity]. cbn [option_map].
    rewrite plus_barrier by exact Dt. destruct (plus digit s1) as [s2|]; [|reflexivity]. cbn [option_map].
    rewrite expect_app by (cbn; destruct Ht as [->| ->]; intuition discriminate).
    destruct (expect (lit ":") s2) as [s3|]; [|reflexivity]. cbn [option_map].
    rewrite plus_barrier by exact Dt. destruct (plus digit s3) as [s4|]; [|reflexivity]. cbn [option_map].
    apply expect_app. cbn. destruct Ht as [->| ->]; intuition discriminate.
  Qed.
  Lemma hash_barrier tl x : x <> [] ->
    match_hash (x ++ 91 :: tl) = option_map (fun y => y ++ 91 :: tl) (match_hash x).
  Proof.
    intro Hx. assert (Hh : hex 91 = false) by reflexivity. assert (Hc : (91 =? ch "]") = false) by reflexivity.
    destruct x as [|a [|b [|c [|d [|e [|f x]]]]]]; [contradiction| | | | | |]; cbn [app].
    - destruct tl as [|? [|? [|? [|? ?]]]]; cbn [match_hash option_map]; try reflexivity. now rewrite Hh, !andb_false_r.
    - destruct tl as [|? [|? [|? ?]]]; cbn [match_hash option_map]; try reflexivity. now rewrite Hh, !andb_false_r.
    - destruct tl as [|? [|? ?]]; cbn [match_hash option_map]; try reflexivity. now rewrite Hh, !andb_false_r.
    - destruct tl as [|? ?]; cbn [match_hash option_map]; try reflexivity. now rewrite Hh, !andb_false_r.
    - cbn [match_hash option_map]. now rewrite Hc, !andb_false_r.
    - cbn [match_hash]. now destruct (_ && _ && _ && _ && _ && _)%bool.
  Qed.
  Lemma def_id_nil : match_def_id digit [] = None. Proof. reflexivity. Qed.

  Let R1 := replace_all (match_def_id digit) (lit "DefId(").
  Let R2 := replace_all match_hash [].

  Lemma R1_def_id pre n k post : number digit n -> number digit k ->
    R1 (pre ++ def_id n k ++ post) = R1 pre ++ lit "DefId(" ++ R1 post.
  Proof.
    intros Hn Hk. assert (E : exists tl, def_id n k ++ post = 68 :: tl) by (eexists; reflexivity). destruct E as [tl E].
    unfold R1. rewrite (replace_app _ _ def_id_shrink (def_id n k ++ post)); [|rewrite E; intros; apply def_id_barrier; auto|reflexivity].
    f_equal. rewrite (replace_eq _ _ def_id_shrink). rewrite (proj2 (match_def_id_spec _ post)); [reflexivity|]. now exists n, k.
  Qed.
  Lemma no_bracket_R1 h s : ~ In 68 h -> R1 (h ++ s) = h ++ R1 s.
  Proof.
    induction h as [|c h IH]; intro H; [reflexivity|]. cbn [app]. unfold R1 at 1. rewrite (replace_eq _ _ def_id_shrink).
    assert (E : match_def_id digit (c :: h ++ s) = None).
    { unfold match_def_id, bind. change (lit "DefId(") with (68 :: lit "efId("). cbn [expect].
      destruct (N.eqb_spec 68 c) as [<-|]; [|reflexivity]. exfalso. apply H. now left. }
    rewrite E. f_equal. apply IH. intro. apply H. now right.
  Qed.
  Lemma R1_cons c s : c <> 68 -> R1 (c :: s) = c :: R1 s.
  Proof. intro H. apply (no_bracket_R1 [c]). cbn. intuition congruence. Qed.
  (** A hash after a bracket cannot be part of a def id; letters [D] inside it cannot start one. *)
  Lemma R1_hex h s : Forall (fun c => hex c = true) h -> (exists s', s = 93 :: s') -> R1 (h ++ s) = h ++ R1 s.
  Proof.
    intros F [s' ->]. induction F as [|c h Hc F IH]; [reflexivity|]. cbn [app]. unfold R1 at 1. rewrite (replace_eq _ _ def_id_shrink).
    assert (E : match_def_id digit (c :: h ++ 93 :: s') = None).
    { unfold match_def_id, bind. change (lit "DefId(") with (68 :: 101 :: 102 :: 73 :: lit "d("). cbn [expect].
      destruct (N.eqb_spec 68 c) as [<-|]; [|reflexivity].
      destruct F as [|d1 h H1 F]; cbn [app]; [reflexivity|]. destruct (N.eqb_spec 101 d1); [|reflexivity].
      destruct F as [|d2 h H2 F]; cbn [app]; [reflexivity|]. destruct (N.eqb_spec 102 d2); [|reflexivity].
      destruct F as [|d3 h H3 F]; cbn [app]; [reflexivity|]. destruct (N.eqb_spec 73 d3) as [<-|]; [discriminate H3|reflexivity]. }
    rewrite E. f_equal. exact IH.
  Qed.
  Lemma R1_hash pre h post : four_hex h -> R1 (pre ++ hash h ++ post) = R1 pre ++ hash h ++ R1 post.
  Proof.
    intros [L F]. assert (E : hash h ++ post = 91 :: h ++ 93 :: post) by (unfold hash; rewrite <- !app_assoc; reflexivity).
    unfold R1. rewrite (replace_app _ _ def_id_shrink (hash h ++ post)); [|rewrite E; intros; apply def_id_barrier; auto|reflexivity].
    f_equal. rewrite E. change (R1 (91 :: h ++ 93 :: post) = hash h ++ R1 post).
    rewrite R1_cons by discriminate. rewrite R1_hex by (eauto). rewrite R1_cons by discriminate.
    unfold hash. rewrite <- !app_assoc. reflexivity.
  Qed.
  Lemma R2_hash pre h post : four_hex h -> R2 (pre ++ hash h ++ post) = R2 pre ++ R2 post.
  Proof.
    intro Hh. assert (E : exists tl, hash h ++ post = 91 :: tl) by (eexists; reflexivity). destruct E as [tl E].
    unfold R2. rewrite (replace_app _ _ hash_shrink (hash h ++ post)); [|rewrite E; intros; apply hash_barrier; auto|reflexivity].
    f_equal. rewrite (replace_eq _ _ hash_shrink). rewrite (proj2 (match_hash_spec _ post)); [reflexivity|]. now exists h.
  Qed.
  Lemma hide_def_id pre n k n' k' post : number digit n -> number digit k -> number digit n' -> number digit k' ->
    hide_unstable_details digit (pre ++ def_id n k ++ post) = hide_unstable_details digit (pre ++ def_id n' k' ++ post).
  Proof. intros. unfold hide_unstable_details. fold R1. rewrite !R1_def_id by assumption. reflexivity. Qed.
  Lemma hide_hash pre h post : four_hex h ->
    exists a b, hide_unstable_details digit (pre ++ hash h ++ post) = a ++ b /\
      a = hide_unstable_details digit pre /\ b = hide_unstable_details digit post.
  Proof.
    intro. do 2 eexists. split; [|split; reflexivity]. unfold hide_unstable_details. fold R1. fold R2.
    rewrite R1_hash by assumption. now apply R2_hash.
  Qed.
  Lemma hide_id s : ~ mentions_def_id digit s -> ~ mentions_hash s -> hide_unstable_details digit s = s.
  Proof.
    intros H1 H2. unfold hide_unstable_details.
    assert (E : replace_all (match_def_id digit) (lit "DefId(") s = s).
    { apply replace_none; [exact def_id_shrink|]. intros a b ->. destruct (match_def_id digit b) as [rest|] eqn:E; [|reflexivity].
      exfalso. apply H1. apply match_def_id_spec in E as (n & k & Hn & Hk & ->). exists a, n, k, rest. auto. }
    rewrite E. apply replace_none; [exact hash_shrink|]. intros a b ->. destruct (match_hash b) as [rest|] eqn:E2; [|reflexivity].
    exfalso. apply H2. apply match_hash_spec in E2 as (h & Hh & ->). exists a, h, rest. auto.
  Qed.
End Hide.
