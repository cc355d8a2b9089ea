(** Property theorems C41 about dynamic format strings. *)
From Coq Require Import List NArith Bool Arith Lia.
From Coq Require Import Strings.String.
From Verif.Common Require Import Str.
From Verif.DynFormat Require Import Model Spec.
Import ListNotations.
Local Open Scope N_scope.
Local Open Scope list_scope.

(** Fragments as pieces. *)
Definition pieces_of (fs : list fragment) : list piece :=
  flat_map (fun f => match f with FStr s => map Lit s | FVar i => [Var i] end) fs.
(** Building fragments piece by piece. *)
Definition step (fs : list fragment) (p : piece) : list fragment :=
  match p with Lit c => push_str fs [c] | Var i => push_str fs [] ++ [FVar i] end.
Definition canon (ps : list piece) : list fragment := fold_left step ps [].

Lemma push_cons f fs s : fs <> [] -> push_str (f :: fs) s = f :: push_str fs s.
Proof. destruct fs; [contradiction|]. destruct f; reflexivity. Qed.
Lemma snoc_nonempty {A} (l : list A) x : l ++ [x] <> [].
Proof. destruct l; discriminate. Qed.
Lemma push_snoc_str fs l s : push_str (fs ++ [FStr l]) s = fs ++ [FStr (l ++ s)].
Proof.
  induction fs as [|f fs IH]; [reflexivity|]. cbn [app]. rewrite push_cons by apply snoc_nonempty. now rewrite IH.
Qed.
Lemma push_snoc_var fs i s : push_str (fs ++ [FVar i]) s = fs ++ [FVar i; FStr s].
Proof.
  induction fs as [|f fs IH]; [reflexivity|]. cbn [app]. rewrite push_cons by apply snoc_nonempty. now rewrite IH.
Qed.
Lemma push_push fs a b : push_str (push_str fs a) b = push_str fs (a ++ b).
Proof.
  destruct fs as [|f fs _] using rev_ind; [reflexivity|]. destruct f as [l|i].
  - rewrite !push_snoc_str. now rewrite app_assoc.
  - rewrite !push_snoc_var. change (fs ++ [FVar i; FStr a]) with (fs ++ [FVar i] ++ [FStr a]).
    rewrite app_assoc, push_snoc_str, <- app_assoc. reflexivity.
Qed.
Lemma push_lits fs s : s <> [] -> fold_left step (map Lit s) fs = push_str fs s.
Proof.
  revert fs. induction s as [|c s IH]; intros fs H; [contradiction|]. cbn.
  destruct s as [|d s]; [reflexivity|]. rewrite IH by discriminate. now rewrite push_push.
Qed.
Lemma push_lits_var fs s i : fold_left step (map Lit s ++ [Var i]) fs = push_str fs s ++ [FVar i].
Proof.
  rewrite fold_left_app. cbn. destruct s as [|c s]; [reflexivity|]. rewrite push_lits by discriminate.
  rewrite push_push, app_nil_r. reflexivity.
Qed.
Lemma pieces_app a b : pieces_of (a ++ b) = pieces_of a ++ pieces_of b.
Proof. apply flat_map_app. Qed.
Lemma pieces_push fs s : pieces_of (push_str fs s) = pieces_of fs ++ map Lit s.
Proof.
  destruct fs as [|f fs _] using rev_ind; [cbn; now rewrite app_nil_r|]. destruct f as [l|i].
  - rewrite push_snoc_str, !pieces_app. cbn. rewrite map_app, !app_nil_r, <- app_assoc. reflexivity.
  - rewrite push_snoc_var, !pieces_app. cbn. rewrite app_nil_r, <- app_assoc. reflexivity.
Qed.
Lemma pieces_canon ps : pieces_of (canon ps) = ps.
Proof.
  unfold canon. assert (X : forall fs, pieces_of (fold_left step ps fs) = pieces_of fs ++ ps); [|apply X].
  induction ps as [|p ps IH]; intro fs; cbn; [now rewrite app_nil_r|]. rewrite IH.
  replace (p :: ps) with ([p] ++ ps) by reflexivity. rewrite app_assoc. f_equal.
  destruct p as [c|i]; cbn [step]; [apply pieces_push|].
  unfold pieces_of at 1. rewrite flat_map_app. fold (pieces_of (push_str fs [])). rewrite pieces_push. cbn.
  now rewrite app_nil_r.
Qed.

(** Helpers against the spec. *)
Lemma find_brace_none s : find_brace s = None -> Forall (fun c => c <> ch "{" /\ c <> ch "}") s.
Proof.
  induction s as [|c s IH]; cbn [find_brace]; [constructor|].
  destruct (N.eqb_spec c open_brace), (N.eqb_spec c close_brace); cbn [orb]; try discriminate.
  destruct (find_brace s) as [[[p b] r]|]; [discriminate|]. intros _. constructor; auto.
Qed.
Lemma find_brace_some s p b r : find_brace s = Some (p, b, r) ->
  s = p ++ b :: r /\ (b = ch "{" \/ b = ch "}") /\ Forall (fun c => c <> ch "{" /\ c <> ch "}") p.
Proof.
  revert p. induction s as [|c s IH]; intros p; cbn [find_brace]; [discriminate|].
  destruct (N.eqb_spec c open_brace); [intro H; injection H as <- <- <-; subst; auto|].
  destruct (N.eqb_spec c close_brace); [intro H; injection H as <- <- <-; subst; auto|]. cbn [orb].
  destruct (find_brace s) as [[[p' b'] r']|]; [|discriminate]. intro H. injection H as <- <- <-.
  destruct (IH p' eq_refl) as (-> & Hb & Hp). repeat split; auto.
Qed.
Lemma position_spec names n i : position names n = Some i <-> first_name names n i.
Proof.
  unfold first_name. revert i. induction names as [|x names IH]; intro i; cbn.
  - split; [discriminate|]. intros [H _]. destruct i; discriminate.
  - destruct (str_eqb_spec x n) as [->|Hne].
    + split.
      * intro H. injection H as <-. split; [reflexivity|]. intros j Hj. lia.
      * intros [H1 H2]. destruct i as [|i]; [reflexivity|]. exfalso. apply (H2 O); [lia|reflexivity].
    + destruct i as [|i].
      * split; [destruct (position names n); discriminate|]. intros [H _]. cbn in H. congruence.
      * split.
        -- destruct (position names n) as [k|]; [|discriminate]. cbn. intro H. injection H as ->.
           destruct (proj1 (IH i) eq_refl) as [H1 H2]. split; [exact H1|]. intros [|j] Hj; cbn; [congruence|]. apply H2. lia.
        -- intros [H1 H2]. rewrite (proj2 (IH i)); [reflexivity|]. split; [exact H1|].
           intros j Hj. apply (H2 (S j)). lia.
Qed.
Lemma position_none names n : position names n = None -> forall i, ~ first_name names n i.
Proof. intros H i F. apply position_spec in F. congruence. Qed.

Section Trims.
  Variable is_ws : char -> bool.
  Lemma trim_start_spec s : exists a, s = a ++ trim_start is_ws s /\ forallb is_ws a = true /\
    (forall c r, trim_start is_ws s = c :: r -> is_ws c = false).
  Proof.
    induction s as [|c s (a & E & Ha & Hf)]; cbn.
    - exists []. repeat split. discriminate.
    - destruct (is_ws c) eqn:Ec.
      + exists (c :: a). cbn. rewrite Ec. repeat split; [now f_equal|exact Ha|exact Hf].
      + exists []. repeat split. intros x r H. injection H as <- <-. exact Ec.
  Qed.
  Lemma forallb_rev {A} (f : A -> bool) l : forallb f (rev l) = forallb f l.
  Proof.
    induction l as [|x l IH]; [reflexivity|]. cbn. rewrite forallb_app, IH. cbn. rewrite andb_true_r. apply andb_comm.
  Qed.
  Lemma trim_spec t : trims_to is_ws t (trim is_ws t).
  Proof.
    unfold trim, trims_to. destruct (trim_start_spec t) as (a & E & Ha & Hf).
    destruct (trim_start_spec (rev (trim_start is_ws t))) as (b & Eb & Hb & Hl).
    set (u := trim_start is_ws t) in *. set (v := trim_start is_ws (rev u)) in *.
    assert (Eu : u = rev v ++ rev b).
    { rewrite <- rev_app_distr, <- Eb. symmetry. apply rev_involutive. }
    exists a, (rev b). repeat split.
    - now rewrite <- Eu.
    - exact Ha.
    - now rewrite forallb_rev.
    - intros c r H. rewrite H in Eu. eapply Hf. rewrite Eu. reflexivity.
    - intros c r H. apply (Hl c (rev r)). rewrite <- (rev_involutive v), H, rev_app_distr. reflexivity.
  Qed.
  (** Trimming is a function. *)
  Lemma trims_prefix a a' n n' b b' : a ++ n ++ b = a' ++ n' ++ b' ->
    forallb is_ws a = true -> forallb is_ws a' = true -> forallb is_ws b = true -> forallb is_ws b' = true ->
    (forall c r, n = c :: r -> is_ws c = false) -> (forall c r, n' = c :: r -> is_ws c = false) ->
    n <> [] -> n' <> [] -> a = a'.
  Proof.
    revert a'. induction a as [|x a IH]; intros [|y a'] E Ha Ha' Hb Hb' Hn Hn' N N'; cbn in *.
    - reflexivity.
    - destruct n as [|c n]; [contradiction|]. injection E as -> _. apply andb_prop in Ha' as [Hy _].
      now rewrite (Hn _ _ eq_refl) in Hy.
    - destruct n' as [|c n']; [contradiction|]. injection E as -> _. apply andb_prop in Ha as [Hx _].
      now rewrite (Hn' _ _ eq_refl) in Hx.
    - injection E as -> E. apply andb_prop in Ha as [_ Ha], Ha' as [_ Ha']. f_equal. eapply IH; eauto.
  Qed.
  Lemma all_ws_app a n b : n <> [] -> (forall c r, n = c :: r -> is_ws c = false) -> forallb is_ws (a ++ n ++ b) = false.
  Proof.
    intros N H. destruct n as [|c n]; [contradiction|]. rewrite forallb_app. cbn. rewrite (H _ _ eq_refl). apply andb_false_r.
  Qed.
  Lemma trims_fun t n n' : trims_to is_ws t n -> trims_to is_ws t n' -> n = n'.
  Proof.
    intros (a & b & E & Ha & Hb & H1 & H2) (a' & b' & E' & Ha' & Hb' & H1' & H2').
    destruct n as [|c n]; destruct n' as [|c' n']; [reflexivity| | |].
    - exfalso. rewrite E in E'. change ([] ++ b) with b in E'. assert (X : forallb is_ws (a ++ b) = true) by (rewrite forallb_app, Ha, Hb; reflexivity).
      rewrite E' in X. rewrite all_ws_app in X; [discriminate|discriminate|exact H1'].
    - exfalso. rewrite E' in E. change ([] ++ b') with b' in E. assert (X : forallb is_ws (a' ++ b') = true) by (rewrite forallb_app, Ha', Hb'; reflexivity).
      rewrite E in X. rewrite all_ws_app in X; [discriminate|discriminate|exact H1].
    - rewrite E in E'. assert (a = a') as <-.
      { eapply trims_prefix; try exact E'; auto; discriminate. }
      apply app_inv_head in E'.
      apply (f_equal (@rev N)) in E'. rewrite !rev_app_distr in E'.
      assert (R : rev b = rev b').
      { eapply (trims_prefix (rev b) (rev b') (rev (c :: n)) (rev (c' :: n')) [] []); rewrite ?app_nil_r, ?forallb_rev; auto.
        - intros x r Hr. apply (H2 x (rev r)). rewrite <- (rev_involutive (c :: n)), Hr. reflexivity.
        - intros x r Hr. apply (H2' x (rev r)). rewrite <- (rev_involutive (c' :: n')), Hr. reflexivity.
        - cbn. intro X. apply app_eq_nil in X as [_ X]. discriminate.
        - cbn. intro X. apply app_eq_nil in X as [_ X]. discriminate. }
      rewrite R in E'. apply app_inv_head in E'. apply (f_equal (@rev N)) in E'. now rewrite !rev_involutive in E'.
  Qed.

  Variable names : list str.
  Notation spells := (spells is_ws names).

  Lemma trims_self t n : trims_to is_ws t n -> n = trim is_ws t.
  Proof. intro H. eapply trims_fun; [exact H|apply trim_spec]. Qed.

  Lemma spells_lits p ps s : Forall (fun c => c <> ch "{" /\ c <> ch "}") p -> spells ps s -> spells (map Lit p ++ ps) (p ++ s).
  Proof. intros Hp H. induction Hp as [|c p [H1 H2] _ IH]; [exact H|]. cbn. now constructor. Qed.
  Lemma spells_lits_inv p : forall ps s, Forall (fun c => c <> ch "{" /\ c <> ch "}") p -> spells ps (p ++ s) ->
    exists ps', ps = map Lit p ++ ps' /\ spells ps' s.
  Proof.
    induction p as [|c p IH]; intros ps s Hp H; [now exists ps|]. inversion Hp as [|? ? [N1 N2] Hp']. subst.
    cbn in H. inversion H; subst; try (exfalso; congruence).
    destruct (IH _ _ Hp' H5) as (ps' & -> & Hs). now exists ps'.
  Qed.
  (** What can follow an opening brace. *)
  Lemma spells_open_inv ps rest : spells ps (ch "{" :: rest) ->
    (exists ps' r, rest = ch "{" :: r /\ ps = Lit (ch "{") :: ps' /\ spells ps' r) \/
    (exists t i ps' r, rest = t ++ ch "}" :: r /\ (forall r, rest <> ch "{" :: r) /\ ~ In (ch "}") t /\
       first_name names (trim is_ws t) i /\ ps = Var i :: ps' /\ spells ps' r).
  Proof.
    intro H. inversion H as [|c ps0 s0 N1 N2 H0 E1 E2|ps0 s0 H0 E1 E2|ps0 s0 H0 E1 E2|t n i ps0 s0 Ht Ht2 Htr Hf H0 E1 E2].
    - exfalso. apply N1. congruence.
    - left. exists ps0, s0. now split.
    - right. exists t, i, ps0, s0. rewrite (trims_self _ _ Htr) in Hf. split; [reflexivity|]. split; [|now split].
      intros r Hr. destruct t as [|x t]; [discriminate|]. injection Hr as -> _. now apply (Ht2 t).
  Qed.
  Lemma spells_close_inv ps rest : spells ps (ch "}" :: rest) ->
    exists ps' r, rest = ch "}" :: r /\ ps = Lit (ch "}") :: ps' /\ spells ps' r.
  Proof.
    intro H. inversion H as [|c ps0 s0 N1 N2 H0 E1 E2|ps0 s0 H0 E1 E2|ps0 s0 H0 E1 E2|t n i ps0 s0 Ht Ht2 Htr Hf H0 E1 E2].
    - exfalso. apply N2. congruence.
    - now exists ps0, s0.
  Qed.

  Lemma parse_loop_spec fuel : forall fs s, (List.length s < fuel)%nat ->
    match parse_loop is_ws fuel names fs s with
    | Some r => exists ps, spells ps s /\ r = fold_left step ps fs
    | None => forall ps, ~ spells ps s
    end.
  Proof.
    induction fuel as [|fuel IH]; intros fs s Hl; [lia|]. cbn [parse_loop].
    destruct (find_brace s) as [[[pre b] rest]|] eqn:F.
    - apply find_brace_some in F as (-> & Hb & Hpre). rewrite app_length in Hl. cbn [List.length] in Hl.
      destruct rest as [|b' rest'].
      + intros ps H. apply (spells_lits_inv _ _ _ Hpre) in H as (ps' & -> & H). destruct Hb as [-> | ->].
        * apply spells_open_inv in H as [(? & ? & E & _)|(t & ? & ? & r & E & _)]; [discriminate|]. destruct t; discriminate.
        * apply spells_close_inv in H as (? & ? & E & _). discriminate.
      + cbn [List.length] in Hl. destruct (N.eqb_spec b b') as [<-|Hne].
        * specialize (IH (push_str fs (pre ++ [b])) rest'). destruct (parse_loop is_ws fuel names _ rest') as [r|].
          -- destruct IH as (ps & Hs & ->); [lia|]. exists (map Lit (pre ++ [b]) ++ ps). split.
             ++ rewrite map_app, <- app_assoc. apply spells_lits; [exact Hpre|].
                destruct Hb as [-> | ->]; now constructor.
             ++ rewrite fold_left_app, push_lits; [reflexivity|apply snoc_nonempty].
          -- intros ps H. apply (spells_lits_inv _ _ _ Hpre) in H as (ps' & -> & H). destruct Hb as [-> | ->].
             ++ apply spells_open_inv in H as [(q & r & E & _ & Hq)|(t & ? & ? & r & E & N & _)].
                ** injection E as <-. now apply IH in Hq; [|lia].
                ** now apply (N rest').
             ++ apply spells_close_inv in H as (q & r & E & _ & Hq). injection E as <-. now apply IH in Hq; [|lia].
        * destruct (N.eqb_spec b close_brace) as [->|Hnc].
          -- intros ps H. apply (spells_lits_inv _ _ _ Hpre) in H as (ps' & -> & H).
             apply spells_close_inv in H as (q & r & E & _). injection E as -> _. now apply Hne.
          -- destruct Hb as [-> | ->]; [|now elim Hnc].
             destruct (split_once close_brace (b' :: rest')) as [[name rest'']|] eqn:S1.
             ++ apply split_once_some in S1 as [E1 N1].
                assert (Hinv : forall ps, spells ps (pre ++ ch "{" :: b' :: rest') ->
                  exists i ps', first_name names (trim is_ws name) i /\ ps = map Lit pre ++ Var i :: ps' /\ spells ps' rest'').
                { intros ps H. apply (spells_lits_inv _ _ _ Hpre) in H as (ps' & -> & H).
                  apply spells_open_inv in H as [(q & r & E & _)|(t & i & q & r & E & N & Ht & Hf & -> & Hq)].
                  - injection E as -> _. now elim Hne.
                  - assert (X : Some (t, r) = Some (name, rest'')).
                    { rewrite <- (proj2 (split_once_some close_brace (b' :: rest') t r) (conj E Ht)).
                      apply split_once_some. now split. }
                    injection X as -> ->. exists i, q. now split. }
                destruct (position names (trim is_ws name)) as [i|] eqn:P.
                ** specialize (IH (push_str fs pre ++ [FVar i]) rest'').
                   assert (Hl2 : (List.length rest'' < fuel)%nat).
                   { assert (X := f_equal (@List.length N) E1). rewrite app_length in X. cbn in X. lia. }
                   destruct (parse_loop is_ws fuel names _ rest'') as [r|].
                   --- destruct (IH Hl2) as (ps & Hs & ->). exists (map Lit pre ++ Var i :: ps). split.
                       +++ apply spells_lits; [exact Hpre|]. rewrite E1. apply S_var with (n := trim is_ws name); auto.
                           *** intros r E. subst name. cbn in E1. injection E1 as -> _. now elim Hne.
                           *** apply trim_spec.
                           *** now apply position_spec.
                       +++ change (Var i :: ps) with ([Var i] ++ ps). rewrite app_assoc, fold_left_app, push_lits_var. reflexivity.
                   --- intros ps H. apply Hinv in H as (j & q & _ & _ & Hq). now apply (IH Hl2) in Hq.
                ** intros ps H. apply Hinv in H as (j & q & Hf & _). now apply (position_none _ _ P) in Hf.
             ++ apply split_once_none in S1. intros ps H. apply (spells_lits_inv _ _ _ Hpre) in H as (ps' & -> & H).
                apply spells_open_inv in H as [(q & r & E & _)|(t & i & q & r & E & _)].
                ** injection E as -> _. now elim Hne.
                ** apply S1. rewrite E. apply in_or_app. right. now left.
    - apply find_brace_none in F. exists (map Lit s). split.
      + rewrite <- (app_nil_r s) at 2. rewrite <- (app_nil_r (map Lit s)). apply spells_lits; [exact F|constructor].
      + destruct s as [|c s]; [reflexivity|]. now rewrite push_lits.
  Qed.

  Lemma spells_in_range ps s : spells ps s -> forall i, In (Var i) ps -> (i < List.length names)%nat.
  Proof.
    induction 1 as [|c ps s N1 N2 _ IH|ps s _ IH|ps s _ IH|t n j ps s Ht Ht2 Htr [Hf _] _ IH]; intros i Hin;
      try (destruct Hin as [Hin|Hin]; [discriminate|auto]); [destruct Hin|].
    destruct Hin as [Hin|Hin]; [injection Hin as ->|auto]. apply nth_error_Some. congruence.
  Qed.
End Trims.

Lemma format_pieces args fs : (forall i, In (Var i) (pieces_of fs) -> (i < List.length args)%nat) ->
  format fs args = Some (subst args (pieces_of fs)).
Proof.
  induction fs as [|f fs IH]; intro H; [reflexivity|]. destruct f as [s|i]; cbn [format].
  - rewrite IH; [|intros j Hj; apply H; apply in_or_app; now right]. cbn. f_equal. unfold subst. cbn [pieces_of flat_map].
    rewrite flat_map_app. f_equal. clear. induction s as [|c s IH]; [reflexivity|]. cbn. now f_equal.
  - assert (Hi : (i < List.length args)%nat) by (apply H; now left).
    destruct (nth_error args i) as [a|] eqn:E; [|apply nth_error_None in E; lia].
    rewrite IH; [|intros j Hj; apply H; now right]. cbn. f_equal. f_equal. symmetry. now apply nth_error_nth.
Qed.

(** ** C41.  Parsing accepts exactly the format strings of the grammar, and formatting then never
    panics and yields the substituted text. *)
Theorem C41_format_parse_and_substitute :
  forall is_ws names s,
    match parse_with_metavars is_ws s names with
    | Some f => exists ps, spells is_ws names ps s /\
        forall args, List.length args = List.length names -> format f args = Some (subst args ps)
    | None => forall ps, ~ spells is_ws names ps s
    end.
Proof.
  intros is_ws names s. unfold parse_with_metavars.
  pose proof (parse_loop_spec is_ws names (S (List.length s)) [] s (Nat.lt_succ_diag_r _)) as H.
  destruct (parse_loop is_ws _ names [] s) as [f|]; [|exact H]. destruct H as (ps & Hs & ->).
  exists ps. split; [exact Hs|]. intros args Hl. fold (canon ps). rewrite format_pieces; rewrite pieces_canon; [reflexivity|].
  intros i Hi. rewrite Hl. eapply spells_in_range; eassumption.
Qed.

(** The grammar is unambiguous, and two parsed formats are equal exactly when they are the
    same sequence of characters and variables. *)
Theorem C41_format_equality :
  forall is_ws names s1 s2 f1 f2 ps1 ps2,
    parse_with_metavars is_ws s1 names = Some f1 -> parse_with_metavars is_ws s2 names = Some f2 ->
    spells is_ws names ps1 s1 -> spells is_ws names ps2 s2 -> (f1 = f2 <-> ps1 = ps2).
Proof.
  assert (X : forall is_ws names s f ps, parse_with_metavars is_ws s names = Some f -> spells is_ws names ps s -> f = canon ps).
  { intros is_ws names s f ps E H. unfold parse_with_metavars in E.
    pose proof (parse_loop_spec is_ws names (S (List.length s)) [] s (Nat.lt_succ_diag_r _)) as P. rewrite E in P.
    destruct P as (ps' & H' & ->). fold (canon ps'). f_equal.
    revert ps H. clear E. induction H' as [|c ps' s N1 N2 _ IH|ps' s _ IH|ps' s _ IH|t n i ps' s Ht Ht2 Htr Hf _ IH]; intros ps H.
    - now inversion H.
    - apply (spells_lits_inv is_ws names [c]) in H as (q & -> & Hq); [|now repeat constructor]. cbn. f_equal. auto.
    - apply spells_open_inv in H as [(q & r & E & -> & Hq)|(t & ? & ? & r & E & N & _)].
      + injection E as <-. f_equal. auto.
      + now elim (N s).
    - apply spells_close_inv in H as (q & r & E & -> & Hq). injection E as <-. f_equal. auto.
    - apply spells_open_inv in H as [(q & r & E & -> & Hq)|(t' & j & q & r & E & N & Ht' & Hf' & -> & Hq)].
      + exfalso. destruct t as [|x t]; [discriminate|]. injection E as -> _. now apply (Ht2 t).
      + assert (Y : Some (t, s) = Some (t', r)).
        { rewrite <- (proj2 (split_once_some (ch "}") (t ++ ch "}" :: s) t s) (conj eq_refl Ht)). apply split_once_some. now split. }
        injection Y as <- <-. rewrite (trims_self is_ws _ _ Htr) in Hf.
        assert (i = j) as <- by (apply position_spec in Hf, Hf'; congruence). f_equal. auto. }
  intros is_ws names s1 s2 f1 f2 ps1 ps2 E1 E2 H1 H2. rewrite (X _ _ _ _ _ E1 H1), (X _ _ _ _ _ E2 H2).
  split; [|congruence]. intro E. rewrite <- (pieces_canon ps1), E. apply pieces_canon.
Qed.

(** Any text survives: doubling its braces gives a format string that formats to the text. *)
Theorem C41_format_escape_round_trip :
  forall is_ws names text, exists f, parse_with_metavars is_ws (escape text) names = Some f /\
    forall args, List.length args = List.length names -> format f args = Some text.
Proof.
  intros is_ws names text.
  assert (H : spells is_ws names (map Lit text) (escape text)).
  { induction text as [|c t IH]; [constructor|]. unfold escape in *. cbn [flat_map map].
    destruct (N.eqb_spec c (ch "{")) as [->|N1]; [now apply S_open|].
    destruct (N.eqb_spec c (ch "}")) as [->|N2]; [now apply S_close|]. now apply S_char. }
  pose proof (C41_format_parse_and_substitute is_ws names (escape text)) as P.
  destruct (parse_with_metavars is_ws (escape text) names) as [f|] eqn:E; [|now apply P in H].
  exists f. split; [reflexivity|]. intros args Hl. destruct P as (ps & Hs & Hf). rewrite (Hf args Hl). f_equal.
  assert (canon ps = canon (map Lit text)) as X.
  { assert (f = f) as _ by reflexivity.
    destruct (C41_format_equality is_ws names _ _ _ _ _ _ E E Hs H) as [A _]. now rewrite (A eq_refl). }
  apply (f_equal pieces_of) in X. rewrite !pieces_canon in X. subst ps. unfold subst. clear.
  induction text as [|c t IH]; [reflexivity|]. cbn. now f_equal.
Qed.

Example demo : exists f, parse_with_metavars (fun c => c =? 32) (lit "a{{{ y }/{x}}}") [lit "x"; lit "y"] = Some f /\
  format f [lit "1"; lit "2"] = Some (lit "a{2/1}").
Proof. eexists. split; reflexivity. Qed.
Example demo_bad : parse_with_metavars (fun c => c =? 32) (lit "a}b") [lit "x"] = None /\
  parse_with_metavars (fun c => c =? 32) (lit "a{z}") [lit "x"] = None.
Proof. split; reflexivity. Qed.

Print Assumptions C41_format_parse_and_substitute.
Print Assumptions C41_format_equality.
Print Assumptions C41_format_escape_round_trip.
