(** Property theorems C20, C21, C42, C43, C44 about error reports. *)
From Coq Require Import List NArith Bool Arith Lia.
From Coq Require Import Strings.String.
From Verif.Common Require Import Str.
From Verif.ErrorReport Require Import Model Spec Hide HideSpec Proofs HideProofs.
Import ListNotations.
Local Open Scope N_scope.
Local Open Scope list_scope.

(** ** C20 *)
(** Every history of nested scopes whose items agree on their names runs without panic, ends with no
    item open, and leaves exactly the expected entry for every identifier, in identifier order. *)
Theorem C20_report_complete : forall digit l p, names_agree (history p) ->
  exists s, run (hide_unstable_details digit) (new l) (map lower p) = Some s /\
    cur s = None /\ sorted_keys (map_of s) /\
    forall id, find id (map_of s) = expected (hide_unstable_details digit) l (history p) id.
Proof.
  intros digit l p A.
  destruct (run_describes (hide_unstable_details digit) eq_refl eq_refl l p A) as (s & R & C & S & D).
  exists s. auto.
Qed.
Print Assumptions C20_report_complete.
(** No error is lost or duplicated: each identifier has exactly as many recorded errors as errors happened there. *)
Theorem C20_no_error_lost : forall digit l p s id, names_agree (history p) ->
  run (hide_unstable_details digit) (new l) (map lower p) = Some s ->
  map f_fmt (match find id (map_of s) with Some e => e_errors e | None => [] end) =
  map fst (errors_at id (history p)).
Proof.
  intros digit l p s id A R.
  destruct (run_describes (hide_unstable_details digit) eq_refl eq_refl l p A) as (s' & R' & C & S & D).
  assert (s' = s) by congruence. subst s'. rewrite D. unfold expected.
  destruct (List.find (at_id id) (history p)) eqn:E.
  - cbn [e_errors]. rewrite map_map. apply map_ext. intros [f m]. cbn. destruct (str_eqb m f); [reflexivity|].
    now destruct (str_eqb _ f).
  - now rewrite (proj1 (no_find_nothing _ _ E)).
Qed.
Print Assumptions C20_no_error_lost.
(** Leaving a scope restores the item that was open, from any state at all. *)
Theorem C20_scope_restores : forall hide s i body s',
  run_op hide s (OScope i body) = Some s' -> cur s' = cur s.
Proof.
  intros hide s i body s' H. rewrite run_op_scope in H.
  destruct (enter_item s i) as [[s1 old]|] eqn:E; [|discriminate].
  destruct (run hide s1 body) as [s2|]; [|discriminate].
  assert (old = cur s). { unfold enter_item in E. destruct (find _ _); [destruct (str_eqb _ _)|]; congruence. }
  unfold exit_item in H. destruct (cur s2) as [j|]; [|discriminate]. destruct (item_eq_dec j i); [|discriminate].
  injection H as <-. cbn. assumption.
Qed.
Print Assumptions C20_scope_restores.

Definition ex_foo := Item (lit "foo") 7 (Some (lit "usr")) None.
Definition ex_bar := Item (lit "bar") 9 None None.
Definition ex_prog : list uop :=
  [UScope ex_foo [UReport (UFmt (lit "a{}") (lit "a1"));
                  UScope ex_bar [UReport (UContext (lit "c") (UList [UFmt (lit "x") (lit "x"); UList []; UOther (lit "y")])); UCategory 4];
                  UReport (UContext (lit "ctx") (UOther (lit "z"))); UCategory 1]].
Example C20_case_agrees : names_agree (history ex_prog).
Proof. cbv. intros a b Ha Hb. intuition; subst; cbv; try reflexivity; try discriminate. Qed.
Example C20_case_errors :
  errors_at 7 (history ex_prog) = [(lit "a{}", lit "a1"); (lit "{}", lit "ctx")] /\
  errors_at 9 (history ex_prog) = [(lit "x", lit "x"); (lit "{}", lit "y")].
Proof. split; reflexivity. Qed.

(** An error reported outside every item occupies identifier 0: an item with that identifier
    can no longer be entered. *)
Theorem C20_item_id_zero_refuted : forall digit l i m, i_id i = 0 -> i_name i <> [] ->
  run (hide_unstable_details digit) (new l) (map lower [UReport (UOther m); UScope i []]) = None /\
  exists s, run (hide_unstable_details digit) (new l) (map lower [UScope i []]) = Some s.
Proof.
  intros digit l i m Hi Hn. split.
  - cbn [map lower]. cbn [run].
    change (run_op ?h ?s (OReport ?e)) with (Some (report h s e)). cbv iota beta.
    rewrite run_op_scope. rewrite (report_parts (hide_unstable_details digit) eq_refl eq_refl).
    cbn [parts fold_left]. unfold push_part, with_entry, enter_item, new, current_item, set_map.
    rewrite Hi. cbn. destruct (i_name i); [contradiction|reflexivity].
  - cbn [map run lower]. rewrite run_op_scope. unfold enter_item, new. cbn. unfold exit_item. cbn.
    destruct (item_eq_dec i i); [eauto|contradiction].
Qed.
Print Assumptions C20_item_id_zero_refuted.

(** ** C21 *)
(** The message of a formatted error is what was formatted... *)
Theorem C21_display : forall fmt message, message <> [] -> fdisplay (fnew fmt message) = message.
Proof.
  intros f m H. unfold fdisplay, fnew. cbn. destruct (str_eqb_spec m f) as [->|]; [reflexivity|]. destruct m; [contradiction|reflexivity].
Qed.
Print Assumptions C21_display.
(** ... and so is that of an error built from a plain string... *)
Theorem C21_display_dynamic : forall s, fdisplay (fnew_dynamic s) = s.
Proof. intro s. unfold fdisplay, fnew_dynamic, fnew. cbn. now destruct s. Qed.
Print Assumptions C21_display_dynamic.
(** ... but an empty message displays as the format string. *)
Theorem C21_display_empty_refuted : forall fmt, fmt <> [] -> fdisplay (fnew fmt []) = fmt /\ fdisplay (fnew fmt []) <> [].
Proof. intros f H. unfold fdisplay, fnew. cbn. destruct f; auto. Qed.
Print Assumptions C21_display_empty_refuted.
(** The recorded error always keeps its format string, and displays the message with unstable
    details hidden, unless nothing is left of it; a message equal to its format string is kept as is. *)
Theorem C21_recorded_display : forall digit f m,
  f_fmt (recorded (hide_unstable_details digit) (f, m)) = f /\
  (m <> f -> hide_unstable_details digit m <> [] ->
   fdisplay (recorded (hide_unstable_details digit) (f, m)) = hide_unstable_details digit m) /\
  (m = f -> fdisplay (recorded (hide_unstable_details digit) (f, m)) = m).
Proof.
  intros digit f m. unfold recorded. destruct (str_eqb_spec m f) as [->|Hne].
  - split; [reflexivity|]. split; [congruence|reflexivity].
  - destruct (str_eqb_spec (hide_unstable_details digit m) f) as [E|Hne2].
    + split; [reflexivity|]. split; [|congruence]. intros _ _. symmetry. exact E.
    + split; [reflexivity|]. split; [|congruence]. intros _ H. unfold fdisplay. cbn [f_full f_fmt].
      destruct (hide_unstable_details digit m); [contradiction|reflexivity].
Qed.
Print Assumptions C21_recorded_display.
(** The report drops the context of a formatted error or error list. *)
Theorem C21_context_refuted : forall digit l i f m c c', 
  run (hide_unstable_details digit) (new l) (map lower [UScope i [UReport (UContext c (UFmt f m))]]) =
  run (hide_unstable_details digit) (new l) (map lower [UScope i [UReport (UContext c' (UFmt f m))]]).
Proof.
  intros digit l i f m c c'. cbn [map run lower]. rewrite !run_op_scope. destruct (enter_item (new l) i) as [[s1 old]|]; [|reflexivity].
  cbn [map run lower run_op]. rewrite !(report_parts (hide_unstable_details digit) eq_refl eq_refl). reflexivity.
Qed.
Print Assumptions C21_context_refuted.

(** ** C42: recorded messages are stable *)
Theorem C42_hide_def_id : forall digit pre n k n' k' post, lawful_digit digit ->
  number digit n -> number digit k -> number digit n' -> number digit k' ->
  hide_unstable_details digit (pre ++ def_id n k ++ post) = hide_unstable_details digit (pre ++ def_id n' k' ++ post).
Proof. intros. now apply hide_def_id. Qed.
Print Assumptions C42_hide_def_id.
Theorem C42_hide_hash : forall digit pre h post, lawful_digit digit -> four_hex h ->
  hide_unstable_details digit (pre ++ hash h ++ post) =
  hide_unstable_details digit pre ++ hide_unstable_details digit post.
Proof. intros digit pre h post H1 H2. destruct (hide_hash digit H1 pre h post H2) as (a & b & E & -> & ->). exact E. Qed.
Print Assumptions C42_hide_hash.
Theorem C42_hide_keeps_rest : forall digit s, lawful_digit digit ->
  ~ mentions_def_id digit s -> ~ mentions_hash s -> hide_unstable_details digit s = s.
Proof. intros. now apply hide_id. Qed.
Print Assumptions C42_hide_keeps_rest.
(** Hiding once does not hide everything: removing a hash can put another one together. *)
Theorem C42_hide_twice_refuted : forall digit, lawful_digit digit ->
  exists s, mentions_hash (hide_unstable_details digit s).
Proof.
  intros digit _. exists (lit "[ab[1234]cd]"). exists [], (lit "abcd"), []. split; [|reflexivity].
  split; [reflexivity|]. repeat constructor.
Qed.
Print Assumptions C42_hide_twice_refuted.
Example C42_digits : lawful_digit is_ascii_digit.
Proof. intros c _. reflexivity. Qed.
Example C42_case : number is_ascii_digit (lit "12") /\ four_hex (lit "3bF0") /\
  hide_unstable_details is_ascii_digit (lit "type DefId(12:3 ~ krate[3bF0]::S) x") = lit "type DefId(krate::S) x".
Proof. split; [split; [discriminate|repeat constructor]|]. split; [split; [reflexivity|repeat constructor]|reflexivity]. Qed.

(** ** C43: fatal errors *)
Definition block (m : str) : str := newline ++ m ++ newline.
(** Text handed out plus text still held is exactly what was reported, in order... *)
Theorem C43_fatal_conserved : forall l buf outs, frun [] l = (buf, outs) ->
  List.concat outs ++ buf = flat_map (fun o => match o with FReport m => block m | FTake => [] end) l.
Proof.
  assert (G : forall l b0 buf outs, frun b0 l = (buf, outs) ->
    List.concat outs ++ buf = b0 ++ flat_map (fun o => match o with FReport m => block m | FTake => [] end) l).
  { induction l as [|[m|] l IH]; intros b0 buf outs H; cbn in H.
    - injection H as <- <-. cbn. now rewrite app_nil_r.
    - apply IH in H. rewrite H. unfold fatal_report, block. cbn [flat_map]. rewrite <- !app_assoc. reflexivity.
    - destruct (frun [] l) as [b o] eqn:E. injection H as <- <-. apply IH in E. cbn [List.concat]. rewrite <- app_assoc, E. reflexivity. }
  intros. rewrite (G _ _ _ _ H). reflexivity.
Qed.
Print Assumptions C43_fatal_conserved.
(** ... and dropping the collection panics iff something was reported after the last [take_string]. *)
Theorem C43_fatal_never_dropped_silently : forall l,
  fatal_drop (fst (frun [] l)) = false <-> exists a m b, l = a ++ FReport m :: b /\ ~ In FTake b.
Proof.
  assert (G : forall l b0, fst (frun b0 l) = [] <-> (b0 = [] \/ In FTake l) /\ ~ exists a m b, l = a ++ FReport m :: b /\ ~ In FTake b).
  { induction l as [|[m|] l IH]; intro b0; cbn.
    - split; [intros ->|]; [split; [now left|]|now intros [[H|[]] _]]. intros (a & m & b & E & _). destruct a; discriminate.
    - rewrite IH. split.
      + intros [[H|H] Hn].
        * unfold fatal_report in H. destruct b0; discriminate.
        * split; [right; now right|]. intros (a & m' & b & E & Hb). destruct a as [|x a]; cbn in E; injection E as <- ->.
          -- contradiction.
          -- apply Hn. now exists a, m', b.
      + intros [H Hn]. assert (Ht : In FTake l).
        { destruct (in_dec (fun x y : fop => ltac:(repeat decide equality) : {x = y} + {x <> y}) FTake l) as [Hi|Hi]; [exact Hi|].
          exfalso. apply Hn. now exists [], m, l. }
        split; [now right|]. intros (a & m' & b & -> & Hb). apply Hn. now exists (FReport m :: a), m', b.
    - destruct (frun [] l) as [b o] eqn:E. cbn. specialize (IH []). rewrite E in IH. cbn in IH. rewrite IH. split.
      + intros [_ Hn]. split; [right; now left|]. intros (a & m' & b' & E' & Hb). destruct a as [|x a]; cbn in E'; [discriminate|]; injection E' as <- ->.
        apply Hn. now exists a, m', b'.
      + intros [_ Hn]. split; [now left|]. intros (a & m' & b' & -> & Hb). apply Hn. now exists (FTake :: a), m', b'. }
  intro l. specialize (G l []). assert (D : fatal_drop (fst (frun [] l)) = false <-> fst (frun [] l) <> []).
  { unfold fatal_drop. destruct (fst (frun [] l)); split; congruence. }
  rewrite D, G. split.
  - intro H. clear - H. induction l as [|[m|] l IH]; [exfalso; apply H; split; [now left|]; intros (a & m & b & E & _); destruct a; discriminate| |].
    + destruct (in_dec (fun x y : fop => ltac:(repeat decide equality) : {x = y} + {x <> y}) FTake l) as [Hi|Hi]; [|now exists [], m, l].
      destruct IH as (a & m' & b & -> & Hb); [|now exists (FReport m :: a), m', b].
      intros [_ Hn]. apply H. split; [now left|]. intros (a & m' & b & E & Hb). destruct a as [|x a]; cbn in E; injection E as <- ->; [contradiction|].
      apply Hn. now exists a, m', b.
    + destruct IH as (a & m' & b & -> & Hb); [|now exists (FTake :: a), m', b].
      intros [_ Hn]. apply H. split; [now left|]. intros (a & m' & b & E & Hb). destruct a as [|x a]; cbn in E; [discriminate|]; injection E as <- ->.
      apply Hn. now exists a, m', b.
  - intros H [_ Hn]. contradiction.
Qed.
Print Assumptions C43_fatal_never_dropped_silently.
Example C43_case : fatal_drop (fst (frun [] [FReport []; FTake; FReport []])) = false /\ fatal_drop (fst (frun [] [FReport []; FTake])) = true.
Proof. split; reflexivity. Qed.

(** ** C44: root causes *)
(** However many contexts are added, the root cause is the error they were added to. *)
Theorem C44_root_cause : forall u cs, is_context u = false ->
  root_cause (fold_right context (build u) cs) = build u.
Proof.
  intros u cs Hu.
  assert (E : forall cs, fold_right context (build u) cs = build (fold_right UContext u cs) /\ innermost (fold_right UContext u cs) = u).
  { clear cs. induction cs as [|c cs [E1 E2]]; cbn [fold_right].
    - split; [reflexivity|]. destruct u; cbn in *; congruence.
    - cbn [build innermost]. now rewrite E1. }
  destruct (E cs) as [-> E2]. rewrite root_cause_build. now rewrite E2.
Qed.
Print Assumptions C44_root_cause.
(** The messages of the chain are the contexts, outermost first, then the error itself. *)
Theorem C44_messages : forall u cs, is_context u = false ->
  let (d, ds) := msgs (fold_right context (build u) cs) in d :: ds = cs ++ [display (build u)].
Proof.
  intros u cs Hu. induction cs as [|c cs IH]; cbn [fold_right].
  - unfold display. destruct u; cbn in *; try congruence; reflexivity.
  - cbn [context msgs]. destruct (msgs (fold_right context (build u) cs)) as [d ds]. cbn. now rewrite IH.
Qed.
Print Assumptions C44_messages.
(** One trip through [anyhow::Error] keeps the root cause; a context after it, or a second
    trip, hides it: the report then records the whole under the format string ["{}"]. *)
Theorem C44_round_trip : forall u, is_context u = false -> root_cause (round_trip (build u)) = build u.
Proof. intros [f m|es|m|c u] H; try reflexivity. discriminate. Qed.
Print Assumptions C44_round_trip.
Theorem C44_round_trip_twice_refuted : forall u c, is_context u = false ->
  root_cause (round_trip (round_trip (build u))) <> build u /\
  root_cause (context c (round_trip (build u))) <> build u.
Proof. intros [f m|es|m|c' u] c H; try discriminate; split; cbn; discriminate. Qed.
Print Assumptions C44_round_trip_twice_refuted.
Theorem C44_list_not_split_refuted : forall hide l es,
  exists x, e_errors (match find 0 (map_of (report hide (new l) (round_trip (round_trip (ErrList es))))) with Some e => e | None => blank l end) = [x].
Proof. intros. eexists. reflexivity. Qed.
Print Assumptions C44_list_not_split_refuted.
Example C44_case : root_cause (fold_right context (build (UFmt (lit "a") (lit "a"))) [lit "outer"; lit "inner"]) = build (UFmt (lit "a") (lit "a")).
Proof. now apply C44_root_cause. Qed.
