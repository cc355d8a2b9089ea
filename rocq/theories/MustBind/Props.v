(** C167 - C170: CRUBIT_MUST_BIND and the import of declarations. *)
From Coq Require Import List Bool Arith Lia.
From Verif.MustBind Require Import Model Spec Proofs Proofs2.
Import ListNotations.

Lemma run_inv o tu fuel v :
  run o tu fuel = Some v ->
  exists s, import_tu o tu fuel = Some s /\
    let r := generate_items (flat_map (build (st_cache s)) tu) in
    v = match snd r with
        | None => Aborted
        | Some e => match fst r with [] => Bindings e | fs => FatalErrors fs end
        end.
Proof.
  unfold run. destruct (import_tu o tu fuel) as [s|]; [|discriminate].
  intros E. injection E as <-. now exists s.
Qed.

Lemma run_bindings o tu fuel out :
  run o tu fuel = Some (Bindings out) ->
  exists s, import_tu o tu fuel = Some s /\
    generate_items (flat_map (build (st_cache s)) tu) = ([], Some out).
Proof.
  intros E. apply run_inv in E. destruct E as (s & Es & E). exists s. split; [assumption|].
  cbn zeta in E. destruct (generate_items (flat_map (build (st_cache s)) tu)) as [f [e|]]; cbn [fst snd] in E;
    [|discriminate]. destruct f; [|discriminate]. now injection E as <-.
Qed.

Lemma run_fatal o tu fuel fs :
  run o tu fuel = Some (FatalErrors fs) ->
  exists s out, import_tu o tu fuel = Some s /\
    generate_items (flat_map (build (st_cache s)) tu) = (fs, Some out).
Proof.
  intros E. apply run_inv in E. destruct E as (s & Es & E). exists s.
  cbn zeta in E. destruct (generate_items (flat_map (build (st_cache s)) tu)) as [f [e|]]; cbn [fst snd] in E;
    [|discriminate]. destruct f; [discriminate|]. exists e. now injection E as <-.
Qed.

Lemma visited o tu fuel out p x :
  distinct_ids tu -> well_scoped tu ->
  run o tu fuel = Some (Bindings out) -> at_path tu p x ->
  (forall a, In a p -> got_bindings out a) ->
  exists s ex, cache_ok o tu (st_cache s) /\ lookup (st_cache s) (root_id x) <> None /\
    generate_items (build (st_cache s) x) = ([], Some ex) /\ incl ex out.
Proof.
  intros Hn Hw Hr Hp Ha. apply run_bindings in Hr. destruct Hr as (s & Es & E).
  pose proof (import_cache_ok o tu fuel s Hn Es) as Hc.
  destruct (path_visited o tu (st_cache s) Hc Hw tu p x Hp out) as (Hl & ex & Ex & Hincl); try assumption.
  - intros y Hy. exact Hy.
  - apply (c_roots _ _ _ Hc).
  - exists s, ex. auto.
Qed.

(** C167: a declaration annotated with CRUBIT_MUST_BIND gets bindings, or
    the run fails. Proved for declarations whose enclosing scopes got
    bindings and that are [kept] (see Spec.v). Missing: the cases refuted
    below. *)
Theorem C167_must_bind_or_fail_partial :
  forall o tu fuel out p x,
    distinct_ids tu -> well_scoped tu ->
    run o tu fuel = Some (Bindings out) ->
    at_path tu p x -> annotated x -> in_current_target x ->
    (forall a, In a p -> got_bindings out a) -> kept x ->
    got_bindings out (root_id x).
Proof.
  intros o tu fuel out p x Hn Hw Hr Hp Hm Ho Ha Hk.
  destruct (visited o tu fuel out p x Hn Hw Hr Hp Ha) as (s & ex & Hc & Hl & Ex & Hincl).
  apply Hincl. apply (single o tu (st_cache s) Hc x ex); try assumption.
  apply (at_path_all _ _ _ Hp).
Qed.
Print Assumptions C167_must_bind_or_fail_partial.

(** Requests that cannot be met fail the run: the annotation is malformed,
    contradicts CRUBIT_DO_NOT_BIND, or is on something inaccessible. *)
Theorem C167_impossible_requests_fail :
  forall o tu fuel out p x,
    distinct_ids tu -> well_scoped tu ->
    at_path tu p x -> in_current_target x ->
    (forall a, In a p -> got_bindings out a) ->
    d_must (info x) = AMalformed \/
    (annotated x /\ (inaccessible x \/ d_dnb (info x) = ASet \/ d_dnb (info x) = AMalformed)) ->
    run o tu fuel <> Some (Bindings out).
Proof.
  intros o tu fuel out p x Hn Hw Hp Ho Ha Hbad Hr.
  destruct (visited o tu fuel out p x Hn Hw Hr Hp Ha) as (s & ex & Hc & Hl & Ex & _).
  destruct (c_done _ _ _ Hc x (at_path_all _ _ _ Hp) Hl) as (r & Er & Hg & _).
  assert (Hrr : r = Some (KUnsupported, true)).
  { destruct Hg as (get & s0 & s1 & _ & E). unfold import_decl, hard_error, unsupported in E.
    destruct Hbad as [Hb|[Hb Hcase]]; unfold annotated in *; rewrite Hb in E.
    - now injection E as <- _.
    - cbn [is_set] in E.
      destruct (transitively_private (d_chain (info x))) eqn:Et; [now injection E as <- _|].
      destruct Hcase as [(a & b & Hin & Hcase)|Hcase].
      + exfalso. clear -Et Hin Hcase. induction (d_chain (info x)) as [|[a' b'] ch IH]; [destruct Hin|].
        cbn [transitively_private] in Et. destruct Hin as [Hin|Hin].
        * injection Hin as -> ->. destruct Hcase as [->|[->|[-> ->]]]; discriminate.
        * apply IH; try assumption. destruct a'; try discriminate; [assumption|].
          destruct b'; [discriminate|assumption].
      + destruct Hcase as [Hd|Hd]; rewrite Hd in E; now injection E as <- _. }
  subst r. now apply (hard_error_fails (st_cache s) x ex Er).
Qed.
Print Assumptions C167_impossible_requests_fail.

(** ** Concrete runs. *)
Definition opts : options := {| o_strict := false; o_only_types := false |}.

Definition plain : gfacts :=
  {| g_owned := true; g_has_bindings := true; g_type_ok := true; g_value_ok := true;
     g_bridge := false; g_pre_ok := true; g_post_ok := true; g_fn := FSome true false;
     g_libcxx := false |}.

Definition unbindable : gfacts :=
  {| g_owned := true; g_has_bindings := false; g_type_ok := true; g_value_ok := true;
     g_bridge := false; g_pre_ok := true; g_post_ok := true; g_fn := FSome true false;
     g_libcxx := false |}.

Definition uncallable : gfacts :=
  {| g_owned := true; g_has_bindings := true; g_type_ok := true; g_value_ok := true;
     g_bridge := false; g_pre_ok := true; g_post_ok := true; g_fn := FSome false false;
     g_libcxx := false |}.

Definition untyped : gfacts :=
  {| g_owned := true; g_has_bindings := false; g_type_ok := false; g_value_ok := true;
     g_bridge := false; g_pre_ok := true; g_post_ok := true; g_fn := FErr;
     g_libcxx := false |}.

Definition bridged : gfacts :=
  {| g_owned := true; g_has_bindings := true; g_type_ok := true; g_value_ok := true;
     g_bridge := true; g_pre_ok := true; g_post_ok := true; g_fn := FErr;
     g_libcxx := false |}.

Definition fn (late : bool) : dclass :=
  DFunction {| ff_target := true; ff_deleted := false; ff_ident := true; ff_reserved := false;
               ff_hidden := false; ff_early := false; ff_late := late |}.

Definition mk (i : nat) (m : annot) (c : dclass) (nested : list nat) (g : gfacts) : dinfo :=
  {| d_id := i; d_must := m; d_dnb := AUnset; d_chain := []; d_named := true;
     d_allowlisted := true; d_unavailable := false; d_class := c; d_nested := nested; d_gen := g |}.

(** A namespace with a class with an annotated method, and an annotated free
    function that mentions the class. *)
Definition tu_good : list decl :=
  [ Decl (mk 1 AUnset (DNamespace NOk) [] plain)
      [ Decl (mk 2 AUnset (DRecord (Some RRecord)) [2] plain)
          [ Decl (mk 3 ASet (fn false) [2] plain) [] ] ];
    Decl (mk 4 ASet (fn false) [2; 4] plain) [] ].

Lemma tu_good_distinct : distinct_ids tu_good.
Proof. repeat constructor; cbn; intuition discriminate. Qed.

Lemma tu_good_scoped : well_scoped tu_good.
Proof.
  intros y Hy Hk. cbn in Hy. destruct Hy as [<-|[<-|[<-|[<-|[]]]]].
  - right. now exists NOk.
  - left. eexists. split; [reflexivity|discriminate].
  - now destruct Hk.
  - now destruct Hk.
Qed.

Example C167_meets_hypotheses :
  run opts tu_good 10 = Some (Bindings [(3, EBound); (2, EBound); (1, EBound); (4, EBound)]) /\
  at_path tu_good [1; 2] (Decl (mk 3 ASet (fn false) [2] plain) []) /\
  annotated (Decl (mk 3 ASet (fn false) [2] plain) []) /\
  kept (Decl (mk 3 ASet (fn false) [2] plain) []).
Proof.
  split; [reflexivity|]. split; [|split; [reflexivity|split; discriminate]].
  apply (ap_in tu_good (Decl (mk 1 AUnset (DNamespace NOk) [] plain)
      [ Decl (mk 2 AUnset (DRecord (Some RRecord)) [2] plain)
          [ Decl (mk 3 ASet (fn false) [2] plain) [] ] ])); [now left|].
  cbn [kids].
  apply (ap_in _ (Decl (mk 2 AUnset (DRecord (Some RRecord)) [2] plain)
          [ Decl (mk 3 ASet (fn false) [2] plain) [] ])); [now left|].
  apply ap_here. now left.
Qed.

(** The same method, but it cannot be imported: the run fails. *)
Example C167_failure :
  run opts [ Decl (mk 4 ASet (fn true) [] plain) [] ] 10 = Some (FatalErrors [4]) /\
  run opts [ Decl (mk 4 ASet (fn false) [] untyped) [] ] 10 = Some (FatalErrors [4]) /\
  run opts [ Decl (mk 4 AUnset (fn true) [] plain) [] ] 10 = Some (Bindings [(4, EComment)]).
Proof. now repeat split. Qed.

(** Refuted: an annotated function that can only be emitted with an
    unsatisfiable bound does not fail the run. *)
Theorem C167_uncallable_function_refuted :
  exists tu x out,
    distinct_ids tu /\ well_scoped tu /\ run opts tu 5 = Some (Bindings out) /\
    at_path tu [] x /\ annotated x /\ in_current_target x /\ function_or_type x /\
    In (root_id x, EUncallable) out /\ ~ got_bindings out (root_id x).
Proof.
  exists [Decl (mk 4 ASet (fn false) [] uncallable) []],
         (Decl (mk 4 ASet (fn false) [] uncallable) []), [(4, EUncallable)].
  split; [repeat constructor; cbn; intuition discriminate|].
  split. { intros y [<-|[]] Hk. now destruct Hk. }
  split; [reflexivity|]. split; [apply ap_here; now left|].
  split; [reflexivity|]. split; [reflexivity|]. split; [exact Logic.I|].
  split; [now left|]. intros [H|[]]. discriminate.
Qed.
Print Assumptions C167_uncallable_function_refuted.

(** Refuted: an annotated method of a class that gets no bindings, or whose
    class is mapped to some other type, is dropped silently. *)
Theorem C167_method_of_unbound_class_refuted :
  forall g, g = untyped \/ g = bridged ->
  exists tu x out,
    distinct_ids tu /\ well_scoped tu /\ run opts tu 5 = Some (Bindings out) /\
    at_path tu [1] x /\ annotated x /\ in_current_target x /\ function_or_type x /\
    d_gen (info x) = plain /\ got_nothing out (root_id x) /\
    exists c, In c tu /\ root_id c = 1 /\ d_gen (info c) = g.
Proof.
  intros g Hg.
  exists [Decl (mk 1 AUnset (DRecord (Some RRecord)) [] g) [Decl (mk 3 ASet (fn false) [] plain) []]],
         (Decl (mk 3 ASet (fn false) [] plain) []),
         (if g_bridge g then [] else [(1, EComment)]).
  split; [repeat constructor; cbn; intuition discriminate|].
  split. { intros y [<-|[<-|[]]] Hk; [|now destruct Hk]. left. eexists. split; [reflexivity|discriminate]. }
  split; [destruct Hg as [-> | ->]; reflexivity|].
  split.
  { apply (ap_in _ (Decl (mk 1 AUnset (DRecord (Some RRecord)) [] g) [Decl (mk 3 ASet (fn false) [] plain) []]));
      [now left|]. apply ap_here. now left. }
  split; [reflexivity|]. split; [reflexivity|]. split; [exact Logic.I|]. split; [reflexivity|].
  split.
  { intros e. destruct (g_bridge g); cbn; [tauto|]. intros [H|[]]. discriminate. }
  eexists. split; [now left|]. now split.
Qed.
Print Assumptions C167_method_of_unbound_class_refuted.

(** Refuted: the annotation is not recorded on forward-declared classes, nor
    on global variables, constants and types mapped to existing Rust
    types. *)
Theorem C167_untracked_kinds_refuted :
  forall c, c = DRecord (Some RIncomplete) \/ c = DRecord (Some RExisting) \/
            c = DOther (Some OGlobalVar) \/ c = DOther (Some OConstant) \/ c = DOther (Some OExisting) ->
  exists tu x out,
    distinct_ids tu /\ well_scoped tu /\ run opts tu 5 = Some (Bindings out) /\
    at_path tu [] x /\ annotated x /\ in_current_target x /\ d_class (info x) = c /\
    In (root_id x, EComment) out /\ ~ got_bindings out (root_id x).
Proof.
  intros c Hcase.
  exists [Decl (mk 4 ASet c [] unbindable) []], (Decl (mk 4 ASet c [] unbindable) []), [(4, EComment)].
  split; [repeat constructor; cbn; intuition discriminate|].
  split. { intros y [<-|[]] Hk. now destruct Hk. }
  split. { destruct Hcase as [->|[->|[->|[->| ->]]]]; reflexivity. }
  split; [apply ap_here; now left|].
  split; [reflexivity|]. split; [reflexivity|]. split; [reflexivity|].
  split; [now left|]. intros [H|[]]. discriminate.
Qed.
Print Assumptions C167_untracked_kinds_refuted.

(** C168: a declaration nobody annotated never makes the run fail. Proved
    up to functions that run into an annotated function while they are being
    imported (and without carcinize strict mode). *)
Theorem C168_unannotated_declarations_do_not_fail_partial :
  forall o tu fuel fs i,
    distinct_ids tu -> o_strict o = false ->
    run o tu fuel = Some (FatalErrors fs) -> In i fs ->
    exists x, In x (flat_map flatten tu) /\ root_id x = i /\
      (asked_for x \/
       (exists f, d_class (info x) = DFunction f) /\ runs_into_annotated_function tu x).
Proof.
  intros o tu fuel fs i Hn Ho Hr Hi. apply run_fatal in Hr. destruct Hr as (s & out & Es & E).
  pose proof (import_cache_ok o tu fuel s Hn Es) as Hc.
  destruct (covered_all (flat_map (build (st_cache s)) tu)) as [Hcov _]. rewrite E in Hcov.
  apply Hcov in Hi. apply in_flat_map in Hi. destruct Hi as (it & Hit & Hi).
  apply in_flat_map in Hit. destruct Hit as (y & Hy & Hit).
  destruct (build_sub (st_cache s) y i true) as [_ (k & El)].
  { apply in_flat_map. now exists it. }
  destruct (c_find _ _ _ Hc i _ El) as (x & Hx & Hg). apply find_some in Hx. destruct Hx as [Hx Hroot].
  exists x. split; [exact Hx|]. split; [assumption|]. unfold asked_for.
  destruct (d_must (info x)) eqn:Em; [left; left; discriminate|left; left; discriminate|].
  destruct (d_dnb (info x)) eqn:Ed; [left; right; discriminate|left; right; discriminate|].
  right. destruct (unannotated_result o tu x k true Hg Hx Ho Em Ed eq_refl) as [Hf Hrun].
  split; [|assumption]. destruct (d_class (info x)) as [f| | |]; try discriminate. now exists f.
Qed.
Print Assumptions C168_unannotated_declarations_do_not_fail_partial.

(** Refuted in general: a function that cannot be bound mentions a class
    that is defined after it; the class has an annotated method. The run
    fails over the function, although all that is annotated is bound; with
    the class first, it succeeds. *)
Definition late_class : decl :=
  Decl (mk 2 AUnset (DRecord (Some RRecord)) [] plain) [Decl (mk 3 ASet (fn false) [2] plain) []].
Definition poor_function : decl := Decl (mk 1 AUnset (fn true) [2] plain) [].

Theorem C168_stale_annotation_refuted :
  unannotated poor_function /\ ~ asked_for poor_function /\
  distinct_ids [poor_function; late_class] /\
  run opts [poor_function; late_class] 5 = Some (FatalErrors [root_id poor_function]) /\
  run opts [late_class; poor_function] 5 =
    Some (Bindings [(3, EBound); (2, EBound); (root_id poor_function, EComment)]).
Proof.
  split; [reflexivity|]. split; [unfold asked_for; cbn; intuition congruence|].
  split; [repeat constructor; cbn; intuition discriminate|]. now split.
Qed.
Print Assumptions C168_stale_annotation_refuted.

Example C168_meets_hypotheses :
  distinct_ids [poor_function; Decl (mk 4 ASet (fn true) [] plain) []] /\
  run opts [poor_function; Decl (mk 4 ASet (fn true) [] plain) []] 5 = Some (FatalErrors [4]).
Proof. split; [repeat constructor; cbn; intuition discriminate|reflexivity]. Qed.

(** C169: what is inaccessible, or excluded with CRUBIT_DO_NOT_BIND, and not
    annotated otherwise leaves no trace in the output, and never fails the
    run. *)
Theorem C169_excluded_declarations_leave_no_trace :
  forall o tu fuel v x,
    distinct_ids tu -> In x (flat_map flatten tu) -> unannotated x ->
    inaccessible x \/
    (d_dnb (info x) = ASet /\
     (d_allowlisted (info x) = true \/ exists f, d_class (info x) = DFunction f)) ->
    run o tu fuel = Some v ->
    match v with
    | Bindings out => got_nothing out (root_id x)
    | FatalErrors fs => ~ In (root_id x) fs
    | Aborted => True
    end.
Proof.
  intros o tu fuel v x Hn Hx Hm Hex Hr.
  assert (Hnone : forall s r, import_tu o tu fuel = Some s ->
             lookup (st_cache s) (root_id x) = Some (Done r) -> r = None).
  { intros s r Es El. pose proof (import_cache_ok o tu fuel s Hn Es) as Hc.
    destruct (c_find _ _ _ Hc _ _ El) as (y & Hy & Hg).
    rewrite (find_decl_root tu x Hn Hx) in Hy. injection Hy as <-.
    destruct Hg as (get & s0 & s1 & _ & E). unfold import_decl in E. unfold unannotated in Hm.
    rewrite Hm in E. cbn [is_set] in E.
    destruct (transitively_private (d_chain (info x))) eqn:Et; [now injection E as <- _|].
    destruct Hex as [(a & b & Hin & Hcase)|[Hd Hcase]].
    - exfalso. clear -Et Hin Hcase. induction (d_chain (info x)) as [|[a' b'] ch IH]; [destruct Hin|].
      cbn [transitively_private] in Et. destruct Hin as [Hin|Hin].
      + injection Hin as -> ->. destruct Hcase as [->|[->|[-> ->]]]; discriminate.
      + apply IH; try assumption. destruct a'; try discriminate; [assumption|].
        destruct b'; [discriminate|assumption].
    - rewrite Hd in E. destruct Hcase as [Ha|(f & Hf)].
      + rewrite Ha in E. cbn [negb] in E. rewrite andb_false_r in E. now injection E as <- _.
      + rewrite Hf in E. cbn [is_function negb] in E. rewrite andb_false_r in E. cbn [andb] in E.
        now injection E as <- _. }
  assert (Hsub : forall s m, import_tu o tu fuel = Some s ->
             ~ In (root_id x, m) (flat_map sub_items (flat_map (build (st_cache s)) tu))).
  { intros s m Es Hi. apply in_flat_map in Hi. destruct Hi as (it & Hit & Hi).
    apply in_flat_map in Hit. destruct Hit as (y & Hy & Hit).
    destruct (build_sub (st_cache s) y (root_id x) m) as [_ (k & El)].
    { apply in_flat_map. now exists it. }
    now apply (Hnone s) in El. }
  destruct v as [|fs|out]; [exact Logic.I| |].
  - apply run_fatal in Hr. destruct Hr as (s & out & Es & E). intros Hi.
    destruct (covered_all (flat_map (build (st_cache s)) tu)) as [Hcov _]. rewrite E in Hcov.
    now apply (Hsub s true Es), Hcov.
  - apply run_bindings in Hr. destruct Hr as (s & Es & E). intros e Hi.
    destruct (covered_all (flat_map (build (st_cache s)) tu)) as [_ Hcov]. rewrite E in Hcov.
    destruct (Hcov out (root_id x) e eq_refl Hi) as (m & Hm'). now apply (Hsub s m Es).
Qed.
Print Assumptions C169_excluded_declarations_leave_no_trace.

(** A public member of a protected nested class. *)
Definition hidden_member : decl :=
  Decl {| d_id := 5; d_must := AUnset; d_dnb := AUnset;
          d_chain := [(Public, true); (Protected, false); (Public, false)]; d_named := true;
          d_allowlisted := false; d_unavailable := false; d_class := fn false; d_nested := [];
          d_gen := plain |} [].

Example C169_meets_hypotheses :
  inaccessible hidden_member /\
  run opts [hidden_member; Decl (mk 4 ASet (fn false) [5] plain) []] 5 = Some (Bindings [(4, EBound)]) /\
  ~ inaccessible (Decl (mk 4 ASet (fn false) [5] plain) []).
Proof.
  split; [exists Protected, false; cbn; intuition|]. split; [reflexivity|].
  intros (a & b & [] & _).
Qed.

(** Accessible declarations are not excluded (the converse). *)
Theorem C169_accessible_declarations_are_considered :
  forall x, transitively_private (d_chain (info x)) = true <-> inaccessible x.
Proof.
  intros x. unfold inaccessible. induction (d_chain (info x)) as [|[a b] ch IH]; cbn [transitively_private].
  - split; [discriminate|]. intros (a & b & [] & _).
  - assert (Hrest : transitively_private ch = true ->
      exists a0 b0, In (a0, b0) ((a, b) :: ch) /\ (a0 = Private \/ a0 = Protected \/ a0 = NoAccess /\ b0 = true)).
    { intros H. apply IH in H. destruct H as (a0 & b0 & H1 & H2). exists a0, b0. split; [now right|assumption]. }
    assert (Hback : (exists a0 b0, In (a0, b0) ((a, b) :: ch) /\ (a0 = Private \/ a0 = Protected \/ a0 = NoAccess /\ b0 = true)) ->
      (a = Private \/ a = Protected \/ a = NoAccess /\ b = true) \/ transitively_private ch = true).
    { intros (a0 & b0 & [H1|H1] & H2); [injection H1 as -> ->; now left|]. right. apply IH. eauto. }
    destruct a.
    + split; [exact Hrest|]. intros H. apply Hback in H. destruct H as [H|H]; [|assumption].
      destruct H as [H|[H|[H _]]]; discriminate.
    + split; [|reflexivity]. intros _. exists Protected, b. split; [now left|auto].
    + split; [|reflexivity]. intros _. exists Private, b. split; [now left|auto].
    + destruct b.
      * split; [|reflexivity]. intros _. exists NoAccess, true. split; [now left|auto].
      * split; [exact Hrest|]. intros H. apply Hback in H. destruct H as [H|H]; [|assumption].
        destruct H as [H|[H|[_ H]]]; discriminate.
Qed.
Print Assumptions C169_accessible_declarations_are_considered.

(** C170: whatever declarations mention each other (also in cycles), the
    import ends, imports no declaration twice, considers every top-level
    declaration, and gives one verdict. *)
Theorem C170_import_terminates_and_imports_once :
  forall o tu, exists s v,
    import_tu o tu (S (length (flat_map flatten tu))) = Some s /\
    run o tu (S (length (flat_map flatten tu))) = Some v /\
    NoDup (st_log s) /\
    (forall x, In x tu -> In (root_id x) (st_log s)) /\
    (forall fuel v', run o tu fuel = Some v' -> v' = v).
Proof.
  intros o tu. destruct (import_tu_total o tu) as (s & Es).
  pose proof (import_tu_step o tu _ s Es) as Hst.
  destruct (s_log _ _ _ _ _ Hst) as [Hn Hlog].
  { split; [constructor|]. intros i. unfold cached. cbn. split; [intros []|intros H; now apply H]. }
  exists s. eexists. split; [exact Es|].
  split. { unfold run. change (flat_map flatten tu) with (all_decls tu). rewrite Es. reflexivity. }
  split; [assumption|]. split.
  - intros x Hx. apply Hlog. apply (s_want _ _ _ _ _ Hst); [now apply in_map|].
    intros Hnone. apply (find_none _ _ x Hnone); [|reflexivity].
    apply in_flat_map. exists x. split; [assumption|apply flatten_self].
  - intros fuel v' Hr. unfold run in Hr. destruct (import_tu o tu fuel) as [s'|] eqn:Es'; [|discriminate].
    assert (s' = s) as ->.
    { apply (import_tu_mono _ _ _ (Nat.max fuel (S (length (all_decls tu))))) in Es'; [|lia].
      apply (import_tu_mono _ _ _ (Nat.max fuel (S (length (all_decls tu))))) in Es; [|lia].
      congruence. }
    now injection Hr as <-.
Qed.
Print Assumptions C170_import_terminates_and_imports_once.

(** Two classes that mention each other and themselves. *)
Example C170_cycle :
  run opts [Decl (mk 1 AUnset (DRecord (Some RRecord)) [1; 2] plain) [];
            Decl (mk 2 AUnset (DRecord (Some RRecord)) [2; 1] plain) []] 3 =
  Some (Bindings [(1, EBound); (2, EBound)]).
Proof. reflexivity. Qed.
