From Coq Require Import List Bool Arith Lia.
From Verif.NullState Require Import Model Spec Proofs Proofs2.
Import ListNotations.

(** ** C125: verdicts *)

Lemma rest_eval : forall s extra v,
  eval v (let f := FLit true in
    let f := match from_nullable s with Some g => FAnd f g | None => f end in
    let f := match is_null s with Some g => FAnd f g | None => f end in
    match extra with Some g => FAnd f g | None => f end) = true <->
  meets extra v /\ can_be (from_nullable s) v /\ can_be (is_null s) v.
Proof.
  intros s extra v. destruct (from_nullable s), (is_null s), extra; cbn; rewrite ?andb_true_iff; intuition auto.
Qed.

(** The verdict "nullable" is exactly the documented definition. *)
Theorem C125_is_nullable : forall solve C t s extra, exact solve ->
  isNullable solve C t s extra = true <-> nullable_here C t s extra.
Proof.
  intros solve C t s extra EX. unfold isNullable.
  pose proof (allows_exact solve EX C t) as AL. pose proof (proves_exact solve EX C t) as PR.
  assert (R : allows solve C t (let f := FLit true in
    let f := match from_nullable s with Some g => FAnd f g | None => f end in
    let f := match is_null s with Some g => FAnd f g | None => f end in
    match extra with Some g => FAnd f g | None => f end) = true <->
    exists v, reaches C t v /\ meets extra v /\ can_be (from_nullable s) v /\ can_be (is_null s) v).
  { rewrite AL. split; intros [v [V1 V2]]; exists v; split; auto; apply rest_eval; auto. }
  cbv zeta in R |- *. unfold nullable_here.
  destruct (is_null s) as [n|] eqn:EN.
  2: { rewrite R. split; intros H; auto. destruct H as [[_ [n [X _]]]|H]; [discriminate|auto]. }
  assert (P : proves solve C t (match extra with Some c => FImp c n | None => n end) = true <->
              forall v, reaches C t v -> meets extra v -> eval v n = true).
  { rewrite PR. destruct extra as [c|]; cbn; split; intros H v V; specialize (H v V); auto.
    - intros M. rewrite M in H. exact H.
    - destruct (eval v c); cbn; auto. }
  assert (Q : proves solve C t (FLit false) = true <-> ~ reachable C t).
  { rewrite PR. cbn. split.
    - intros H [v V]. specialize (H v V). discriminate.
    - intros H v V. exfalso. apply H. exists v. exact V. }
  destruct (match extra with None => is_literal_false n | Some _ => false end) eqn:SHORT.
  - destruct extra; [discriminate|]. destruct n as [[|]| | | | | |]; try discriminate.
    split; [discriminate|]. intros [[[v V] [n' [X H]]]|[v [V [_ [_ H]]]]].
    + injection X as <-. specialize (H v V Logic.I). discriminate.
    + discriminate.
  - destruct (proves solve C t (match extra with Some c => FImp c n | None => n end)) eqn:EP.
    + assert (H := proj1 P eq_refl). rewrite negb_true_iff.
      split.
      * intros N. left. split.
        -- destruct (allows solve C t (FLit true)) eqn:EA.
           ++ apply (AL (FLit true)) in EA. destruct EA as [v [V _]]. exists v. exact V.
           ++ exfalso. assert (proves solve C t (FLit false) = true); [|congruence].
              apply PR. intros v V. exfalso.
              assert (allows solve C t (FLit true) = true); [|congruence].
              apply AL. exists v. auto.
        -- exists n. auto.
      * intros D. destruct (proves solve C t (FLit false)) eqn:EF; auto. exfalso.
        apply (proj1 Q eq_refl). destruct D as [[RE _]|[v [V _]]]; auto. exists v. exact V.
    + rewrite R. split; intros H; auto.
      destruct H as [[_ [n' [X H]]]|H]; auto. injection X as <-.
      apply P in H. discriminate.
Qed.

(** The verdict "non-null": in no execution that reaches the point is it null. *)
Theorem C125_non_null : forall solve C t s extra, exact solve ->
  getNullability solve C t s extra = NonNull <-> nonnull_here C t s extra.
Proof.
  intros solve C t s extra EX. unfold getNullability, nonnull_here.
  destruct (is_null s) as [n|] eqn:EN.
  2: { destruct (isNullable solve C t s extra); split; try discriminate; intros [n [X _]]; discriminate. }
  assert (P : proves solve C t (FNot (match extra with Some c => FAnd c n | None => n end)) = true <->
              forall v, reaches C t v -> meets extra v -> eval v n = false).
  { rewrite (proves_exact solve EX). destruct extra as [c|]; cbn; split; intros H v V; specialize (H v V).
    - intros M. rewrite M in H. cbn in H. apply negb_true_iff. exact H.
    - destruct (eval v c); cbn; auto. rewrite H; auto.
    - intros _. apply negb_true_iff. exact H.
    - rewrite H; auto. }
  destruct (proves _ _ _ _) eqn:E.
  - split; auto. intros _. exists n. split; auto. apply P. reflexivity.
  - split.
    + destruct (isNullable solve C t s extra); discriminate.
    + intros [n' [X H]]. injection X as <-. apply P in H. discriminate.
Qed.

Theorem C125_nullable : forall solve C t s extra, exact solve ->
  getNullability solve C t s extra = Nullable <-> nullable_here C t s extra /\ ~ nonnull_here C t s extra.
Proof.
  intros solve C t s extra EX. pose proof (C125_non_null solve C t s extra EX) as NN.
  pose proof (C125_is_nullable solve C t s extra EX) as N.
  unfold getNullability in *.
  destruct (match is_null s with Some n => _ | None => _ end).
  - split; [discriminate|]. intros [_ H]. exfalso. apply H, NN. reflexivity.
  - destruct (isNullable solve C t s extra).
    + split; auto. intros _. split; [apply N; reflexivity|]. intros H. apply NN in H. discriminate.
    + split; [discriminate|]. intros [H _]. apply N in H. discriminate.
Qed.

(** No warning in unreachable code, whatever the pointer. *)
Theorem C125_unreachable : forall solve C t s extra, exact solve -> ~ reachable C t ->
  isNullable solve C t s extra = false /\ getNullability solve C t s extra <> Nullable.
Proof.
  intros solve C t s extra EX U.
  assert (~ nullable_here C t s extra) as N.
  { intros [[R _]|[v [R _]]]; apply U; auto. exists v. exact R. }
  split.
  - destruct (isNullable solve C t s extra) eqn:E; auto. exfalso. apply N.
    apply (C125_is_nullable solve C t s extra EX). exact E.
  - intros E. apply (C125_nullable solve C t s extra EX) in E. tauto.
Qed.

(** A solver that gives up can only weaken verdicts: "non-null" is always right,
    and "nullable" is either a possible null from a nullable source or a value
    that is null whenever the point is reached. *)
Theorem C125_solver_gives_up : forall solve C t s extra, sound solve ->
  (getNullability solve C t s extra = NonNull -> nonnull_here C t s extra) /\
  (isNullable solve C t s extra = true ->
     (exists n, is_null s = Some n /\ forall v, reaches C t v -> meets extra v -> eval v n = true) \/
     (exists v, reaches C t v /\ meets extra v /\ can_be (from_nullable s) v /\ can_be (is_null s) v)).
Proof.
  intros solve C t s extra SO. split.
  - unfold getNullability, nonnull_here. destruct (is_null s) as [n|].
    2: { destruct (isNullable solve C t s extra); discriminate. }
    destruct (proves _ _ _ _) eqn:E.
    2: { destruct (isNullable solve C t s extra); discriminate. }
    intros _. exists n. split; auto. intros v V M.
    pose proof (proves_sound solve SO _ _ _ E v V) as P.
    destruct extra as [c|]; cbn in *; [rewrite M in P|]; cbn in P; apply negb_true_iff; auto.
  - unfold isNullable.
    assert (R : allows solve C t (let f := FLit true in
      let f := match from_nullable s with Some g => FAnd f g | None => f end in
      let f := match is_null s with Some g => FAnd f g | None => f end in
      match extra with Some g => FAnd f g | None => f end) = true ->
      exists v, reaches C t v /\ meets extra v /\ can_be (from_nullable s) v /\ can_be (is_null s) v).
    { intros A. destruct (allows_sound solve SO _ _ _ A) as [v [V1 V2]]. exists v. split; auto. apply rest_eval; auto. }
    cbv zeta in R |- *. destruct (is_null s) as [n|]; [|right; auto].
    destruct (match extra with None => is_literal_false n | Some _ => false end); [discriminate|].
    destruct (proves solve C t (match extra with Some c => FImp c n | None => n end)) eqn:E; [|right; auto].
    intros _. left. exists n. split; auto. intros v V M.
    pose proof (proves_sound solve SO _ _ _ E v V) as P.
    destruct extra as [c|]; cbn in *; auto. rewrite M in P. exact P.
Qed.

(** New pointers get the verdict of their declared nullability. *)
Lemma below_ctx : forall C a, ctx_ok C -> a < c_next C -> forall v, obeys C v ->
  forall b, let v' := fun x => if Nat.eqb x (c_next C) then b else v x in same_so_far C v v'.
Proof. intros C a K L v O b v' x Lx. unfold v'. destruct (Nat.eqb_spec x (c_next C)); auto. lia. Qed.

Lemma obeys_next : forall C v n, obeys (mkCtx n (c_toks C) (c_invs C)) v <-> obeys C v.
Proof. intros. unfold obeys, clauses. cbn. tauto. Qed.

Lemma reaches_next : forall C t v n, reaches (mkCtx n (c_toks C) (c_invs C)) t v <-> reaches C t v.
Proof. intros. unfold reaches. rewrite obeys_next. tauto. Qed.

Lemma set_fresh : forall C t v b, ctx_ok C -> t < c_next C -> reaches C t v ->
  exists v', same_so_far C v v' /\ reaches C t v' /\ v' (c_next C) = b.
Proof.
  intros C t v b K L [O T]. exists (fun x => if Nat.eqb x (c_next C) then b else v x).
  assert (SM : same_so_far C v (fun x => if Nat.eqb x (c_next C) then b else v x)).
  { intros x Lx. destruct (Nat.eqb_spec x (c_next C)); auto. lia. }
  split; [exact SM|]. split.
  - split; [eapply obeys_ext; eauto|]. rewrite <- (SM t L). exact T.
  - rewrite Nat.eqb_refl. reflexivity.
Qed.

Theorem C125_declared : forall solve C t k C' s, exact solve -> ctx_ok C -> t < c_next C -> reachable C t ->
  init_state C (Some (Concrete k)) = (C', s) -> getNullability solve C' t s None = k.
Proof.
  intros solve C t k C' s EX K L [v V] E.
  pose proof (C125_non_null solve C' t s None EX) as NN. pose proof (C125_nullable solve C' t s None EX) as NU.
  destruct k; cbn in E; injection E as <- <-.
  - apply NN. exists (FLit false). auto.
  - destruct (set_fresh C t v true K L V) as [v' [SM [R T]]].
    apply NU. split.
    + right. exists v'. rewrite reaches_next. cbn. auto.
    + intros [n [X H]]. injection X as <-.
      specialize (H v' (proj2 (reaches_next C t v' (S (c_next C))) R) Logic.I). cbn in H. congruence.
  - destruct (set_fresh C t v true K L V) as [v1 [_ [R1 T1]]].
    destruct (set_fresh C t v false K L V) as [v0 [_ [R0 T0]]].
    unfold make_atom in *. cbn [fst snd] in *.
    destruct (getNullability _ _ _ _ _) eqn:G; auto; exfalso.
    + destruct (proj1 NN eq_refl) as [n [X H]]. injection X as <-.
      specialize (H v1 (proj2 (reaches_next C t v1 (S (c_next C))) R1) Logic.I). cbn in H. congruence.
    + destruct (proj1 NU eq_refl) as [[[_ [n [X H]]]|[w [_ [_ [F _]]]]] _].
      * injection X as <-.
        specialize (H v0 (proj2 (reaches_next C t v0 (S (c_next C))) R0) Logic.I). cbn in H. congruence.
      * cbn in F. discriminate.
Qed.

(** With a symbolic source the verdict is what the symbols allow. *)
Lemma symbolic_reaches : forall C t a b, ctx_ok C -> t < c_next C -> a < c_next C -> b < c_next C ->
  let C' := fst (init_state C (Some (Symbolic a b))) in
  (forall v, reaches C' t v <-> reaches C t v /\ (v a = true -> v (c_next C) = false)) /\
  (forall v x, reaches C t v -> (v a = true -> x = false) ->
     exists v', same_so_far C v v' /\ reaches C' t v' /\ v' (c_next C) = x).
Proof.
  intros C t a b K L La Lb. cbn [init_state make_atom fst snd add_invariant slot_nullable slot_nonnull].
  assert (A : forall v, reaches (add_invariant (mkCtx (S (c_next C)) (c_toks C) (c_invs C))
        (FImp (FAtom a) (FNot (FAtom (c_next C))))) t v <->
      reaches C t v /\ (v a = true -> v (c_next C) = false)).
  { intros v. unfold reaches. rewrite !obeys_split. cbn [c_toks c_invs add_invariant].
    split.
    - intros [[O1 O2] T]. split; [split; [split; auto|auto]|].
      + intros f I. apply O2. apply in_or_app. auto.
      + intros A. specialize (O2 (FImp (FAtom a) (FNot (FAtom (c_next C))))). cbn in O2.
        rewrite A in O2. cbn in O2. apply negb_true_iff. apply O2. apply in_or_app. cbn. auto.
    - intros [[[O1 O2] T] H]. split; [split; auto|auto].
      intros f I. apply in_app_or in I. destruct I as [I|[<-|[]]]; auto.
      cbn. destruct (v a); cbn; auto. rewrite H; auto. }
  split; [exact A|].
  intros v x V H. destruct (set_fresh C t v x K L V) as [v' [SM [R T]]].
  exists v'. split; auto. split; auto. apply A. split; auto.
  rewrite <- (SM a La). intros Ta. rewrite T. auto.
Qed.

Theorem C125_symbolic : forall solve C t a b C' s, exact solve -> ctx_ok C -> t < c_next C ->
  a < c_next C -> b < c_next C -> reachable C t ->
  init_state C (Some (Symbolic a b)) = (C', s) ->
  (getNullability solve C' t s None = NonNull <-> forall v, reaches C t v -> v a = true) /\
  (getNullability solve C' t s None = Nullable <-> exists v, reaches C t v /\ v a = false /\ v b = true).
Proof.
  intros solve C t a b C' s EX K L La Lb [v0 V0] E.
  destruct (symbolic_reaches C t a b K L La Lb) as [SR SX].
  rewrite E in SR, SX. cbn [fst] in SR, SX.
  assert (s = mkS (Some (FAtom b)) (Some (FAtom (c_next C)))) as -> by (cbn in E; congruence).
  clear E.
  assert (NN : nonnull_here C' t (mkS (Some (FAtom b)) (Some (FAtom (c_next C)))) None <->
               forall v, reaches C t v -> v a = true).
  { split.
    - intros [n [X H]] v V. injection X as <-. destruct (v a) eqn:A; auto. exfalso.
      destruct (SX v true V) as [v' [_ [R T]]]; [congruence|].
      specialize (H v' R Logic.I). cbn in H. congruence.
    - intros H. exists (FAtom (c_next C)). split; auto. intros v V _. cbn.
      apply SR in V. destruct V as [V I]. auto. }
  rewrite (C125_non_null solve _ _ _ _ EX), (C125_nullable solve _ _ _ _ EX), NN.
  split; [tauto|]. split.
  - intros [[[[v V] [n [X H]]]|[v [V [_ [F N]]]]] NNN].
    + injection X as <-. exfalso. apply SR in V. destruct V as [V HV].
      destruct (SX v false V) as [v' [_ [R T]]]; auto.
      specialize (H v' R Logic.I). cbn in H. congruence.
    + cbn in F, N. apply SR in V. destruct V as [V HV]. exists v. split; auto. split; auto.
      destruct (v a); auto. rewrite HV in N; auto.
  - intros [v [V [A B]]]. split.
    + right. destruct (SX v true V) as [v' [SM [R T]]]; [congruence|].
      exists v'. split; auto. cbn. rewrite <- (SM b Lb). auto.
    + intros H. rewrite (H v V) in A. discriminate.
Qed.

(** A null pointer literal: nullable exactly where the code is reachable. *)
Theorem C125_nullptr : forall solve C t, exact solve ->
  getNullabilityForNullptrT solve C t None = Nullable <-> reachable C t.
Proof.
  intros solve C t EX. unfold getNullabilityForNullptrT.
  pose proof (C125_is_nullable solve C t null_state None EX) as N.
  assert (nullable_here C t null_state None <-> reachable C t) as X.
  { split.
    - intros [[R _]|[v [V _]]]; auto. exists v. exact V.
    - intros R. left. split; auto. exists (FLit true). auto. }
  destruct (isNullable _ _ _ _ _).
  - split; auto. intros _. apply X, N. reflexivity.
  - split; [discriminate|]. intros R. apply X, N in R. discriminate.
Qed.

(** The reachability test leaves the additional constraints out: constraints that
    rule out every execution of reachable code still give "nullable". *)
Theorem C125_inconsistent_constraints_refuted :
  ~ (forall solve C t s extra, exact solve -> isNullable solve C t s extra = true ->
       exists v, reaches C t v /\ meets extra v).
Proof.
  intros H.
  destruct (H table_solver (mkCtx 1 [(0, FLit true)] []) 0 null_state (Some (FLit false)) table_exact) as [v [_ M]].
  - vm_compute. reflexivity.
  - cbn in M. discriminate.
Qed.

(** Where the constraints can be met, the verdict has a witness. *)
Theorem C125_constrained : forall solve C t s extra, exact solve ->
  (exists v, reaches C t v /\ meets extra v) -> isNullable solve C t s extra = true ->
  exists v, reaches C t v /\ meets extra v /\ can_be (is_null s) v.
Proof.
  intros solve C t s extra EX [v [V M]] E. apply (C125_is_nullable solve C t s extra EX) in E.
  destruct E as [[_ [n [X H]]]|[w [W [MW [_ N]]]]].
  - exists v. rewrite X. cbn. auto.
  - exists w. auto.
Qed.

(** When the solver gives up, code that cannot be reached may be warned about. *)
Theorem C125_timeout_unreachable_refuted :
  ~ (forall solve C t s, sound solve -> ~ reachable C t -> isNullable solve C t s None = false).
Proof.
  intros H.
  set (C := mkCtx 1 [(0, FLit false)] []).
  set (lazy := fun fs => if existsb (feqb (FNot (FLit false))) fs then TimedOut else table_solver fs).
  assert (sound lazy) as SO.
  { intros fs. unfold lazy. destruct (existsb _ _); [split; discriminate|]. apply table_exact. }
  specialize (H lazy C 0 null_state SO).
  assert (isNullable lazy C 0 null_state None = true) as E by (vm_compute; reflexivity).
  rewrite E in H. discriminate H.
  intros [v [O T]]. specialize (O (FEq (FAtom 0) (FLit false)) (or_introl eq_refl)). cbn in O.
  rewrite T in O. discriminate.
Qed.

(** ** C126: joins *)

(** Every execution of a branch is one of the merged environment, with the null
    state the pointer had in that branch. *)
Theorem C126_keeps_executions : forall solve C s1 t1 s2 t2 C' t s, sound solve ->
  ctx_ok C -> t1 < c_next C -> t2 < c_next C -> state_ok C s1 -> state_ok C s2 ->
  joined solve C s1 t1 s2 t2 = (C', t, s) ->
  (forall v, reaches C t1 v -> exists v', same_so_far C v v' /\ reaches C' t v' /\ state_for s s1 v') /\
  (forall v, reaches C t2 v -> exists v', same_so_far C v v' /\ reaches C' t v' /\ state_for s s2 v').
Proof. intros. destruct (joined_spec solve H C s1 t1 s2 t2 C' t s) as [_ [_ [_ [A [B _]]]]]; auto. Qed.

(** Every execution of the merged environment comes from a branch, and each
    property has the value it had in a branch taken. *)
Theorem C126_adds_no_values : forall solve C s1 t1 s2 t2 C' t s, sound solve ->
  ctx_ok C -> t1 < c_next C -> t2 < c_next C -> state_ok C s1 -> state_ok C s2 ->
  joined solve C s1 t1 s2 t2 = (C', t, s) ->
  forall v, reaches C' t v ->
    ((reaches C t1 v /\ stands_for (is_null s) (is_null s1) v) \/
     (reaches C t2 v /\ stands_for (is_null s) (is_null s2) v)) /\
    ((reaches C t1 v /\ stands_for (from_nullable s) (from_nullable s1) v) \/
     (reaches C t2 v /\ stands_for (from_nullable s) (from_nullable s2) v)).
Proof.
  intros solve C s1 t1 s2 t2 C' t s SO K L1 L2 S1 S2 E v V.
  destruct (joined_spec solve SO C s1 t1 s2 t2 C' t s K L1 L2 S1 S2 E) as [_ [_ [_ [_ [_ [D _]]]]]].
  destruct (D v V) as [O [_ [F N]]]. unfold reaches. intuition auto.
Qed.

(** When an execution takes at most one of the branches, the merged null state is
    the state of the branch taken. *)
Theorem C126_exclusive_branches : forall solve C s1 t1 s2 t2 C' t s, sound solve ->
  ctx_ok C -> t1 < c_next C -> t2 < c_next C -> state_ok C s1 -> state_ok C s2 ->
  joined solve C s1 t1 s2 t2 = (C', t, s) ->
  (forall v, obeys C v -> ~ (v t1 = true /\ v t2 = true)) ->
  forall v, reaches C' t v ->
    (reaches C t1 v /\ state_for s s1 v) \/ (reaches C t2 v /\ state_for s s2 v).
Proof.
  intros solve C s1 t1 s2 t2 C' t s SO K L1 L2 S1 S2 E X v V.
  destruct (C126_adds_no_values solve C s1 t1 s2 t2 C' t s SO K L1 L2 S1 S2 E v V) as [[[R N]|[R N]] [[R' F]|[R' F]]];
    unfold state_for; auto; exfalso; apply (X v); destruct R, R'; auto.
Qed.

(** Top only comes from top. *)
Theorem C126_no_loss : forall solve C s1 t1 s2 t2 C' t s, sound solve ->
  ctx_ok C -> t1 < c_next C -> t2 < c_next C -> state_ok C s1 -> state_ok C s2 ->
  joined solve C s1 t1 s2 t2 = (C', t, s) -> known s1 -> known s2 -> known s.
Proof.
  intros solve C s1 t1 s2 t2 C' t s SO K L1 L2 S1 S2 E [A1 A2] [B1 B2].
  destruct (joined_spec solve SO C s1 t1 s2 t2 C' t s K L1 L2 S1 S2 E) as [_ [_ [_ [_ [_ [_ [D1 D2]]]]]]].
  split; intros N; [destruct (D1 N)|destruct (D2 N)]; auto.
Qed.

Lemma stands_can : forall r b v, stands_for r b v -> can_be b v -> can_be r v.
Proof. intros [f|] [g|] v S C; cbn in *; auto; try contradiction. congruence. Qed.

Lemma can_stands : forall r b v, stands_for r b v -> r <> None -> can_be r v -> can_be b v.
Proof. intros [f|] [g|] v S N C; cbn in *; auto; try congruence. Qed.

(** A pointer from a nullable source that may be null on one branch is nullable
    after the merge: no warning is lost. *)
Theorem C126_warnings_kept : forall solve C s1 t1 s2 t2 C' t s, exact solve ->
  ctx_ok C -> t1 < c_next C -> t2 < c_next C -> state_ok C s1 -> state_ok C s2 ->
  joined solve C s1 t1 s2 t2 = (C', t, s) ->
  (exists v, reaches C t1 v /\ can_be (from_nullable s1) v /\ can_be (is_null s1) v) \/
  (exists v, reaches C t2 v /\ can_be (from_nullable s2) v /\ can_be (is_null s2) v) ->
  isNullable solve C' t s None = true.
Proof.
  intros solve C s1 t1 s2 t2 C' t s EX K L1 L2 S1 S2 E H.
  destruct (C126_keeps_executions solve C s1 t1 s2 t2 C' t s (proj1 EX) K L1 L2 S1 S2 E) as [A B].
  apply (C125_is_nullable solve C' t s None EX). right.
  assert (ext : forall p v v', below_opt (c_next C) p -> same_so_far C v v' -> can_be p v -> can_be p v').
  { intros [f|] v v' Bf SM Cv; cbn in *; auto. rewrite <- (eval_ext (c_next C) f v v'); auto. }
  destruct H as [[v [R [F N]]]|[v [R [F N]]]].
  - destruct (A v R) as [v' [SM [R' [SF SN]]]]. exists v'. split; auto. split; [exact Logic.I|].
    destruct S1 as [B1 B2]. split; eapply stands_can; eauto.
  - destruct (B v R) as [v' [SM [R' [SF SN]]]]. exists v'. split; auto. split; [exact Logic.I|].
    destruct S2 as [B1 B2]. split; eapply stands_can; eauto.
Qed.

(** A merged pointer is non-null exactly if it is non-null on both branches. *)
Theorem C126_non_null : forall solve C s1 t1 s2 t2 C' t s, exact solve ->
  ctx_ok C -> t1 < c_next C -> t2 < c_next C -> state_ok C s1 -> state_ok C s2 ->
  joined solve C s1 t1 s2 t2 = (C', t, s) -> known s1 -> known s2 ->
  (getNullability solve C' t s None = NonNull <->
   getNullability solve C t1 s1 None = NonNull /\ getNullability solve C t2 s2 None = NonNull).
Proof.
  intros solve C s1 t1 s2 t2 C' t s EX K L1 L2 S1 S2 E KN1 KN2.
  destruct (C126_keeps_executions solve C s1 t1 s2 t2 C' t s (proj1 EX) K L1 L2 S1 S2 E) as [A B].
  pose proof (C126_adds_no_values solve C s1 t1 s2 t2 C' t s (proj1 EX) K L1 L2 S1 S2 E) as D.
  destruct (C126_no_loss solve C s1 t1 s2 t2 C' t s (proj1 EX) K L1 L2 S1 S2 E KN1 KN2) as [_ NS].
  rewrite !(C125_non_null solve _ _ _ _ EX). unfold nonnull_here.
  destruct KN1 as [_ KN1], KN2 as [_ KN2]. destruct S1 as [_ S1], S2 as [_ S2].
  destruct (is_null s1) as [n1|] eqn:E1; [|congruence].
  destruct (is_null s2) as [n2|] eqn:E2; [|congruence].
  destruct (is_null s) as [n|] eqn:EN; [|congruence].
  cbn in S1, S2. split.
  - intros [n' [X H]]. injection X as <-. split.
    + exists n1. split; auto. intros v V _. destruct (A v V) as [v' [SM [R [_ SN]]]].
      rewrite EN, E1 in SN. cbn in SN. rewrite (eval_ext (c_next C) n1 v v'); auto.
      rewrite <- SN. apply H; [exact R|exact Logic.I].
    + exists n2. split; auto. intros v V _. destruct (B v V) as [v' [SM [R [_ SN]]]].
      rewrite EN, E2 in SN. cbn in SN. rewrite (eval_ext (c_next C) n2 v v'); auto.
      rewrite <- SN. apply H; [exact R|exact Logic.I].
  - intros [[m1 [X1 H1]] [m2 [X2 H2]]]. injection X1 as <-. injection X2 as <-.
    exists n. split; auto. intros v V _. destruct (D v V) as [[[R SN]|[R SN]] _]; cbn in SN; rewrite SN;
      [apply H1|apply H2]; cbn; auto.
Qed.

(** With exclusive branches a merged pointer is nullable only if it is nullable
    on a branch: the merge makes up no warning. *)
Theorem C126_no_new_warnings : forall solve C s1 t1 s2 t2 C' t s, exact solve ->
  ctx_ok C -> t1 < c_next C -> t2 < c_next C -> state_ok C s1 -> state_ok C s2 ->
  joined solve C s1 t1 s2 t2 = (C', t, s) -> known s1 -> known s2 ->
  (forall v, obeys C v -> ~ (v t1 = true /\ v t2 = true)) ->
  isNullable solve C' t s None = true ->
  isNullable solve C t1 s1 None = true \/ isNullable solve C t2 s2 None = true.
Proof.
  intros solve C s1 t1 s2 t2 C' t s EX K L1 L2 S1 S2 E KN1 KN2 XC H.
  destruct (C126_keeps_executions solve C s1 t1 s2 t2 C' t s (proj1 EX) K L1 L2 S1 S2 E) as [A B].
  pose proof (C126_exclusive_branches solve C s1 t1 s2 t2 C' t s (proj1 EX) K L1 L2 S1 S2 E XC) as D.
  destruct (C126_no_loss solve C s1 t1 s2 t2 C' t s (proj1 EX) K L1 L2 S1 S2 E KN1 KN2) as [NF NS].
  apply (C125_is_nullable solve C' t s None EX) in H. rewrite !(C125_is_nullable solve _ _ _ _ EX).
  destruct H as [[[v V] [n [X H]]]|[v [V [_ [F N]]]]].
  - assert (forall i si, (forall v, reaches C i v ->
              exists v', same_so_far C v v' /\ reaches C' t v' /\ state_for s si v') ->
              below_opt (c_next C) (is_null si) -> is_null si <> None ->
              exists n, is_null si = Some n /\ forall v, reaches C i v -> meets None v -> eval v n = true) as P.
    { intros i si Ai Bi Ni. destruct (is_null si) as [ni|] eqn:Ei; [|congruence].
      exists ni. split; auto. intros w W _. destruct (Ai w W) as [w' [SM [R [_ SN]]]].
      rewrite X, Ei in SN. cbn in SN, Bi. rewrite (eval_ext (c_next C) ni w w'); auto.
      rewrite <- SN. apply H; [exact R|exact Logic.I]. }
    destruct (D v V) as [[R _]|[R _]]; [left|right]; left; (split; [exists v; exact R|]); [apply (P t1 s1 A)|apply (P t2 s2 B)];
      first [apply S1|apply S2|apply KN1|apply KN2].
  - destruct (D v V) as [[R [SF SN]]|[R [SF SN]]]; [left|right]; right; exists v; (split; [exact R|]);
      (split; [exact Logic.I|]); split; eapply can_stands; eauto.
Qed.

(** Without exclusivity it can: an execution said to take both branches may mix
    the source of one with the value of the other. *)
Definition mixC := mkCtx 2 [(0, FLit true); (1, FLit true)] [].
Theorem C126_mixed_branches_refuted :
  ~ (forall solve C s1 t1 s2 t2 C' t s, exact solve ->
       ctx_ok C -> t1 < c_next C -> t2 < c_next C -> state_ok C s1 -> state_ok C s2 ->
       joined solve C s1 t1 s2 t2 = (C', t, s) -> known s1 -> known s2 ->
       isNullable solve C' t s None = true ->
       isNullable solve C t1 s1 None = true \/ isNullable solve C t2 s2 None = true).
Proof.
  intros H.
  (* branch 1: nullable source, but checked; branch 2: unknown source, may be null *)
  set (C := mkCtx 3 (c_toks mixC) []).
  set (s1 := mkS (Some (FLit true)) (Some (FLit false))).
  set (s2 := mkS (Some (FLit false)) (Some (FAtom 2))).
  specialize (H table_solver C s1 0 s2 1).
  destruct (joined table_solver C s1 0 s2 1) as [[C' t] s] eqn:E.
  specialize (H C' t s table_exact).
  assert (K : ctx_ok C).
  { split; cbn; [|contradiction]. intros p [<-|[<-|[]]]; cbn; auto. }
  assert (X := E). vm_compute in X. injection X as <- <- <-.
  match type of H with
  | _ -> _ -> _ -> _ -> _ -> _ -> _ -> _ -> _ -> ?b = true \/ ?c = true =>
      assert (b = true \/ c = true) as Y
  end.
  { apply H; auto; try (cbn; lia); try (split; discriminate); try (cbn; auto; fail).
    all: try (vm_compute; reflexivity).
    all: split; cbn; auto. }
  destruct Y as [Y|Y]; vm_compute in Y; discriminate Y.
Qed.

(** A pointer from an unknown source that is certainly null on one branch is no
    longer nullable after the merge with a branch where it is not. *)
Theorem C126_provably_null_branch_refuted :
  ~ (forall solve C s1 t1 s2 t2 C' t s, exact solve ->
       ctx_ok C -> t1 < c_next C -> t2 < c_next C -> state_ok C s1 -> state_ok C s2 ->
       joined solve C s1 t1 s2 t2 = (C', t, s) -> known s1 -> known s2 ->
       isNullable solve C t1 s1 None = true -> isNullable solve C' t s None = true).
Proof.
  intros H.
  set (C := mixC).
  set (s1 := mkS (Some (FLit false)) (Some (FLit true))).
  set (s2 := mkS (Some (FLit false)) (Some (FLit false))).
  specialize (H table_solver C s1 0 s2 1).
  destruct (joined table_solver C s1 0 s2 1) as [[C' t] s] eqn:E.
  specialize (H C' t s table_exact).
  assert (K : ctx_ok C).
  { split; cbn; [|contradiction]. intros p [<-|[<-|[]]]; cbn; auto. }
  assert (X := E). vm_compute in X. injection X as <- <- <-.
  assert (F : forall b : bool, true = b -> b <> false) by (intros b <-; discriminate).
  match type of H with
  | _ -> _ -> _ -> _ -> _ -> _ -> _ -> _ -> _ -> ?b = true => assert (b = true) as Y
  end.
  { apply H; auto; try (cbn; lia); try (split; discriminate); try (cbn; auto; fail).
    all: try (vm_compute; reflexivity).
    all: split; cbn; auto. }
  vm_compute in Y. discriminate Y.
Qed.

(** ** C127: widening *)

Lemma widen_prop_covers : forall solve C p tp c tc, covers (fst (widen_prop solve C p tp c tc)) c.
Proof.
  intros. unfold widen_prop. destruct (feqb_opt p c); [right; reflexivity|].
  destruct p as [p|]; [|left; reflexivity]. destruct c as [c|]; [|left; reflexivity].
  destruct (_ || _); [right|left]; reflexivity.
Qed.

(** The widened value covers the current one. *)
Theorem C127_covers_current : forall solve C top prev tp cur tc w e,
  widen solve C top prev tp cur tc = (w, e) ->
  (p_loc w = top \/ p_loc w = p_loc cur) /\
  covers (from_nullable (p_state w)) (from_nullable (p_state cur)) /\
  covers (is_null (p_state w)) (is_null (p_state cur)).
Proof.
  intros solve C top prev tp cur tc w e. unfold widen.
  pose proof (widen_prop_covers solve C (from_nullable (p_state prev)) tp (from_nullable (p_state cur)) tc) as F.
  pose proof (widen_prop_covers solve C (is_null (p_state prev)) tp (is_null (p_state cur)) tc) as N.
  destruct (widen_prop solve C (from_nullable (p_state prev)) _ _ _) as [fn e1].
  destruct (widen_prop solve C (is_null (p_state prev)) _ _ _) as [nl e2].
  cbn [fst] in *.
  destruct (Nat.eqb _ _ && both e1 e2); intros E; injection E as <- <-.
  - unfold covers. auto.
  - cbn. destruct (Nat.eqb _ _); auto.
Qed.

(** "Unchanged" means that the previous state already covers the current one:
    each property was unknown, is the same formula, or has one same constant
    value in every execution of both. *)
Definition agrees (C : ctx) (tp tc : nat) (prev cur : option formula) : Prop :=
  covers prev cur \/
  exists p c b, prev = Some p /\ cur = Some c /\
    (forall v, reaches C tp v -> eval v p = b) /\ (forall v, reaches C tc v -> eval v c = b).

Lemma widen_prop_unchanged : forall solve C p tp c tc, sound solve ->
  snd (widen_prop solve C p tp c tc) = Unchanged -> agrees C tp tc p c.
Proof.
  intros solve C p tp c tc SO. unfold widen_prop, agrees, covers.
  destruct (feqb_opt p c) eqn:E. { apply feqb_opt_eq in E. auto. }
  destruct p as [p|]; [|auto]. destruct c as [c|]; [|discriminate].
  destruct (_ || _) eqn:O; [|discriminate]. intros _. right.
  apply orb_true_iff in O. destruct O as [O|O]; apply andb_true_iff in O; destruct O as [O1 O2].
  - exists p, c, true. split; auto. split; auto.
    split; [apply (proves_sound solve SO _ _ _ O1)|apply (proves_sound solve SO _ _ _ O2)].
  - exists p, c, false. split; auto. split; auto.
    split; intros v V; apply negb_true_iff;
      [apply (proves_sound solve SO _ _ _ O1 v V)|apply (proves_sound solve SO _ _ _ O2 v V)].
Qed.

Theorem C127_unchanged : forall solve C top prev tp cur tc w, sound solve ->
  widen solve C top prev tp cur tc = (w, Unchanged) ->
  (p_loc prev = top \/ p_loc prev = p_loc cur) /\
  agrees C tp tc (from_nullable (p_state prev)) (from_nullable (p_state cur)) /\
  agrees C tp tc (is_null (p_state prev)) (is_null (p_state cur)).
Proof.
  intros solve C top prev tp cur tc w SO. unfold widen.
  pose proof (widen_prop_unchanged solve C (from_nullable (p_state prev)) tp (from_nullable (p_state cur)) tc SO) as F.
  pose proof (widen_prop_unchanged solve C (is_null (p_state prev)) tp (is_null (p_state cur)) tc SO) as N.
  destruct (widen_prop solve C (from_nullable (p_state prev)) _ _ _) as [fn e1].
  destruct (widen_prop solve C (is_null (p_state prev)) _ _ _) as [nl e2].
  cbn [snd] in *.
  destruct (Nat.eqb (p_loc prev) (p_loc cur)) eqn:L.
  - apply Nat.eqb_eq in L. rewrite L, Nat.eqb_refl. cbn [andb].
    destruct e1, e2; cbn; intros E; try discriminate E; auto.
  - cbn [andb]. destruct (Nat.eqb top (p_loc prev)) eqn:L2; cbn [andb]; [|discriminate].
    apply Nat.eqb_eq in L2. destruct e1, e2; cbn; intros E; try discriminate E; auto.
Qed.

(** A pointer on its own changes at most three times, whatever states come in:
    the analysis of a loop over it ends. *)
Definition budget (top : nat) (p : pval) : nat :=
  (if Nat.eqb (p_loc p) top then 0 else 1) +
  (match from_nullable (p_state p) with None => 0 | Some _ => 1 end) +
  (match is_null (p_state p) with None => 0 | Some _ => 1 end).

Lemma widen_prop_changed : forall solve C p tp c tc r, widen_prop solve C p tp c tc = (r, Changed) ->
  p <> None /\ r = None.
Proof.
  intros solve C p tp c tc r. unfold widen_prop. destruct (feqb_opt p c); [discriminate|].
  destruct p as [p|]; [|discriminate]. destruct c as [c|].
  - destruct (_ || _); intros E; [discriminate|]. injection E as <-. split; auto; discriminate.
  - intros E. injection E as <-. split; auto; discriminate.
Qed.

Lemma widen_prop_top : forall solve C p tp c tc r, widen_prop solve C p tp c tc = (r, Unchanged) ->
  p = None -> r = None.
Proof.
  intros solve C p tp c tc r E ->. unfold widen_prop in E.
  destruct (feqb_opt None c) eqn:Q; [|congruence]. apply feqb_opt_eq in Q. congruence.
Qed.

Lemma widen_budget : forall solve C top prev tp cur tc w,
  widen solve C top prev tp cur tc = (w, Changed) -> budget top w < budget top prev.
Proof.
  intros solve C top prev tp cur tc w. unfold widen.
  pose proof (widen_prop_changed solve C (from_nullable (p_state prev)) tp (from_nullable (p_state cur)) tc) as F.
  pose proof (widen_prop_changed solve C (is_null (p_state prev)) tp (is_null (p_state cur)) tc) as N.
  pose proof (widen_prop_top solve C (from_nullable (p_state prev)) tp (from_nullable (p_state cur)) tc) as F'.
  pose proof (widen_prop_top solve C (is_null (p_state prev)) tp (is_null (p_state cur)) tc) as N'.
  destruct (widen_prop solve C (from_nullable (p_state prev)) _ _ _) as [fn e1].
  destruct (widen_prop solve C (is_null (p_state prev)) _ _ _) as [nl e2].
  assert (BF : (match fn with None => 0 | Some _ => 1 end) + (match e1 with Changed => 1 | Unchanged => 0 end)
               <= match from_nullable (p_state prev) with None => 0 | Some _ => 1 end).
  { destruct e1.
    - specialize (F' fn eq_refl). destruct (from_nullable (p_state prev)), fn; auto. discriminate F'; auto.
    - destruct (F fn eq_refl) as [X ->]. destruct (from_nullable (p_state prev)); auto. congruence. }
  assert (BN : (match nl with None => 0 | Some _ => 1 end) + (match e2 with Changed => 1 | Unchanged => 0 end)
               <= match is_null (p_state prev) with None => 0 | Some _ => 1 end).
  { destruct e2.
    - specialize (N' nl eq_refl). destruct (is_null (p_state prev)), nl; auto. discriminate N'; auto.
    - destruct (N nl eq_refl) as [X ->]. destruct (is_null (p_state prev)); auto. congruence. }
  unfold budget. destruct (Nat.eqb (p_loc prev) (p_loc cur)) eqn:L.
  - apply Nat.eqb_eq in L. rewrite <- L, Nat.eqb_refl. cbn [andb].
    destruct (both e1 e2) eqn:BE; intros E; [discriminate|]. injection E as <-. cbn [p_loc p_state from_nullable is_null].
    destruct e1, e2; cbn in BE; try discriminate; lia.
  - cbn [andb]. intros E. injection E as <- E. cbn [p_loc p_state from_nullable is_null]. rewrite Nat.eqb_refl.
    rewrite (Nat.eqb_sym top (p_loc prev)) in E.
    destruct (Nat.eqb (p_loc prev) top); cbn [andb] in E; [|lia].
    destruct e1, e2; cbn in E; try discriminate; lia.
Qed.

Theorem C127_one_pointer_ends : forall solve C top tp tc inputs p,
  Forall (fun cur => length cur = 1) inputs ->
  snd (visit solve C top tp tc [p] inputs) <= 3.
Proof.
  intros solve C top tp tc inputs p ONE.
  assert (G : snd (visit solve C top tp tc [p] inputs) <= budget top p).
  2: { unfold budget in G. destruct (Nat.eqb _ _), (from_nullable _), (is_null _); lia. }
  revert p. induction ONE as [|cur rest LC ONE IH]; intros p; cbn [visit].
  - cbn. lia.
  - destruct cur as [|c [|]]; try discriminate. unfold widen_block. cbn [widen_list].
    destruct (widen solve C top p tp c tc) as [w e] eqn:E. destruct e; cbn [both].
    + specialize (IH p). destruct (visit solve C top tp tc [p] rest). exact IH.
    + apply widen_budget in E. specialize (IH w). destruct (visit solve C top tp tc [w] rest).
      cbn [snd] in *. lia.
Qed.

(** But a pointer that has become "top" is reset to its current state when
    another pointer of the block changes, so two pointers can keep each other
    changing for as long as states come in. *)
Definition flipC := mkCtx 3 [(0, FLit true)] [].
Definition pv (a : option nat) := mkP 7 (mkS (Some (FLit false)) (match a with Some a => Some (FAtom a) | None => None end)).
Fixpoint flips (n : nat) : list (list pval) :=
  match n with 0 => [] | S n => [pv (Some 2); pv (Some 1)] :: [pv (Some 1); pv (Some 2)] :: flips n end.

Theorem C127_two_pointers_may_not_end_refuted : forall n,
  snd (visit table_solver flipC 9 0 0 [pv (Some 1); pv None] (flips n)) = 2 * n.
Proof.
  assert (A : widen_block table_solver flipC 9 0 0 [pv (Some 1); pv None] [pv (Some 2); pv (Some 1)]
              = ([pv None; pv (Some 1)], Changed)) by (vm_compute; reflexivity).
  assert (B : widen_block table_solver flipC 9 0 0 [pv None; pv (Some 1)] [pv (Some 1); pv (Some 2)]
              = ([pv (Some 1); pv None], Changed)) by (vm_compute; reflexivity).
  induction n; [reflexivity|].
  cbn [flips visit]. rewrite A. cbn [visit]. rewrite B.
  destruct (visit table_solver flipC 9 0 0 [pv (Some 1); pv None] (flips n)) as [st m].
  cbn [snd] in *. lia.
Qed.

(** Comparison: only identical values are "same". *)
Theorem C127_compare : forall l1 s1 l2 s2, compare l1 s1 l2 s2 = Same <-> l1 = l2 /\ s1 = s2.
Proof.
  intros l1 s1 l2 s2. unfold compare. destruct (Nat.eqb_spec l1 l2) as [->|N]; cbn [negb].
  2: { split; [discriminate|]. intros [E _]. contradiction. }
  destruct s1 as [[f1 n1]|], s2 as [[f2 n2]|]; cbn [from_nullable is_null]; try (split; [discriminate|intros [_ E]; discriminate]).
  - destruct (feqb_opt f1 f2 && feqb_opt n1 n2) eqn:E.
    + apply andb_true_iff in E. destruct E as [E1 E2]. apply feqb_opt_eq in E1, E2. subst. tauto.
    + split; [discriminate|]. intros [_ X]. injection X as -> ->.
      rewrite (proj2 (feqb_opt_eq f2 f2) eq_refl), (proj2 (feqb_opt_eq n2 n2) eq_refl) in E. discriminate.
  - tauto.
Qed.

(** [if (cond) p = nullptr; else p = nonnull();]: the hypotheses of the theorems
    on joins are met, and the verdicts are as expected. *)
Definition ifC := mkCtx 3 [(1, FAtom 0); (2, FNot (FAtom 0))] [].
Definition nonnull_state := mkS (Some (FLit false)) (Some (FLit false)).

Example ex_if_hyps : ctx_ok ifC /\ 1 < c_next ifC /\ 2 < c_next ifC /\
  state_ok ifC null_state /\ state_ok ifC nonnull_state /\ known null_state /\ known nonnull_state /\
  reachable ifC 1 /\ reachable ifC 2 /\
  forall v, obeys ifC v -> ~ (v 1 = true /\ v 2 = true).
Proof.
  repeat split; cbn; auto; try lia; try discriminate; try contradiction.
  - destruct H as [<-|[<-|[]]]; cbn; lia.
  - destruct H as [<-|[<-|[]]]; cbn; lia.
  - exists (fun a => match a with 0 | 1 => true | _ => false end). split; auto.
    intros f [<-|[<-|[]]]; reflexivity.
  - exists (fun a => match a with 2 => true | _ => false end). split; auto.
    intros f [<-|[<-|[]]]; reflexivity.
  - intros v O [A B].
    pose proof (O _ (or_introl eq_refl)) as X. pose proof (O _ (or_intror (or_introl eq_refl))) as Y.
    cbn in X, Y. rewrite A in X. rewrite B in Y. destruct (v 0); discriminate.
Qed.

Example ex_if_verdicts :
  let '(C', t, s) := joined table_solver ifC null_state 1 nonnull_state 2 in
  getNullability table_solver C' t s None = Nullable /\
  getNullability table_solver C' t s (Some (FAtom 2)) = NonNull /\
  getNullability table_solver C' t s (Some (FAtom 1)) = Nullable /\
  getNullability table_solver ifC 2 nonnull_state None = NonNull.
Proof. vm_compute. auto. Qed.

Example ex_unspecified :
  let '(C', s) := init_state ifC (Some (Concrete Unspecified)) in
  getNullability table_solver C' 1 s None = Unspecified /\
  getNullability table_solver (assume C' 1 (FAtom 3)) 1 s None = Nullable /\
  getNullability table_solver (assume C' 1 (FNot (FAtom 3))) 1 s None = NonNull.
Proof. vm_compute. auto. Qed.

Print Assumptions C125_is_nullable.
Print Assumptions C125_non_null.
Print Assumptions C125_nullable.
Print Assumptions C125_unreachable.
Print Assumptions C125_solver_gives_up.
Print Assumptions C125_declared.
Print Assumptions C125_symbolic.
Print Assumptions C125_nullptr.
Print Assumptions C125_inconsistent_constraints_refuted.
Print Assumptions C125_constrained.
Print Assumptions C125_timeout_unreachable_refuted.
Print Assumptions C126_keeps_executions.
Print Assumptions C126_adds_no_values.
Print Assumptions C126_exclusive_branches.
Print Assumptions C126_no_loss.
Print Assumptions C126_warnings_kept.
Print Assumptions C126_non_null.
Print Assumptions C126_no_new_warnings.
Print Assumptions C126_mixed_branches_refuted.
Print Assumptions C126_provably_null_branch_refuted.
Print Assumptions C127_covers_current.
Print Assumptions C127_unchanged.
Print Assumptions C127_one_pointer_ends.
Print Assumptions C127_two_pointers_may_not_end_refuted.
Print Assumptions C127_compare.
