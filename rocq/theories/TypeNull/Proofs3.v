(** The assertion in sawNullability, and rebuildWithNullability. *)
From Coq Require Import List Bool Arith Lia.
From Verif.TypeNull Require Import Model Spec Proofs.
Import ListNotations.

Lemma walks_fold : forall n c f ts s,
  fold_left (fun o t => match o with Some s => walk n c f t s | None => None end) ts (Some s) = walks n c f ts s.
Proof. reflexivity. Qed.

Lemma walks_none : forall n c f ts,
  fold_left (fun o t => match o with Some s => walk n c f t s | None => None end) ts None = None.
Proof. induction ts; cbn; auto. Qed.

Lemma walks_cons : forall n c f t ts s, walks n c f (t :: ts) s =
  match walk n c f t s with Some s => walks n c f ts s | None => None end.
Proof. intros. unfold walks. cbn [fold_left]. destruct (walk n c f t s); auto. apply walks_none. Qed.

(** A state property kept by every step of a list walk. *)
Lemma walks_inv : forall (I : st -> Prop) n c f ts s s',
  (forall t s s', In t ts -> I s -> walk n c f t s = Some s' -> I s') ->
  I s -> walks n c f ts s = Some s' -> I s'.
Proof.
  intros I n c f. induction ts as [|t ts IH]; intros s s' H S W.
  - unfold walks in W. cbn in W. injection W as <-. exact S.
  - rewrite walks_cons in W. destruct (walk n c f t s) as [s1|] eqn:W1; [|discriminate].
    apply (IH s1 s'); auto.
    + intros t0 s0 s0' I0. apply H. right. exact I0.
    + apply (H t s s1); auto. left. reflexivity.
Qed.

(** The pending nullability is always consumed. *)
Lemma walks_pend : forall n c f ts s s',
  (forall c f t s s', walk n c f t s = Some s' -> pend s' = None) ->
  pend s = None -> walks n c f ts s = Some s' -> pend s' = None.
Proof. intros n c f ts s s' H P. apply walks_inv with (I := fun s => pend s = None); eauto. Qed.

Lemma pend_head : forall (smart : bool) f s, pend (if smart then report f s else ignore s) = None.
Proof. intros [|]; reflexivity. Qed.

Lemma walk_pend : forall n c f t s s', walk n c f t s = Some s' -> pend s' = None.
Proof.
  induction n as [|n IH]; intros c f t s s' W; [discriminate|].
  destruct t; cbn [walk] in W; rewrite ?walks_fold in W; eauto.
  - injection W as <-. reflexivity.
  - apply (walks_pend n _ _ _ (ignore s) _ IH eq_refl W).
  - destruct (walks n _ f (to_list encl) _) as [s1|] eqn:W1; [|discriminate].
    pose proof (walks_pend _ _ _ _ _ _ IH (pend_head smart f s) W1) as P1.
    destruct isT; [|injection W as <-; exact P1].
    destruct (lookup_rec _ d) as [[[l f'] ac]|].
    + rewrite walks_fold in W.
      destruct (walks n ac f' (to_list l) s1) as [s2|] eqn:W2; [|discriminate].
      pose proof (walks_pend _ _ _ _ _ _ IH P1 W2) as P2. rewrite walks_fold in W.
      apply (walks_pend _ _ _ _ _ _ IH P2 W).
    + apply (walks_pend _ _ _ _ _ _ IH P1 W).
  - apply (walks_pend _ _ _ _ _ _ IH (pend_head smart f s) W).
  - destruct (walk n c f t _) as [s1|] eqn:W1; [|discriminate]. injection W as <-. cbn [pend]. eauto.
  - destruct (lookup_subst c d i) as [[a f']|]; eauto.
Qed.

(** *** Contexts with calm arguments *)
Fixpoint calmc (c : tctx) : Prop :=
  match c with
  | CNil => True
  | CNode _ a _ ext ac => match a with Some l => calms l = true | None => True end /\ calmc ext /\ calmc ac
  end.

Lemma calmc_bind : forall q c f, calmc c -> calmq q = true -> calmc (bind_quals c f q).
Proof.
  induction q; cbn; intros c f C Q; auto. apply andb_prop in Q. destruct Q.
  split; [destruct known; auto|]. split; auto.
Qed.

Lemma calms_in : forall ts t, calms ts = true -> In t (to_list ts) -> calm t = true.
Proof.
  induction ts; cbn; intros t' C I; [contradiction|]. apply andb_prop in C. destruct C.
  destruct I as [<-|I]; auto.
Qed.

Lemma calmc_subst : forall c d i a f, calmc c -> lookup_subst c d i = Some (a, f) -> calm a = true.
Proof.
  induction c; cbn; intros d' i a f C L; [discriminate|]. destruct C as [C1 [C2 C3]].
  destruct (Nat.eqb d' d); eauto. destruct args as [l|]; [|discriminate].
  destruct (nth_error (to_list l) i) as [a'|] eqn:N; eauto. injection L as <- <-.
  eapply calms_in; eauto. eapply nth_error_In; eauto.
Qed.

Lemma calmc_rec : forall c d l f ac, calmc c -> lookup_rec c d = Some (l, f, ac) -> calms l = true /\ calmc ac.
Proof.
  induction c; cbn; intros d' l f ac C L; [discriminate|]. destruct C as [C1 [C2 C3]].
  destruct (Nat.eqb d' d); eauto. destruct args as [l'|]; [|discriminate]. injection L as <- <- <-. auto.
Qed.

Lemma calmc_arg : forall c, calmc c -> calmc (arg_context c).
Proof. destruct c; cbn; tauto. Qed.

(** *** Through a forwarding alias, to its first argument *)
Lemma walk_forwards : forall n d a args f ext ac f0 t s s', forwards d t = true ->
  pend s = Some Unspecified ->
  walk n (CNode d (Some (TCons a args)) f ext ac) f0 t s = Some s' ->
  exists m s1, m < n /\ walk m ac f a s1 = Some s' /\ pend s1 = Some Unspecified /\ asrt s1 = asrt s.
Proof.
  induction n as [n IH] using (well_founded_induction lt_wf); intros d a args f ext ac f0 t s s' F P W.
  destruct n as [|n]; [discriminate|].
  assert (AL : forall d' ann tr file a' rest body, t = TAlias d' ann tr file QNil (TCons a' rest) body ->
     (ann = None \/ ann = Some Unspecified) -> forwards d a' = true -> forwards d' body = true ->
     exists m s1, m < S n /\ walk m ac f a s1 = Some s' /\ pend s1 = Some Unspecified /\ asrt s1 = asrt s).
  { intros d' ann tr file a' rest body -> K F1 F2. cbn [walk bind_quals] in W.
    set (s1 := saw_opt (effective ann (unwrap_alias d' (TCons a' rest) body)) s) in W.
    assert (P1 : pend s1 = Some Unspecified /\ asrt s1 = asrt s).
    { unfold s1. destruct K as [-> | ->]; cbn [effective]; auto.
      destruct (unwrap_alias d' (TCons a' rest) body) as [x|]; auto.
      destruct (is_unknown_valid_on x); cbn [saw_opt]; auto. cbn. rewrite P, orb_false_r. auto. }
    destruct P1 as [P1 A1].
    destruct (IH n (Nat.lt_succ_diag_r n) _ _ _ _ _ _ _ _ _ _ F2 P1 W) as [m [s2 [L2 [W2 [P2 A2]]]]].
    destruct (IH m ltac:(lia) _ _ _ _ _ _ _ _ _ _ F1 P2 W2) as [m3 [s3 [L3 [W3 [P3 A3]]]]].
    exists m3, s3. split; [lia|]. split; auto. split; congruence. }
  destruct t as [| | | | | | |d' ann tr file q targs body| | | | |d' i r]; try discriminate F.
  - cbn [forwards] in F.
    destruct ann as [[]|], q, targs; try discriminate F;
      apply andb_prop in F; destruct F; eapply AL; eauto.
  - cbn [forwards] in F. apply andb_prop in F. destruct F as [F1 F2].
    apply Nat.eqb_eq in F1, F2. subst. cbn [walk lookup_subst to_list nth_error arg_context] in W.
    rewrite Nat.eqb_refl in W. exists n, s. auto.
Qed.

Lemma asrt_head : forall (smart : bool) f s, asrt (if smart then report f s else ignore s) = asrt s.
Proof. intros [|]; reflexivity. Qed.

Lemma saw_calm : forall k s, pend s <> Some Unspecified -> asrt (saw_opt k s) = asrt s.
Proof.
  intros [k|] s P; auto. cbn. destruct k; try (rewrite orb_false_r; reflexivity);
    destruct (pend s) as [[]|]; try congruence; apply orb_false_r.
Qed.

(** When the annotation takes effect and is Unknown, it is around a pointer. *)
Lemma saw_pend : forall k inner s, pend s <> Some Unspecified ->
  pend (saw_opt (effective k inner) s) <> Some Unspecified \/
  (k = Some Unspecified /\ pend (saw_opt (effective k inner) s) = Some Unspecified /\
   exists t, inner = Some t /\ is_unknown_valid_on t = true).
Proof.
  intros k inner s P. destruct k as [[]|]; cbn [effective].
  - left. cbn. destruct (pend s); congruence.
  - left. cbn. destruct (pend s); congruence.
  - destruct inner as [t|]; [|left; exact P]. destruct (is_unknown_valid_on t) eqn:V; [|left; exact P].
    cbn. destruct (pend s) as [k|] eqn:PS; [left; exact P|]. right. eauto.
  - left. exact P.
Qed.

Theorem walk_asrt : forall n c f t s s', calmc c -> calm t = true ->
  (pend s <> Some Unspecified \/ (is_unknown_valid_on t = true /\ quiet t = true)) ->
  walk n c f t s = Some s' -> asrt s' = asrt s.
Proof.
  induction n as [n IH] using (well_founded_induction lt_wf); intros c f t s s' C T K W.
  destruct n as [|n]; [discriminate|].
  assert (LS : forall c f ts s s', calmc c -> (forall t, In t ts -> calm t = true) -> pend s = None ->
     walks n c f ts s = Some s' -> asrt s' = asrt s /\ pend s' = None).
  { intros c0 f0 ts s0 s0' C0 T0 P0 W0.
    apply (walks_inv (fun x => asrt x = asrt s0 /\ pend x = None) n c0 f0 ts s0); auto.
    intros t0 s1 s1' I0 [A1 P1] W1. split; [|eapply walk_pend; eauto].
    rewrite (IH n (Nat.lt_succ_diag_r n) c0 f0 t0 s1 s1'); auto. left. congruence. }
  assert (IHn : forall c f t s s', calmc c -> calm t = true -> 
     (pend s <> Some Unspecified \/ (is_unknown_valid_on t = true /\ quiet t = true)) ->
     walk n c f t s = Some s' -> asrt s' = asrt s) by (intros; eapply IH; eauto).
  destruct t; cbn [walk] in W; cbn [calm] in T; rewrite ?walks_fold in W.
  - injection W as <-. reflexivity.
  - apply (IHn _ _ _ (report f s) _ C T) in W; auto. left. cbn. congruence.
  - apply (IHn _ _ _ (ignore s) _ C T) in W; auto. left. cbn. congruence.
  - apply (IHn _ _ _ (ignore s) _ C T) in W; auto. left. cbn. congruence.
  - apply andb_prop in T. destruct T as [T1 T2]. apply LS in W; auto.
    + destruct W as [W _]. rewrite W. reflexivity.
    + intros x [<-|X]; auto. eapply calms_in; eauto.
  - (* TRec *)
    apply andb_prop in T. destruct T as [T T3]. apply andb_prop in T. destruct T as [T1 T2].
    pose proof (calmc_bind q c f C T2) as C1.
    destruct (walks n _ f (to_list encl) _) as [s1|] eqn:W1; [|discriminate].
    apply LS in W1; auto; [|intros x X; apply (calms_in encl); auto|apply pend_head].
    rewrite asrt_head in W1. destruct W1 as [A1 P1].
    destruct isT; [|injection W as <-; exact A1].
    destruct (lookup_rec _ d) as [[[l f'] ac]|] eqn:L.
    + destruct (calmc_rec _ _ _ _ _ C1 L) as [CL CA]. rewrite walks_fold in W.
      destruct (walks n ac f' (to_list l) s1) as [s2|] eqn:W2; [|discriminate].
      apply LS in W2; auto; [|intros x X; apply (calms_in l); auto]. destruct W2 as [A2 P2].
      rewrite walks_fold in W. apply LS in W; auto.
      * destruct W. congruence.
      * intros x X. apply (calms_in dargs); auto. unfold drop in X. eapply in_skipn; eauto.
    + apply LS in W; auto; [|intros x X; apply (calms_in dargs); auto]. destruct W. congruence.
  - (* TTst *)
    apply andb_prop in T. destruct T as [T T4]. apply andb_prop in T. destruct T as [T T3].
    apply andb_prop in T. destruct T as [T1 T2].
    apply LS in W; auto.
    + rewrite asrt_head in W. tauto.
    + apply calmc_bind; auto.
    + intros x X. apply in_app_or in X. destruct X as [X|X]; [apply (calms_in encl); auto|].
      apply in_app_or in X. destruct X as [X|X]; [apply (calms_in args)|apply (calms_in dflt)]; auto.
    + apply pend_head.
  - (* TAlias *)
    apply andb_prop in T. destruct T as [T T4]. apply andb_prop in T. destruct T as [T T3].
    apply andb_prop in T. destruct T as [T1 T2].
    pose proof (calmc_bind q c f C T1) as C1.
    assert (C2 : calmc (CNode d (Some args) f (bind_quals c f q) (bind_quals c f q))) by (cbn; auto).
    destruct K as [K|[K1 K2]].
    + pose proof (saw_calm (effective ann (unwrap_alias d args t)) s K) as A1.
      destruct (saw_pend ann (unwrap_alias d args t) s K) as [P|[-> [P [a [U V]]]]].
      * apply IHn in W; auto. congruence.
      * apply andb_prop in T4. destruct T4 as [T5 T6].
        assert (AA : exists rest, args = TCons a rest).
        { unfold unwrap_alias in U. destruct args as [|a0 rest]; [discriminate|].
          destruct (expands_to_arg0 d t); [|discriminate]. injection U as ->. eauto. }
        destruct AA as [rest ->]. rewrite <- bare_forwarded_eq, V in T6. cbn in T6.
        destruct (walk_forwards _ _ _ _ _ _ _ _ _ _ _ T5 P W) as [m [s1 [L1 [W1 [P1 A2]]]]].
        apply (IH m ltac:(lia)) in W1; auto; [congruence|].
        cbn [calms] in T2. apply andb_prop in T2. tauto.
    + destruct ann as [k|]; [cbn [quiet] in K2; discriminate|].
      cbn [effective saw_opt] in W.
      apply IHn in W; auto. right. split; [|exact K2].
      cbn [is_unknown_valid_on] in K1. destruct transparent; auto.
      cbn [is_pointer lexical] in K1. rewrite andb_false_r in K1. discriminate.
  - (* TTypedef *)
    apply andb_prop in T. destruct T as [T1 T2].
    destruct K as [K|[_ K]]; [|discriminate].
    apply IHn in W; auto. apply calmc_bind; auto.
  - (* TAttr *)
    apply andb_prop in T. destruct T as [T1 T2].
    destruct (walk n c f t _) as [s1|] eqn:W1; [|discriminate]. injection W as <-. cbn [asrt].
    destruct K as [K|[K1 K2]].
    + rewrite <- (saw_calm (effective k (Some t)) s K). apply IHn in W1; auto.
      destruct (saw_pend k (Some t) s K) as [P|[-> [P [a [U V]]]]]; auto.
      injection U as <-. rewrite <- bare_forwarded_eq, V in T2. auto.
    + destruct k as [k|]; [discriminate K2|]. cbn [effective saw_opt] in W1. apply IHn in W1; auto.
      right. cbn [quiet] in K2. split; auto.
      assert (PL : is_pointer t && lexical t = true) by exact K1. clear - PL K2.
      destruct t; cbn [is_pointer lexical quiet is_unknown_valid_on] in *; auto.
      all: try (rewrite ?andb_false_r in PL; discriminate).
      clear K2. induction t; cbn [is_pointer lexical is_unknown_valid_on] in *; auto;
        rewrite ?andb_false_r in PL; discriminate.
  - (* TParen *)
    apply IHn in W; auto.
  - (* TSugar *)
    apply andb_prop in T. destruct T as [T1 T2].
    apply IHn in W; auto; [apply calmc_bind; auto|].
    destruct K as [K|[K1 K2]]; auto. right. cbn [quiet] in K2. split; auto.
    assert (PL : is_pointer t && lexical t = true) by exact K1. clear - PL K2.
    destruct t; cbn [is_pointer lexical quiet is_unknown_valid_on] in *; auto.
    all: try (rewrite ?andb_false_r in PL; discriminate).
    clear K2. induction t; cbn [is_pointer lexical is_unknown_valid_on] in *; auto;
      rewrite ?andb_false_r in PL; discriminate.
  - (* TSubst *)
    destruct K as [K|[_ K]]; [|discriminate].
    destruct (lookup_subst c d i) as [[a f']|] eqn:L; apply IHn in W; auto.
    + apply calmc_arg; auto.
    + eapply calmc_subst; eauto.
Qed.
