(** Property theorems C11 about the interner. *)
From Coq Require Import List Arith Bool Lia.
From Coq Require Import Strings.Byte.
From Verif.Interner Require Import Model Spec.
Import ListNotations.

Lemma load_store m a bs : load (store m a bs) a (length bs) = bs.
Proof.
  unfold load. apply nth_ext with (d := x00) (d' := x00); rewrite map_length, seq_length; [reflexivity|].
  intros i Hi. rewrite nth_indep with (d' := store m a bs (a + 0)) by (now rewrite map_length, seq_length).
  rewrite (map_nth (fun i => store m a bs (a + i))). rewrite seq_nth by lia. unfold store. cbn [plus].
  destruct (Nat.leb_spec a (a + i)), (Nat.ltb_spec (a + i) (a + length bs)); try lia. cbn.
  f_equal. lia.
Qed.
Lemma load_store_other m a bs h : disjoint (Handle a (length bs)) h ->
  deref (store m a bs) h = deref m h.
Proof.
  intro D. unfold deref, load. apply map_ext_in. intros i Hi. apply in_seq in Hi. unfold store.
  destruct (Nat.leb_spec a (ptr h + i)); [|reflexivity].
  destruct (Nat.ltb_spec (ptr h + i) (a + length bs)); [|reflexivity].
  exfalso. apply (D (ptr h + i)). unfold inside. cbn. lia.
Qed.

Section Proofs.
  Variable eqT : list byte -> list byte -> bool.
  Hypothesis Heq : lawful_eq eqT.

  (** The state and the log so far. *)
  Record inv (s : state) (log : list (list byte * handle)) : Prop := {
    I_sub : incl (entries s) (regions s);
    I_apart : forall h1 h2, In h1 (entries s) -> In h2 (entries s) -> h1 = h2 \/ disjoint h1 h2;
    I_dist : forall h1 h2, In h1 (entries s) -> In h2 (entries s) ->
               eqT (deref (mem s) h1) (deref (mem s) h2) = true -> h1 = h2;
    I_ent : forall h, In h (entries s) -> In (deref (mem s) h, h) log;
    I_log : forall v h, In (v, h) log -> In h (entries s) /\ eqT (deref (mem s) h) v = true
  }.

  Lemma inv_new m : inv (new m) [].
  Proof. split; cbn; try contradiction. intros x []. Qed.

  Lemma disjoint_sym a b : disjoint a b -> disjoint b a.
  Proof. intros D x [H1 H2]. apply (D x). auto. Qed.

  Lemma inv_step s log e : inv s log -> legal_event s e ->
    inv (fst (exec eqT s e)) (log ++ snd (exec eqT s e)).
  Proof.
    intros [A B C En D] L. destruct Heq as (R & S & T & Z). destruct e as [v fresh|n fresh|a b]; cbn in *.
    - unfold intern. destruct (find _ _) as [h|] eqn:F.
      + apply find_some in F as [Hin E]. cbn. split; auto.
        * intros h' H'. apply in_or_app. left. auto.
        * intros w h' Hw. apply in_app_or in Hw as [Hw|[Hw|[]]]; [auto|]. injection Hw as <- <-. auto.
      + set (h := Handle fresh (length v)) in *.
        assert (Hd : forall h', In h' (entries s) -> disjoint h h').
        { intros h' H'. rewrite Forall_forall in L. apply L. apply A. exact H'. }
        assert (Hk : forall h', In h' (entries s) -> deref (store (mem s) fresh v) h' = deref (mem s) h').
        { intros h' H'. apply load_store_other. apply Hd. exact H'. }
        assert (Hv : deref (store (mem s) fresh v) h = v) by apply load_store.
        pose proof (find_none _ _ F) as Hn. cbn in Hn.
        cbn. split; cbn.
        * intros h' [H'|H']; [now left|right; auto].
        * intros h1 h2 [<-|H1] [<-|H2]; auto. right. apply disjoint_sym. auto.
        * intros h1 h2 [<-|H1] [<-|H2]; auto.
          -- rewrite Hv, (Hk _ H2), S. intro X. rewrite (Hn _ H2) in X. discriminate.
          -- rewrite Hv, (Hk _ H1). intro X. rewrite (Hn _ H1) in X. discriminate.
          -- rewrite (Hk _ H1), (Hk _ H2). auto.
        * intros h' [<-|H']; apply in_or_app; [right; left; now rewrite Hv|]. left. rewrite Hk; auto.
        * intros w h' Hw. apply in_app_or in Hw as [Hw|[Hw|[]]].
          -- destruct (D _ _ Hw) as [D1 D2]. rewrite (Hk _ D1). auto.
          -- injection Hw as <- <-. rewrite Hv. auto.
    - rewrite app_nil_r. split; cbn; auto. intros h H. right. auto.
    - rewrite app_nil_r.
      assert (Hk : forall h', In h' (entries s) -> deref (store (mem s) a [b]) h' = deref (mem s) h').
      { intros h' H'. apply load_store_other. intros x [H1 H2]. unfold inside in H1. cbn in H1.
        apply (L _ H'). replace a with x by lia. exact H2. }
      split; cbn; auto.
      + intros h1 h2 H1 H2. rewrite !Hk by assumption. auto.
      + intros h H. rewrite Hk by assumption. auto.
      + intros v h H. destruct (D _ _ H) as [D1 D2]. rewrite Hk by assumption. auto.
  Qed.

  Lemma inv_run es : forall s log, inv s log -> legal eqT s es ->
    inv (fst (run eqT s es)) (log ++ snd (run eqT s es)).
  Proof.
    induction es as [|e es IH]; intros s log H L; cbn.
    - now rewrite app_nil_r.
    - destruct L as [L1 L2]. pose proof (@inv_step _ _ _ H L1) as H1.
      destruct (exec eqT s e) as [s1 l1]. cbn in *. pose proof (IH _ _ H1 L2) as H2.
      destruct (run eqT s1 es) as [s2 l2]. cbn in *. now rewrite app_assoc.
  Qed.
End Proofs.

(** The log holds one pair per [Intern] call, in order. *)
Lemma log_values eqT es : forall s, map fst (snd (run eqT s es)) = interned_values es.
Proof.
  induction es as [|e es IH]; intro s; cbn; [reflexivity|].
  destruct (exec eqT s e) as [s1 l1] eqn:E. pose proof (IH s1) as H. destruct (run eqT s1 es) as [s2 l2].
  cbn in *. rewrite map_app, H. f_equal. destruct e; cbn in E.
  - destruct (intern eqT s v fresh). injection E as <- <-. reflexivity.
  - injection E as <- <-. reflexivity.
  - injection E as <- <-. reflexivity.
Qed.

(** ** C11.  Over any legal history, handles returned for two values of which neither or both are
    zero-sized compare equal exactly when the values are equal.  Missing: one zero-sized
    value (only strings and slices can be empty) against a non-empty one. *)
Theorem C11_interned_eq_iff_values_eq_partial :
  forall eqT, lawful_eq eqT -> forall m es, legal eqT (new m) es ->
  forall v1 h1 v2 h2, In (v1, h1) (snd (run eqT (new m) es)) -> In (v2, h2) (snd (run eqT (new m) es)) ->
    (v1 = [] <-> v2 = []) -> handle_eq h1 h2 = eqT v1 v2.
Proof.
  intros eqT Heq m es L v1 h1 v2 h2 H1 H2 Hz.
  destruct (inv_run _ Heq _ _ _ (inv_new eqT m) L) as [_ B C En D]. cbn in *.
  set (s := fst (run eqT (new m) es)) in *.
  destruct (D _ _ H1) as [I1 E1], (D _ _ H2) as [I2 E2]. destruct Heq as (R & S & T & Z).
  assert (X : forall a b, eqT a b = true -> eqT b a = true) by (intros a b; now rewrite S).
  destruct (eqT v1 v2) eqn:E.
  - assert (h1 = h2) as -> by (apply C; auto; eapply T; [exact E1|]; eapply T; [exact E|]; now apply X).
    apply Nat.eqb_refl.
  - unfold handle_eq. apply Nat.eqb_neq. intro Hp.
    assert (h1 <> h2) as Hne.
    { intros ->. rewrite (T v1 (deref (mem s) h2) v2) in E; [discriminate|auto|auto]. }
    assert (Hl : forall h, length (deref (mem s) h) = len h)
      by (intro h; unfold deref, load; now rewrite map_length, seq_length).
    pose proof (Z _ _ E1) as L1. pose proof (Z _ _ E2) as L2. rewrite Hl in L1, L2.
    destruct (B _ _ I1 I2) as [|Dj]; [contradiction|].
    destruct v1 as [|x1 v1], v2 as [|x2 v2].
    + rewrite R in E. discriminate.
    + destruct Hz as [Hz _]. discriminate Hz. reflexivity.
    + destruct Hz as [_ Hz]. discriminate Hz. reflexivity.
    + apply (Dj (ptr h1)). unfold inside. cbn in *. lia.
Qed.

(** If no value is empty the restriction disappears: this is the full claim for sized
    types and for non-empty strings and slices. *)
Theorem C11_interned_eq_iff_values_eq_nonempty :
  forall eqT, lawful_eq eqT -> forall m es, legal eqT (new m) es ->
  Forall (fun v => v <> []) (interned_values es) ->
  forall v1 h1 v2 h2, In (v1, h1) (snd (run eqT (new m) es)) -> In (v2, h2) (snd (run eqT (new m) es)) ->
    handle_eq h1 h2 = eqT v1 v2 /\
    (handle_cmp h1 h2 = Eq <-> eqT v1 v2 = true) /\
    (eqT v1 v2 = true -> forall H (hash_ptr : nat -> H), handle_hash hash_ptr h1 = handle_hash hash_ptr h2).
Proof.
  intros eqT Heq m es L Hn v1 h1 v2 h2 H1 H2.
  assert (Hv : forall v h, In (v, h) (snd (run eqT (new m) es)) -> v <> []).
  { intros v h Hin. rewrite Forall_forall in Hn. apply Hn. rewrite <- (log_values eqT es (new m)).
    change v with (fst (v, h)). now apply in_map. }
  assert (E : handle_eq h1 h2 = eqT v1 v2).
  { eapply C11_interned_eq_iff_values_eq_partial; eauto. split; intro X; [destruct (Hv _ _ H1 X)|destruct (Hv _ _ H2 X)]. }
  rewrite <- E. unfold handle_eq, handle_cmp, handle_hash. split; [reflexivity|]. split.
  - rewrite Nat.compare_eq_iff. symmetry. apply Nat.eqb_eq.
  - intro X. apply Nat.eqb_eq in X. intros. now rewrite X.
Qed.

(** A handle keeps denoting (something equal to) the value it was returned for: [es] is any
    history that contains the call, with arbitrary activity after it. *)
Theorem C11_interned_deref_forever :
  forall eqT, lawful_eq eqT -> forall m es, legal eqT (new m) es ->
  forall v h, In (v, h) (snd (run eqT (new m) es)) ->
    eqT (deref (mem (fst (run eqT (new m) es))) h) v = true /\
    In (deref (mem (fst (run eqT (new m) es))) h) (interned_values es).
Proof.
  intros eqT Heq m es L v h H. destruct (inv_run _ Heq _ _ _ (inv_new eqT m) L) as [_ _ _ En D]. cbn in *.
  destruct (D _ _ H) as [I E]. split; [exact E|]. rewrite <- (log_values eqT es (new m)).
  apply (in_map fst _ _ (En _ I)).
Qed.

(** [str] and [[u8]]: equality of the bytes. *)
Fixpoint bytes_eqb (a b : list byte) : bool :=
  match a, b with
  | [], [] => true
  | x :: a', y :: b' => Byte.eqb x y && bytes_eqb a' b'
  | _, _ => false
  end.
Lemma bytes_eqb_eq a : forall b, bytes_eqb a b = true <-> a = b.
Proof.
  induction a as [|x a IH]; intros [|y b]; cbn; split; intro H; try easy.
  - apply andb_prop in H as [H1 H2]. f_equal; [now apply Byte.byte_dec_bl|now apply IH].
  - injection H as -> ->. rewrite (Byte.byte_dec_lb (eq_refl y)). cbn. now apply IH.
Qed.
Lemma bytes_eqb_lawful : lawful_eq bytes_eqb.
Proof.
  repeat split.
  - intro a. now apply bytes_eqb_eq.
  - intros a b. destruct (bytes_eqb b a) eqn:E.
    + apply bytes_eqb_eq in E. subst. now apply bytes_eqb_eq.
    + destruct (bytes_eqb a b) eqn:E'; [|reflexivity]. apply bytes_eqb_eq in E'. subst.
      now rewrite (proj2 (bytes_eqb_eq b b) eq_refl) in E.
  - intros a b c H1 H2. apply bytes_eqb_eq in H1, H2. apply bytes_eqb_eq. congruence.
  - intros a b H. apply bytes_eqb_eq in H. now subst.
Qed.
Theorem C11_interned_str_deref_forever :
  forall m es, legal bytes_eqb (new m) es -> forall v h, In (v, h) (snd (run bytes_eqb (new m) es)) ->
    deref (mem (fst (run bytes_eqb (new m) es))) h = v.
Proof.
  intros m es L v h H. apply bytes_eqb_eq.
  exact (proj1 (C11_interned_deref_forever _ bytes_eqb_lawful _ _ L _ _ H)).
Qed.

(** With an empty string the claim is false: a bump arena that grows downwards (bumpalo)
    serves a zero-byte request at the current top, i.e. at the address of the last allocation. *)
Definition bump_down (top n : nat) : nat := top - n.
Definition collide : list event :=
  let p := bump_down 100 1 in [Intern [x61] p; Intern [] (bump_down p 0)].
Theorem C11_interned_eq_iff_values_eq_refuted :
  exists m es, legal bytes_eqb (new m) es /\
    exists v1 h1 v2 h2, In (v1, h1) (snd (run bytes_eqb (new m) es)) /\
      In (v2, h2) (snd (run bytes_eqb (new m) es)) /\ v1 <> v2 /\ handle_eq h1 h2 = true.
Proof.
  exists (fun _ => x00), collide. split.
  - cbn. repeat split; repeat constructor; intros x [A B]; unfold inside in *; cbn in *; lia.
  - exists [x61], (Handle 99 1), [], (Handle 99 0). cbn. repeat split; auto. discriminate.
Qed.

(** Non-vacuity: a legal history with sharing, other arena users and outside writes. *)
Definition demo : list event :=
  [Intern [x61; x62] 10; OtherAlloc 4 12; OtherWrite 13 x07; Intern [x63] 9; Intern [x61; x62] 0].
Example demo_legal : legal bytes_eqb (new (fun _ => x00)) demo.
Proof.
  cbn. repeat split; repeat constructor; try (intros x [A B]; unfold inside in *; cbn in *; lia).
  intros h [<-|[]] X. unfold inside in X. cbn in X. lia.
Qed.
Example demo_log : snd (run bytes_eqb (new (fun _ => x00)) demo) =
  [([x61; x62], Handle 10 2); ([x63], Handle 9 1); ([x61; x62], Handle 10 2)].
Proof. reflexivity. Qed.

Print Assumptions C11_interned_eq_iff_values_eq_partial.
Print Assumptions C11_interned_eq_iff_values_eq_nonempty.
Print Assumptions C11_interned_deref_forever.
Print Assumptions C11_interned_str_deref_forever.
Print Assumptions C11_interned_eq_iff_values_eq_refuted.
