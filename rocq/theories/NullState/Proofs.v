From Coq Require Import List Bool Arith Lia.
From Verif.NullState Require Import Model Spec.
Import ListNotations.

Lemma feqb_eq : forall f g, feqb f g = true <-> f = g.
Proof.
  induction f; destruct g; cbn; split; intros H; try discriminate; try congruence;
    try (apply andb_true_iff in H; destruct H as [H1 H2]; apply IHf1 in H1; apply IHf2 in H2; congruence);
    try (injection H as -> ->; apply andb_true_iff; split; [apply IHf1|apply IHf2]; reflexivity).
  - apply eqb_prop in H. congruence.
  - injection H as ->. apply eqb_reflx.
  - apply Nat.eqb_eq in H. congruence.
  - injection H as ->. apply Nat.eqb_refl.
  - apply IHf in H. congruence.
  - injection H as ->. apply IHf. reflexivity.
Qed.

Lemma feqb_opt_eq : forall a b, feqb_opt a b = true <-> a = b.
Proof.
  destruct a, b; cbn; split; intros H; try discriminate; try reflexivity.
  - apply feqb_eq in H. congruence.
  - injection H as ->. apply feqb_eq. reflexivity.
Qed.

Lemma eval_ext : forall n f v w, below n f -> (forall a, a < n -> v a = w a) -> eval v f = eval w f.
Proof.
  induction f; cbn; intros v w B E; auto;
    try (rewrite (IHf v w B E); reflexivity);
    destruct B as [B1 B2]; rewrite (IHf1 v w B1 E), (IHf2 v w B2 E); reflexivity.
Qed.

Lemma below_mono : forall n m f, n <= m -> below n f -> below m f.
Proof. induction f; cbn; intros L B; intuition lia. Qed.

Lemma below_opt_mono : forall n m f, n <= m -> below_opt n f -> below_opt m f.
Proof. destruct f; cbn; auto. intros. eapply below_mono; eauto. Qed.

(** Truth tables. *)
Lemma rows_all : forall n (v : nat -> bool), exists r, In r (rows n) /\ forall a, a < n -> row_val r a = v a.
Proof.
  induction n; intros v; cbn.
  - exists []. split; auto. intros; lia.
  - destruct (IHn (fun a => v (S a))) as [r [R E]].
    exists (v 0 :: r). split.
    + apply in_flat_map. exists r. split; auto. destruct (v 0); cbn; auto.
    + intros [|a] L; cbn; auto. apply E. lia.
Qed.

Lemma below_top : forall f n, top_atom f <= n -> below n f.
Proof. induction f; cbn; intros n L; auto; try (split; [apply IHf1|apply IHf2]; lia). Qed.

Lemma fold_top : forall fs f, In f fs -> top_atom f <= fold_right (fun f m => Nat.max (top_atom f) m) 0 fs.
Proof. induction fs; cbn; intros f I; [contradiction|]. destruct I as [->|I]; [lia|]. specialize (IHfs f I). lia. Qed.

Lemma table_exact : exact table_solver.
Proof.
  split.
  - intros fs. unfold table_solver.
    destruct (existsb _ _) eqn:E; split; intros H; try discriminate.
    + apply existsb_exists in E. destruct E as [r [_ R]]. exists (row_val r).
      intros f I. apply (proj1 (forallb_forall _ _) R f I).
    + intros v T.
      destruct (rows_all (fold_right (fun f m => Nat.max (top_atom f) m) 0 fs) v) as [r [R A]].
      assert (existsb (fun r => forallb (eval (row_val r)) fs)
                (rows (fold_right (fun f m => Nat.max (top_atom f) m) 0 fs)) = true) as X.
      { apply existsb_exists. exists r. split; auto. apply forallb_forall. intros f I.
        rewrite <- (T f I).
        apply (eval_ext (fold_right (fun f m => Nat.max (top_atom f) m) 0 fs)); auto.
        apply below_top, fold_top, I. }
      congruence.
  - intros fs. unfold table_solver. destruct (existsb _ _); discriminate.
Qed.

(** proves and allows. *)
Section Solver.
Variable solve : solver.

Lemma proves_sound : sound solve -> forall C t f, proves solve C t f = true ->
  forall v, reaches C t v -> eval v f = true.
Proof.
  intros SO C t f P v [O T]. unfold proves in P.
  destruct (solve _) eqn:E; try discriminate.
  destruct (eval v f) eqn:F; auto. exfalso.
  apply (proj1 (SO _) E v). intros g [<-|[<-|I]]; cbn; auto. rewrite F. reflexivity.
Qed.

Lemma allows_sound : sound solve -> forall C t f, allows solve C t f = true ->
  exists v, reaches C t v /\ eval v f = true.
Proof.
  intros SO C t f P. unfold allows in P.
  destruct (solve _) eqn:E; try discriminate.
  destruct (proj2 (SO _) E) as [v T]. exists v. split.
  - split.
    + intros g I. apply T. right. right. exact I.
    + apply (T (FAtom t)). left. reflexivity.
  - apply T. right. left. reflexivity.
Qed.

Lemma proves_exact : exact solve -> forall C t f, proves solve C t f = true <->
  forall v, reaches C t v -> eval v f = true.
Proof.
  intros [SO NT] C t f. split; [apply proves_sound; auto|].
  intros H. unfold proves. destruct (solve _) eqn:E; auto.
  - exfalso. destruct (proj2 (SO _) E) as [v T].
    assert (eval v (FNot f) = true) as N by (apply T; right; left; reflexivity).
    cbn in N. rewrite H in N; [discriminate|]. split.
    + intros g I. apply T. right. right. exact I.
    + apply (T (FAtom t)). left. reflexivity.
  - exfalso. eapply NT; eauto.
Qed.

Lemma allows_exact : exact solve -> forall C t f, allows solve C t f = true <->
  exists v, reaches C t v /\ eval v f = true.
Proof.
  intros [SO NT] C t f. split; [apply allows_sound; auto|].
  intros [v [[O T] F]]. unfold allows. destruct (solve _) eqn:E; auto; exfalso.
  - apply (proj1 (SO _) E v). intros g [<-|[<-|I]]; cbn; auto.
  - eapply NT; eauto.
Qed.

Lemma obeys_split : forall C v, obeys C v <->
  (forall p, In p (c_toks C) -> v (fst p) = eval v (snd p)) /\ (forall f, In f (c_invs C) -> eval v f = true).
Proof.
  intros C v. unfold obeys, clauses. split.
  - intros H. split.
    + intros p I. apply eqb_prop. apply (H (FEq (FAtom (fst p)) (snd p))).
      apply in_or_app. left. apply in_map_iff. exists p. auto.
    + intros f I. apply H. apply in_or_app. auto.
  - intros [H1 H2] f I. apply in_app_or in I. destruct I as [I|I]; auto.
    apply in_map_iff in I. destruct I as [p [<- I]]. cbn. rewrite (H1 p I). apply eqb_reflx.
Qed.

Lemma obeys_ext : forall C v w, ctx_ok C -> same_so_far C v w -> obeys C v -> obeys C w.
Proof.
  intros C v w [K1 K2] E O. apply obeys_split in O. destruct O as [O1 O2]. apply obeys_split. split.
  - intros p I. destruct (K1 p I) as [L B]. rewrite <- (E _ L), (O1 p I).
    apply (eval_ext (c_next C)); auto.
  - intros f I. rewrite <- (O2 f I). symmetry. apply (eval_ext (c_next C)); auto.
Qed.

(** One merge. *)
Lemma merge_spec : sound solve -> forall C b1 t1 b2 t2 t d,
  ctx_ok C -> below_opt (c_next C) b1 -> below_opt (c_next C) b2 ->
  t1 < c_next C -> t2 < c_next C -> t < c_next C -> In (t, d) (c_toks C) ->
  (forall v, reaches C t v -> v t1 = true \/ v t2 = true) ->
  let C' := fst (merge_formulas solve C b1 t1 b2 t2 t) in
  let r := snd (merge_formulas solve C b1 t1 b2 t2 t) in
  ctx_ok C' /\ c_next C <= c_next C' /\ below_opt (c_next C') r /\ (exists d', In (t, d') (c_toks C')) /\
  (forall v, reaches C t v -> v t1 = true ->
     exists v', same_so_far C v v' /\ reaches C' t v' /\ stands_for r b1 v') /\
  (forall v, reaches C t v -> v t2 = true ->
     exists v', same_so_far C v v' /\ reaches C' t v' /\ stands_for r b2 v') /\
  (forall v, reaches C' t v -> reaches C t v /\
     ((v t1 = true /\ stands_for r b1 v) \/ (v t2 = true /\ stands_for r b2 v))) /\
  (r = None -> b1 = None \/ b2 = None).
Proof.
  intros SO C b1 t1 b2 t2 t d K B1 B2 L1 L2 L I OR.
  assert (same : forall r, below_opt (c_next C) r ->
     (forall v, reaches C t v -> v t1 = true -> stands_for r b1 v) ->
     (forall v, reaches C t v -> v t2 = true -> stands_for r b2 v) ->
     (r = None -> b1 = None \/ b2 = None) ->
     ctx_ok C /\ c_next C <= c_next C /\ below_opt (c_next C) r /\ (exists d', In (t, d') (c_toks C)) /\
     (forall v, reaches C t v -> v t1 = true ->
       exists v', same_so_far C v v' /\ reaches C t v' /\ stands_for r b1 v') /\
     (forall v, reaches C t v -> v t2 = true ->
       exists v', same_so_far C v v' /\ reaches C t v' /\ stands_for r b2 v') /\
     (forall v, reaches C t v -> reaches C t v /\
       ((v t1 = true /\ stands_for r b1 v) \/ (v t2 = true /\ stands_for r b2 v))) /\
     (r = None -> b1 = None \/ b2 = None)).
  { intros r B S1 S2 N. split; [exact K|]. split; [lia|]. split; [exact B|]. split; [eauto|].
    split; [|split; [|split; [|exact N]]].
    - intros v R T. exists v. split; [intros a _; reflexivity|]. auto.
    - intros v R T. exists v. split; [intros a _; reflexivity|]. auto.
    - intros v R. split; auto. destruct (OR v R); auto. }
  unfold merge_formulas.
  destruct (feqb_opt b1 b2) eqn:EQ.
  { apply feqb_opt_eq in EQ. subst b2. cbn [fst snd]. apply same; auto.
    - intros v _ _. destruct b1; cbn; auto.
    - intros v _ _. destruct b1; cbn; auto. }
  destruct b1 as [f1|]; [|apply same; cbn; auto].
  destruct b2 as [f2|]; [|apply same; cbn; auto].
  cbn [below_opt] in B1, B2.
  (* the general case *)
  set (a := c_next C).
  set (phi := FOr (FAnd (FAtom t1) (FEq (FAtom a) f1)) (FAnd (FAtom t2) (FEq (FAtom a) f2))).
  set (C2 := assume (mkCtx (S (c_next C)) (c_toks C) (c_invs C)) t phi).
  assert (general :
     ctx_ok C2 /\ c_next C <= c_next C2 /\ below_opt (c_next C2) (Some (FAtom a)) /\
     (exists d', In (t, d') (c_toks C2)) /\
     (forall v, reaches C t v -> v t1 = true ->
       exists v', same_so_far C v v' /\ reaches C2 t v' /\ stands_for (Some (FAtom a)) (Some f1) v') /\
     (forall v, reaches C t v -> v t2 = true ->
       exists v', same_so_far C v v' /\ reaches C2 t v' /\ stands_for (Some (FAtom a)) (Some f2) v') /\
     (forall v, reaches C2 t v -> reaches C t v /\
       ((v t1 = true /\ stands_for (Some (FAtom a)) (Some f1) v) \/
        (v t2 = true /\ stands_for (Some (FAtom a)) (Some f2) v))) /\
     (Some (FAtom a) = None -> Some f1 = None \/ Some f2 = None)).
  { assert (ext : forall v b f, reaches C t v -> below (c_next C) f -> eval v f = b ->
        (f = f1 /\ v t1 = true \/ f = f2 /\ v t2 = true) ->
        exists v', same_so_far C v v' /\ reaches C2 t v' /\ stands_for (Some (FAtom a)) (Some f) v').
    { intros v b f [O T] B E X.
      set (v' := fun x => if Nat.eqb x a then b else v x).
      assert (SM : same_so_far C v v').
      { intros x Lx. unfold v'. destruct (Nat.eqb_spec x a); auto. unfold a in *. lia. }
      assert (EA : v' a = b) by (unfold v'; rewrite Nat.eqb_refl; reflexivity).
      assert (EF : forall g, below (c_next C) g -> eval v' g = eval v g).
      { intros g Bg. symmetry. apply (eval_ext (c_next C)); auto. }
      assert (PHI : eval v' phi = true).
      { unfold phi. cbn [eval]. rewrite EA, (EF f1), (EF f2) by auto.
        rewrite <- (SM t1 L1), <- (SM t2 L2).
        destruct X as [[-> X]|[-> X]]; rewrite X, E, eqb_reflx; cbn; auto using orb_true_r. }
      exists v'. split; [exact SM|]. split.
      - split; [|rewrite <- (SM t L); exact T].
        apply obeys_split. pose proof (obeys_ext C v v' K SM O) as O'.
        apply obeys_split in O'. destruct O' as [O1 O2]. split.
        + unfold C2, assume. cbn [c_toks]. intros p IP. apply in_map_iff in IP.
          destruct IP as [q [<- IQ]]. destruct (Nat.eqb_spec (fst q) t) as [EQt|NE]; cbn [fst snd]; auto.
          cbn [eval]. rewrite PHI, andb_true_r. auto.
        + unfold C2, assume. cbn [c_invs]. auto.
      - cbn. rewrite EA, (EF f B). auto. }
    split; [|split; [|split; [|split; [|split; [|split; [|split]]]]]].
    - destruct K as [K1 K2]. unfold C2, assume. split; cbn [c_toks c_next c_invs].
      + intros p IP. apply in_map_iff in IP. destruct IP as [q [<- IQ]]. destruct (K1 q IQ) as [Q1 Q2].
        assert (below (S (c_next C)) (snd q)) by (eapply below_mono; [|exact Q2]; lia).
        destruct (Nat.eqb (fst q) t); cbn [fst snd]; split; auto.
        cbn. unfold a. repeat split; auto; try lia; eapply below_mono; try eassumption; lia.
      + intros f IF. eapply below_mono; [|apply K2, IF]. lia.
    - cbn. lia.
    - cbn. unfold a. lia.
    - exists (FAnd d phi). unfold C2, assume. cbn [c_toks]. apply in_map_iff. exists (t, d).
      cbn [fst snd]. rewrite Nat.eqb_refl. auto.
    - intros v R T. apply (ext v (eval v f1) f1); auto.
    - intros v R T. apply (ext v (eval v f2) f2); auto.
    - intros v [O T]. apply obeys_split in O. destruct O as [O1 O2].
      unfold C2, assume in O1, O2. cbn [c_toks c_invs] in O1, O2.
      assert (Q : forall q, In q (c_toks C) -> fst q = t -> eval v (snd q) = true /\ eval v phi = true).
      { intros q IQ EQt. specialize (O1 (if Nat.eqb (fst q) t then (fst q, FAnd (snd q) phi) else q)).
        rewrite (proj2 (Nat.eqb_eq (fst q) t) EQt) in O1. cbn [fst snd] in O1. rewrite EQt, T in O1.
        cbn [eval] in O1. apply andb_true_iff. symmetry. apply O1.
        apply in_map_iff. exists q. rewrite (proj2 (Nat.eqb_eq (fst q) t) EQt), EQt. auto. }
      split.
      + split; auto. apply obeys_split. split; auto.
        intros q IQ. destruct (Nat.eq_dec (fst q) t) as [EQt|NE].
        * destruct (Q q IQ EQt) as [-> _]. rewrite EQt. exact T.
        * apply O1. apply in_map_iff. exists q. rewrite (proj2 (Nat.eqb_neq _ _) NE). auto.
      + destruct (Q (t, d) I eq_refl) as [_ P]. unfold phi in P. cbn [eval] in P.
        apply orb_true_iff in P. destruct P as [P|P]; apply andb_true_iff in P; destruct P as [P1 P2];
          apply eqb_prop in P2; [left|right]; split; auto.
    - discriminate. }
  assert (forall g, g = (C2, Some (FAtom a)) -> let C' := fst g in let r := snd g in
     ctx_ok C' /\ c_next C <= c_next C' /\ below_opt (c_next C') r /\ (exists d', In (t, d') (c_toks C')) /\
     (forall v, reaches C t v -> v t1 = true ->
        exists v', same_so_far C v v' /\ reaches C' t v' /\ stands_for r (Some f1) v') /\
     (forall v, reaches C t v -> v t2 = true ->
        exists v', same_so_far C v v' /\ reaches C' t v' /\ stands_for r (Some f2) v') /\
     (forall v, reaches C' t v -> reaches C t v /\
        ((v t1 = true /\ stands_for r (Some f1) v) \/ (v t2 = true /\ stands_for r (Some f2) v))) /\
     (r = None -> Some f1 = None \/ Some f2 = None)) as GEN.
  { intros g ->. exact general. }
  cbn [make_atom].
  assert (RR : forall v i, reaches C t v -> v i = true -> reaches C i v).
  { intros v i [O _] T. split; auto. }
  destruct (proves solve C t1 f1) eqn:P1.
  - destruct (proves solve C t2 f2) eqn:P2.
    + cbn [fst snd]. apply same; cbn; auto; try discriminate.
      * intros v R T. symmetry. apply (proves_sound SO C t1 f1 P1). auto.
      * intros v R T. symmetry. apply (proves_sound SO C t2 f2 P2). auto.
    + apply GEN. reflexivity.
  - destruct (proves solve C t1 (FNot f1) && proves solve C t2 (FNot f2)) eqn:P2.
    + apply andb_true_iff in P2. destruct P2 as [P2 P3].
      cbn [fst snd]. apply same; cbn; auto; try discriminate.
      * intros v R T. pose proof (proves_sound SO C t1 _ P2 v (RR v t1 R T)) as X. cbn in X.
        apply negb_true_iff in X. auto.
      * intros v R T. pose proof (proves_sound SO C t2 _ P3 v (RR v t2 R T)) as X. cbn in X.
        apply negb_true_iff in X. auto.
    + apply GEN. reflexivity.
Qed.

End Solver.
