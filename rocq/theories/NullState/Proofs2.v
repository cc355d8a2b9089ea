From Coq Require Import List Bool Arith Lia.
From Verif.NullState Require Import Model Spec Proofs.
Import ListNotations.

Lemma stands_for_ext : forall n r b v w, below_opt n r -> below_opt n b ->
  (forall a, a < n -> v a = w a) -> stands_for r b v -> stands_for r b w.
Proof.
  intros n [f|] [g|] v w B1 B2 E S; cbn in *; auto.
  rewrite <- (eval_ext n f v w B1 E), <- (eval_ext n g v w B2 E). exact S.
Qed.

(** Joining environments. *)
Lemma join_envs_ok : forall C t1 t2, ctx_ok C -> t1 < c_next C -> t2 < c_next C ->
  let Cj := fst (join_envs C t1 t2) in let t := snd (join_envs C t1 t2) in
  ctx_ok Cj /\ c_next Cj = S (c_next C) /\ t = c_next C /\ In (t, FOr (FAtom t1) (FAtom t2)) (c_toks Cj) /\
  (forall v, obeys C v -> v t1 = true \/ v t2 = true ->
     exists v', same_so_far C v v' /\ reaches Cj t v') /\
  (forall v, reaches Cj t v -> obeys C v /\ (v t1 = true \/ v t2 = true)).
Proof.
  intros C t1 t2 [K1 K2] L1 L2. unfold join_envs. cbn [fst snd].
  split; [|split; [reflexivity|split; [reflexivity|split; [|split]]]].
  - split; cbn [c_toks c_next c_invs].
    + intros p I. apply in_app_or in I. destruct I as [I|[<-|[]]].
      * destruct (K1 p I) as [Q1 Q2]. split; [lia|]. eapply below_mono; [|exact Q2]. lia.
      * cbn. repeat split; lia.
    + intros f I. eapply below_mono; [|apply K2, I]. lia.
  - cbn [c_toks]. apply in_or_app. right. left. reflexivity.
  - intros v O T.
    set (v' := fun x => if Nat.eqb x (c_next C) then true else v x).
    assert (SM : same_so_far C v v').
    { intros x Lx. unfold v'. destruct (Nat.eqb_spec x (c_next C)); auto. lia. }
    assert (ET : v' (c_next C) = true) by (unfold v'; rewrite Nat.eqb_refl; reflexivity).
    exists v'. split; [exact SM|]. split; [|exact ET].
    pose proof (obeys_ext C v v' (conj K1 K2) SM O) as O'.
    apply obeys_split in O'. destruct O' as [O1 O2]. apply obeys_split. cbn [c_toks c_invs]. split; auto.
    intros p I. apply in_app_or in I. destruct I as [I|[<-|[]]]; auto.
    cbn [fst snd eval]. rewrite ET, <- (SM t1 L1), <- (SM t2 L2). symmetry. apply orb_true_iff. exact T.
  - intros v [O T]. apply obeys_split in O. cbn [c_toks c_invs] in O. destruct O as [O1 O2]. split.
    + apply obeys_split. split; auto. intros p I. apply O1. apply in_or_app. auto.
    + assert (X := O1 (c_next C, FOr (FAtom t1) (FAtom t2))). cbn [fst snd eval] in X.
      rewrite T in X. apply orb_true_iff. symmetry. apply X. apply in_or_app. right. left. reflexivity.
Qed.

Section Solver.
Variable solve : solver.
Hypothesis SO : sound solve.

Lemma joined_spec : forall C s1 t1 s2 t2 C' t s,
  ctx_ok C -> t1 < c_next C -> t2 < c_next C -> state_ok C s1 -> state_ok C s2 ->
  joined solve C s1 t1 s2 t2 = (C', t, s) ->
  ctx_ok C' /\ state_ok C' s /\ c_next C <= c_next C' /\
  (forall v, reaches C t1 v -> exists v', same_so_far C v v' /\ reaches C' t v' /\ state_for s s1 v') /\
  (forall v, reaches C t2 v -> exists v', same_so_far C v v' /\ reaches C' t v' /\ state_for s s2 v') /\
  (forall v, reaches C' t v -> obeys C v /\ (v t1 = true \/ v t2 = true) /\
     ((v t1 = true /\ stands_for (from_nullable s) (from_nullable s1) v) \/
      (v t2 = true /\ stands_for (from_nullable s) (from_nullable s2) v)) /\
     ((v t1 = true /\ stands_for (is_null s) (is_null s1) v) \/
      (v t2 = true /\ stands_for (is_null s) (is_null s2) v))) /\
  (from_nullable s = None -> from_nullable s1 = None \/ from_nullable s2 = None) /\
  (is_null s = None -> is_null s1 = None \/ is_null s2 = None).
Proof.
  intros C s1 t1 s2 t2 C' t s K L1 L2 [B1 N1] [B2 N2] E.
  pose proof (join_envs_ok C t1 t2 K L1 L2) as J.
  unfold joined in E.
  destruct (join_envs C t1 t2) as [Cj tj] eqn:EJ. cbn [fst snd] in J.
  destruct J as [KJ [NJ [ETJ [IJ [J1 J2]]]]].
  unfold join in E.
  assert (LE : c_next C <= c_next Cj) by lia.
  assert (M1 := merge_spec solve SO Cj (from_nullable s1) t1 (from_nullable s2) t2 tj _ KJ
                  (below_opt_mono _ _ _ LE B1) (below_opt_mono _ _ _ LE B2)
                  ltac:(lia) ltac:(lia) ltac:(lia) IJ (fun v R => proj2 (J2 v R))).
  destruct (merge_formulas solve Cj (from_nullable s1) t1 (from_nullable s2) t2 tj) as [C1 fn] eqn:E1.
  cbn [fst snd] in M1.
  destruct M1 as [K1 [LE1 [BF [[d1 I1] [A1 [A2 [A3 A4]]]]]]].
  assert (LE1' : c_next C <= c_next C1) by lia.
  assert (OR1 : forall v, reaches C1 tj v -> v t1 = true \/ v t2 = true).
  { intros v R. apply (J2 v). apply A3, R. }
  assert (M2 := merge_spec solve SO C1 (is_null s1) t1 (is_null s2) t2 tj _ K1
                  (below_opt_mono _ _ _ LE1' N1) (below_opt_mono _ _ _ LE1' N2)
                  ltac:(lia) ltac:(lia) ltac:(lia) I1 OR1).
  destruct (merge_formulas solve C1 (is_null s1) t1 (is_null s2) t2 tj) as [C2 nl] eqn:E2.
  cbn [fst snd] in M2.
  destruct M2 as [K2 [LE2 [BN [_ [G1 [G2 [G3 G4]]]]]]].
  injection E as -> -> <-. cbn [from_nullable is_null].
  split; [exact K2|]. split; [split; [exact (below_opt_mono _ _ _ LE2 BF)|exact BN]|].
  split; [lia|].
  assert (step : forall v i si, reaches C i v -> i < c_next C ->
     (i = t1 /\ si = s1 \/ i = t2 /\ si = s2) ->
     exists v', same_so_far C v v' /\ reaches C' t v' /\ state_for (mkS fn nl) si v').
  { intros v i si [O T] Li X.
    destruct (J1 v O) as [vj [SJ RJ]].
    { destruct X as [[-> _]|[-> _]]; auto. }
    assert (Tj : vj i = true) by (rewrite <- (SJ i Li); exact T).
    assert (exists v1, same_so_far Cj vj v1 /\ reaches C1 t v1 /\ stands_for fn (from_nullable si) v1) as [v1 [S1 [R1 F1]]].
    { destruct X as [[-> ->]|[-> ->]]; [apply A1|apply A2]; auto. }
    assert (Ti : v1 i = true) by (rewrite <- (S1 i ltac:(lia)); exact Tj).
    assert (exists v2, same_so_far C1 v1 v2 /\ reaches C' t v2 /\ stands_for nl (is_null si) v2) as [v2 [S2 [R2 F2]]].
    { destruct X as [[-> ->]|[-> ->]]; [apply G1|apply G2]; auto. }
    exists v2. split; [|split; [exact R2|split; [|exact F2]]].
    - intros a La. rewrite (SJ a La). rewrite (S1 a ltac:(lia)). apply S2. lia.
    - cbn [from_nullable]. apply (stands_for_ext (c_next C1) fn (from_nullable si) v1); auto.
      destruct X as [[-> ->]|[-> ->]]; eapply below_opt_mono; eauto. }
  split; [intros v R; apply (step v t1 s1 R L1); auto|].
  split; [intros v R; apply (step v t2 s2 R L2); auto|].
  split; [|split; auto].
  intros v R. destruct (G3 v R) as [R1 D2]. destruct (A3 v R1) as [Rj D1]. destruct (J2 v Rj) as [O T]. auto.
Qed.

End Solver.
