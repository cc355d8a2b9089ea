(** Exact footprints and freshness. *)
From Coq Require Import List Arith Bool Lia Permutation.
From Verif Require Import Ctor.Model Ctor.Spec Ctor.Proofs Ctor.Proofs2 Ctor.Proofs3.
Import ListNotations.
Local Open Scope nat_scope.
Local Open Scope list_scope.

(** A step whose footprint satisfies [L]: outside it memory is unchanged, and
    whatever is new in memory is a new object. *)
Record evolves (L : list nat -> Prop) (s s' : st) : Prop := {
  ev_next : next s <= next s';
  ev_mem : forall q, ~ L q -> mem s' q = mem s q;
  ev_new : forall q o, mem s' q = Some o -> mem s q = Some o \/ next s <= o
}.

Lemma ev_refl L s : evolves L s s.
Proof. constructor; auto. Qed.
Lemma ev_trans L s1 s2 s3 : evolves L s1 s2 -> evolves L s2 s3 -> evolves L s1 s3.
Proof.
  intros [A B C] [A' B' C']. constructor; [lia| |].
  - intros q N. rewrite B' by auto. now apply B.
  - intros q o E. destruct (C' q o E) as [E'|]; [|right; lia]. auto.
Qed.
Lemma ev_weaken (L L' : list nat -> Prop) s s' : (forall q, L q -> L' q) -> evolves L s s' -> evolves L' s s'.
Proof. intros W [A B C]. constructor; auto. Qed.

Lemma ev_init t : forall p s, evolves (leaf_of t p) s (init_val t p s).
Proof.
  induction t as [|ts IH] using ty_ind2; intros p s.
  - cbn [init_val]. unfold init_leaf. constructor; cbn [mem next].
    + lia.
    + intros q N. apply upd_other. intros ->. apply N. constructor.
    + intros q o. destruct (list_eq_dec Nat.eq_dec p q) as [<-|N].
      * rewrite upd_same. intros [= <-]. auto.
      * rewrite upd_other; auto.
  - rewrite init_val_struct.
    assert (G : forall ts', Forall (fun t => forall p s, evolves (leaf_of t p) s (init_val t p s)) ts' ->
      forall k s, (forall i t, nth_error ts' i = Some t -> nth_error ts (k + i) = Some t) ->
      evolves (leaf_of (TStruct ts) p) s (init_fields p k ts' s)).
    { intros ts' F. clear s. induction F as [|t ts' Ht _ IH']; intros k s HN; cbn [init_fields_with]; [apply ev_refl|].
      eapply ev_trans.
      - eapply ev_weaken; [|apply Ht]. intros q L. eapply leaf_field; [|exact L].
        specialize (HN 0 t eq_refl). rewrite Nat.add_0_r in HN. exact HN.
      - apply IH'. intros i t' E. replace (S k + i) with (k + S i) by (cbn; now rewrite Nat.add_succ_r). apply (HN (S i)). exact E. }
    apply G; auto.
Qed.

Section D.
Variable dp : nat -> bool.

Lemma ev_drop t : forall unw p s, evolves (leaf_of t p) s (snd (drop_val dp unw t p s)).
Proof.
  induction t as [|ts IH] using ty_ind2; intros unw p s.
  - cbn [drop_val]. unfold drop_leaf. destruct (mem s p) as [o|] eqn:E.
    + assert (G : evolves (leaf_of TLeaf p) s (St (upd (mem s) p None) (next s) (log s ++ [EDrop p o]))).
      { constructor; cbn [mem next]; [lia| |].
        - intros q N. apply upd_other. intros ->. apply N. constructor.
        - intros q o'. destruct (list_eq_dec Nat.eq_dec p q) as [<-|N].
          + rewrite upd_same. discriminate.
          + rewrite upd_other; auto. }
      destruct (dp o); exact G.
    + constructor; cbn; auto.
  - rewrite drop_val_struct.
    assert (G : forall ts', Forall (fun t => forall unw p s, evolves (leaf_of t p) s (snd (drop_val dp unw t p s))) ts' ->
      forall k pk s, (forall i t, nth_error ts' i = Some t -> nth_error ts (k + i) = Some t) ->
      evolves (leaf_of (TStruct ts) p) s (snd (drop_fields dp p unw k ts' pk s))).
    { intros ts' F. clear s. induction F as [|t ts' Ht _ IH']; intros k pk s HN; cbn [drop_fields_with]; [apply ev_refl|].
      assert (E1 : evolves (leaf_of (TStruct ts) p) s (snd (drop_val dp (unw || pk) t (field p k) s))).
      { eapply ev_weaken; [|apply Ht]. intros q L. eapply leaf_field; [|exact L].
        specialize (HN 0 t eq_refl). rewrite Nat.add_0_r in HN. exact HN. }
      assert (HN' : forall i t, nth_error ts' i = Some t -> nth_error ts (S k + i) = Some t).
      { intros i t' E. replace (S k + i) with (k + S i) by (cbn; now rewrite Nat.add_succ_r). apply (HN (S i)). exact E. }
      destruct (drop_val dp (unw || pk) t (field p k) s) as [d s1]. cbn [snd] in E1.
      destruct d; [| |exact E1]; (eapply ev_trans; [exact E1|]; now apply IH'). }
    apply G; auto.
Qed.

Lemma ev_unwind (L : list nat -> Prop) : forall gs s,
  (forall t p, In (t, p) gs -> forall q, leaf_of t p q -> L q) ->
  evolves L s (snd (unwind dp gs s)).
Proof.
  induction gs as [|[t p] gs IH]; intros s H; cbn [unwind]; [apply ev_refl|].
  assert (E1 : evolves L s (snd (drop_val dp true t p s))).
  { eapply ev_weaken; [|apply ev_drop]. apply H. now left. }
  assert (H' : forall t p, In (t, p) gs -> forall q, leaf_of t p q -> L q) by (intros; eapply H; eauto; now right).
  destruct (drop_val dp true t p s) as [d s1]. cbn [snd] in E1.
  destruct d; [| |exact E1]; (eapply ev_trans; [exact E1|]; now apply IH).
Qed.

Lemma ev_run c : forall fe p s, wt c fe -> evolves (leaf_of (out c) p) s (snd (run dp c p s)).
Proof.
  induction c using ctor_ind2; intros fe p s W; inversion W; subst; cbn [run out].
  - apply ev_init.
  - destruct b; [apply ev_refl|apply ev_init].
  - apply ev_refl.
  - apply ev_refl.
  - eapply IHc; eauto.
  - match goal with K : wt c _ |- _ => specialize (IHc _ p s K) end.
    destruct (run dp c p s) as [[] s1]; cbn [snd] in *; auto. destruct (f e); auto.
  - match goal with K : wt c _ |- _ => specialize (IHc _ p s K) end.
    destruct (run dp c p s) as [[] s1]; cbn [snd] in *; auto. destruct f; auto.
  - match goal with K : wt c _ |- _ => specialize (IHc _ p s K) end.
    destruct (run dp c p s) as [[] s1]; cbn [snd] in *; auto. destruct (f e); auto.
  - match goal with K : wt c _ |- _ => specialize (IHc _ p s K) end.
    destruct (run dp c p s) as [[] s1]; cbn [snd] in *; auto. destruct (f e) as [d|] eqn:Ef; auto.
    match goal with K : forall e o, f e = Some o -> wt o _ /\ _ |- _ => destruct (K _ _ Ef) as [Wd Od] end.
    eapply ev_trans; [exact IHc|]. rewrite <- Od. eapply H; eauto.
  - match goal with K : wt c _ |- _ => specialize (IHc _ p s K) end.
    destruct (run dp c p s) as [[] s1]; cbn [snd] in *; auto.
  - match goal with K : wt c _ |- _ => specialize (IHc _ p s K) end.
    destruct (run dp c p s) as [[] s1]; cbn [snd] in *; auto.
  - match goal with K : wt c1 _ |- _ => specialize (IHc1 _ p s K) end.
    destruct (run dp c1 p s) as [[] s1]; cbn [snd] in *; auto.
    match goal with K : out c2 = out c1 |- _ => rewrite <- K in * end.
    eapply ev_trans; [exact IHc1|]. eapply IHc2; eauto.
  - match goal with K : forall i c, In (i, c) fs -> wt c false /\ _ |- _ => rename K into HW end.
    change (evolves (leaf_of (TStruct ts) p) s (snd (run_fields dp p fs [] s))).
    assert (G : forall fs', Forall (fun x => forall fe p s, wt (snd x) fe ->
        evolves (leaf_of (out (snd x)) p) s (snd (run dp (snd x) p s))) fs' ->
      forall gs s, (forall x, In x fs' -> In x fs) ->
      (forall t p0, In (t, p0) gs -> forall q, leaf_of t p0 q -> leaf_of (TStruct ts) p q) ->
      evolves (leaf_of (TStruct ts) p) s (snd (run_fields dp p fs' gs s))).
    { intros fs' F. clear s. induction F as [|[i c] fs' Hc _ IH]; intros gs s HI HG; cbn [run_fields_with]; [apply ev_refl|].
      destruct (HW i c (HI _ (or_introl eq_refl))) as [Wc Oc].
      assert (LF : forall q, leaf_of (out c) (field p i) q -> leaf_of (TStruct ts) p q).
      { intros q L. eapply leaf_field; eauto. }
      assert (E1 := Hc false (field p i) s Wc). cbn [snd] in E1. apply (ev_weaken _ _ _ _ LF) in E1.
      destruct (run dp c (field p i) s) as [[] s1]; cbn [snd] in E1; auto.
      - eapply ev_trans; [exact E1|]. apply IH.
        + intros x I. apply HI. now right.
        + intros t p0 I. apply in_app_iff in I. destruct I as [I|[I|[]]]; [eauto|].
          injection I as <- <-. exact LF.
      - eapply ev_trans; [exact E1|]. now apply ev_unwind.
      - eapply ev_trans; [exact E1|]. now apply ev_unwind. }
    apply G; auto. intros t p0 [].
Qed.
End D.

(** Objects constructed by a step whose footprint ends up vacant are dead. *)
Lemma vacant_dead t p s s' :
  sound s -> sound s' -> vacant t p s' -> evolves (leaf_of t p) s s' ->
  forall o, next s <= o -> o < next s' ->
    exists q, history o (log s') = [EInit q o; EDrop q o].
Proof.
  intros SD SD' V [A B C] o L L'. destruct (so_old _ SD' o L') as [q HH HM | q HH HM]; [|eauto].
  exfalso. assert (K : mem s' q = Some o) by (now apply HM).
  destruct (in_dec (list_eq_dec Nat.eq_dec) q (leaves t p)) as [I|N].
  - apply leaves_of in I. rewrite (V q I) in K. discriminate.
  - rewrite leaves_of in N. rewrite (B q N) in K.
    destruct (so_new _ SD o L) as [_ K']. now apply (K' q).
Qed.

(** The log only grows. *)
Lemma init_log_grows t : forall p s, exists l, log (init_val t p s) = log s ++ l.
Proof.
  induction t as [|ts IH] using ty_ind2; intros p s.
  - cbn [init_val]. unfold init_leaf. cbn [log]. destruct (mem s p) as [o|].
    + exists ([EClobber p o] ++ [EInit p (next s)]). now rewrite <- !app_assoc.
    + eexists. reflexivity.
  - rewrite init_val_struct. generalize 0. revert s. induction IH as [|t ts Ht _ IH]; intros s k; cbn [init_fields_with].
    + exists []. now rewrite app_nil_r.
    + destruct (Ht (field p k) s) as [l1 L1]. destruct (IH (init_val t (field p k) s) (S k)) as [l2 L2].
      exists (l1 ++ l2). rewrite L2, L1. now rewrite app_assoc.
Qed.

Section G.
Variable dp : nat -> bool.
Definition grows (s s' : st) : Prop := exists l, log s' = log s ++ l.
Lemma grows_refl s : grows s s.
Proof. exists []. now rewrite app_nil_r. Qed.
Lemma grows_trans s1 s2 s3 : grows s1 s2 -> grows s2 s3 -> grows s1 s3.
Proof. intros [l1 E1] [l2 E2]. exists (l1 ++ l2). rewrite E2, E1. now rewrite app_assoc. Qed.

Lemma drop_grows t : forall unw p s, grows s (snd (drop_val dp unw t p s)).
Proof.
  induction t as [|ts IH] using ty_ind2; intros unw p s.
  - cbn [drop_val]. unfold drop_leaf. destruct (mem s p) as [o|]; [destruct (dp o)|]; eexists; reflexivity.
  - rewrite drop_val_struct. generalize false at 1. generalize 0. revert s.
    induction IH as [|t ts Ht _ IH]; intros s k pk; cbn [drop_fields_with]; [apply grows_refl|].
    specialize (Ht (unw || pk) (field p k) s). destruct (drop_val dp (unw || pk) t (field p k) s) as [d s1].
    cbn [snd] in Ht. destruct d; [| |exact Ht]; (eapply grows_trans; [exact Ht|apply IH]).
Qed.

Lemma unwind_grows : forall gs s, grows s (snd (unwind dp gs s)).
Proof.
  induction gs as [|[t p] gs IH]; intros s; cbn [unwind]; [apply grows_refl|].
  assert (Ht := drop_grows t true p s). destruct (drop_val dp true t p s) as [d s1].
  cbn [snd] in Ht. destruct d; [| |exact Ht]; (eapply grows_trans; [exact Ht|apply IH]).
Qed.

Lemma run_log_grows c : forall p s, grows s (snd (run dp c p s)).
Proof.
  induction c using ctor_ind2; intros p s; cbn [run];
    try (specialize (IHc p s); destruct (run dp c p s) as [[] s1]; cbn [snd] in *; auto).
  - apply init_log_grows.
  - destruct b; [apply grows_refl|apply init_log_grows].
  - apply grows_refl.
  - apply grows_refl.
  - destruct (f e); auto.
  - destruct f; auto.
  - destruct (f e); auto.
  - destruct (f e) eqn:Ef; auto. eapply grows_trans; [exact IHc|]. eapply H; eauto.
  - specialize (IHc1 p s). destruct (run dp c1 p s) as [[] s1]; cbn [snd] in *; auto.
    eapply grows_trans; [exact IHc1|]. apply IHc2.
  - change (grows s (snd (run_fields dp p fs [] s))). generalize (@nil (ty * list nat)). revert s.
    induction H as [|[i c] fs Hc _ IH]; intros s gs; cbn [run_fields_with]; [apply grows_refl|].
    specialize (Hc (field p i) s). cbn [snd] in Hc. destruct (run dp c (field p i) s) as [[] s1]; cbn [snd] in Hc; auto.
    + eapply grows_trans; [exact Hc|apply IH].
    + eapply grows_trans; [exact Hc|apply unwind_grows].
    + eapply grows_trans; [exact Hc|apply unwind_grows].
Qed.
End G.
