(** Supporting lemmas: places, writing and dropping whole values. *)
From Coq Require Import List Arith Bool Lia Permutation.
From Verif Require Import Ctor.Model Ctor.Spec.
Import ListNotations.
Local Open Scope nat_scope.
Local Open Scope list_scope.

Section TyInd.
  Variable P : ty -> Prop.
  Hypothesis HL : P TLeaf.
  Hypothesis HS : forall ts, Forall P ts -> P (TStruct ts).
  Fixpoint ty_ind2 (t : ty) : P t :=
    match t with
    | TLeaf => HL
    | TStruct ts => HS ts ((fix go (ts : list ty) : Forall P ts :=
        match ts with [] => Forall_nil _ | t :: ts => Forall_cons t (ty_ind2 t) (go ts) end) ts)
    end.
End TyInd.

Section CtorInd.
  Variable P : ctor -> Prop.
  Hypothesis H1 : forall t, P (CMove t).
  Hypothesis H2 : forall t b, P (CFn t b).
  Hypothesis H3 : forall t, P (CUnreachable t).
  Hypothesis H4 : forall t e, P (CError t e).
  Hypothesis H5 : forall c, P c -> P (CMakeFallible c).
  Hypothesis H6 : forall c f, P c -> P (CErrInto c f).
  Hypothesis H7 : forall c f, P c -> P (CThen c f).
  Hypothesis H8 : forall c f, P c -> P (CMapErr c f).
  Hypothesis H9 : forall c f, P c -> (forall e o, f e = Some o -> P o) -> P (COrElse c f).
  Hypothesis H10 : forall c, P c -> P (CExpect c).
  Hypothesis H11 : forall c, P c -> P (CUnwrap c).
  Hypothesis H12 : forall c d, P c -> P d -> P (CUnwrapOrDefault c d).
  Hypothesis H13 : forall ts fs, Forall (fun x => P (snd x)) fs -> P (CStruct ts fs).
  Fixpoint ctor_ind2 (c : ctor) : P c :=
    match c with
    | CMove t => H1 t | CFn t b => H2 t b | CUnreachable t => H3 t | CError t e => H4 t e
    | CMakeFallible c => H5 c (ctor_ind2 c)
    | CErrInto c f => H6 c f (ctor_ind2 c)
    | CThen c f => H7 c f (ctor_ind2 c)
    | CMapErr c f => H8 c f (ctor_ind2 c)
    | COrElse c f => H9 c f (ctor_ind2 c)
        (fun e => match f e as x return forall o, x = Some o -> P o with
                  | Some o' => fun o E => match E in _ = y return
                        match y with Some o => P o | None => True end with
                        eq_refl => ctor_ind2 o' end
                  | None => fun o E => match E in _ = y return
                        match y with Some o => P o | None => True end with
                        eq_refl => Logic.I end
                  end)
    | CExpect c => H10 c (ctor_ind2 c)
    | CUnwrap c => H11 c (ctor_ind2 c)
    | CUnwrapOrDefault c d => H12 c d (ctor_ind2 c) (ctor_ind2 d)
    | CStruct ts fs => H13 ts fs
        ((fix go (fs : list (nat * ctor)) : Forall (fun x => P (snd x)) fs :=
          match fs with
          | [] => Forall_nil _
          | x :: fs => Forall_cons x (ctor_ind2 (snd x)) (go fs)
          end) fs)
    end.
End CtorInd.

(** ** Places *)
Definition under (p q : list nat) : Prop := exists r, q = p ++ r.

Lemma under_refl p : under p p.
Proof. exists []. now rewrite app_nil_r. Qed.

Lemma under_field p i q : under (field p i) q -> under p q.
Proof. intros [r ->]. exists (i :: r). unfold field. now rewrite <- app_assoc. Qed.

Lemma under_field_inj p i j q : under (field p i) q -> under (field p j) q -> i = j.
Proof.
  intros [r ->] [r' E]. unfold field in E. rewrite <- !app_assoc in E.
  apply app_inv_head in E. cbn in E. congruence.
Qed.

Lemma leaf_under t p q : leaf_of t p q -> under p q.
Proof. induction 1; [apply under_refl | eapply under_field; eauto]. Qed.

Lemma place_eqb_spec p q : reflect (p = q) (place_eqb p q).
Proof. unfold place_eqb. destruct (list_eq_dec Nat.eq_dec p q); now constructor. Qed.

Lemma upd_same m p v : upd m p v p = v.
Proof. unfold upd. destruct (place_eqb_spec p p); congruence. Qed.
Lemma upd_other m p v q : p <> q -> upd m p v q = m q.
Proof. unfold upd. destruct (place_eqb_spec p q); congruence. Qed.

Lemma leaf_struct_inv ts p q : leaf_of (TStruct ts) p q ->
  exists i t, nth_error ts i = Some t /\ leaf_of t (field p i) q.
Proof. inversion 1; subst; eauto. Qed.

(** ** One object at a time *)
Lemma history_app o l1 l2 : history o (l1 ++ l2) = history o l1 ++ history o l2.
Proof. apply filter_app. Qed.

Lemma sound_init_leaf p s : sound s -> mem s p = None -> sound (init_leaf p s).
Proof.
  intros [HO HN HD] E. unfold init_leaf. rewrite E. constructor; cbn [mem next log].
  - intros o L. destruct (Nat.eq_dec o (next s)) as [->|N].
    + destruct (HN (next s) (le_n _)) as [HH HM].
      apply (alive _ _ p); cbn [log mem].
      * rewrite history_app, HH. cbn. now rewrite Nat.eqb_refl.
      * intros q. destruct (list_eq_dec Nat.eq_dec p q) as [<-|N'].
        -- rewrite upd_same. tauto.
        -- rewrite upd_other by auto. split; [intros K; now destruct (HM q)|congruence].
    + destruct (HO o ltac:(lia)) as [q HH HM | q HH HM].
      * apply (alive _ _ q); cbn [log mem].
        -- rewrite history_app, HH. cbn. destruct (Nat.eqb_spec o (next s)); [lia|]. reflexivity.
        -- intros q'. destruct (list_eq_dec Nat.eq_dec p q') as [<-|N'].
           ++ rewrite upd_same. split; [congruence|]. intros ->.
              assert (K : mem s q = Some o) by (now apply HM). congruence.
           ++ rewrite upd_other by auto. apply HM.
      * apply (dead _ _ q); cbn [log mem].
        -- rewrite history_app, HH. cbn. destruct (Nat.eqb_spec o (next s)); [lia|]. reflexivity.
        -- intros q'. destruct (list_eq_dec Nat.eq_dec p q') as [<-|N'].
           ++ rewrite upd_same. congruence.
           ++ rewrite upd_other; auto.
  - intros o L. destruct (HN o ltac:(lia)) as [HH HM]. split.
    + rewrite history_app, HH. cbn. destruct (Nat.eqb_spec o (next s)); [lia|]. reflexivity.
    + intros q. destruct (list_eq_dec Nat.eq_dec p q) as [<-|N'].
      * rewrite upd_same. intros [= E']. lia.
      * rewrite upd_other; auto.
  - intros q I. apply in_app_iff in I. destruct I as [I|[I|[]]]; [eapply HD; eauto|discriminate].
Qed.

Lemma sound_live_lt s p o : sound s -> mem s p = Some o -> o < next s.
Proof.
  intros [HO HN HD] E. destruct (Nat.lt_ge_cases o (next s)); auto.
  destruct (HN o H) as [_ K]. now destruct (K p).
Qed.

Lemma sound_drop_leaf p o s :
  sound s -> mem s p = Some o ->
  sound (St (upd (mem s) p None) (next s) (log s ++ [EDrop p o])).
Proof.
  intros SD E. assert (Lo := sound_live_lt _ _ _ SD E). destruct SD as [HO HN HD].
  constructor; cbn [mem next log].
  - intros o' L. destruct (HO o' L) as [q HH HM | q HH HM].
    + destruct (Nat.eq_dec o' o) as [->|N].
      * assert (EQ : p = q) by (now apply HM). subst q.
        apply (dead _ _ p); cbn [log mem].
        -- rewrite history_app, HH. cbn. now rewrite Nat.eqb_refl.
        -- intros q' K. destruct (list_eq_dec Nat.eq_dec p q') as [<-|N'].
           ++ rewrite upd_same in K. discriminate.
           ++ rewrite upd_other in K by auto. apply HM in K. congruence.
      * apply (alive _ _ q); cbn [log mem].
        -- rewrite history_app, HH. cbn. destruct (Nat.eqb_spec o' o); [lia|]. reflexivity.
        -- intros q'. destruct (list_eq_dec Nat.eq_dec p q') as [<-|N'].
           ++ rewrite upd_same. split; [congruence|]. intros ->.
              assert (K : mem s q = Some o') by (now apply HM). congruence.
           ++ rewrite upd_other by auto. apply HM.
    + assert (N : o' <> o) by (intros ->; now destruct (HM p)).
      apply (dead _ _ q); cbn [log mem].
      * rewrite history_app, HH. cbn. destruct (Nat.eqb_spec o' o); [lia|]. reflexivity.
      * intros q'. destruct (list_eq_dec Nat.eq_dec p q') as [<-|N'].
        -- rewrite upd_same. congruence.
        -- rewrite upd_other; auto.
  - intros o' L. destruct (HN o' L) as [HH HM]. split.
    + rewrite history_app, HH. cbn. destruct (Nat.eqb_spec o' o); [lia|]. reflexivity.
    + intros q. destruct (list_eq_dec Nat.eq_dec p q) as [<-|N'].
      * rewrite upd_same. congruence.
      * rewrite upd_other; auto.
  - intros q I. apply in_app_iff in I. destruct I as [I|[I|[]]]; [eapply HD; eauto|discriminate].
Qed.

(** ** Whole values *)
Definition frame (p : list nat) (s s' : st) : Prop :=
  forall q, ~ under p q -> mem s' q = mem s q.

Lemma frame_refl p s : frame p s s.
Proof. now intros q _. Qed.
Lemma frame_trans p s1 s2 s3 : frame p s1 s2 -> frame p s2 s3 -> frame p s1 s3.
Proof. intros A B q N. rewrite (B q N). now apply A. Qed.
Lemma frame_field p i s s' : frame (field p i) s s' -> frame p s s'.
Proof. intros A q N. apply A. intros U. apply N. eapply under_field; eauto. Qed.

Lemma vacant_frame_other t p i j s s' :
  i <> j -> frame (field p i) s s' -> vacant t (field p j) s -> vacant t (field p j) s'.
Proof.
  intros N F V q L. rewrite F; auto. intros U. apply N.
  eapply under_field_inj; eauto. eapply leaf_under; eauto.
Qed.
Lemma init_frame_other t p i j s s' :
  i <> j -> frame (field p i) s s' -> initialized t (field p j) s -> initialized t (field p j) s'.
Proof.
  intros N F V q L. rewrite F; auto. intros U. apply N.
  eapply under_field_inj; eauto. eapply leaf_under; eauto.
Qed.

Notation init_fields := (init_fields_with init_val).
Lemma init_val_struct ts p s : init_val (TStruct ts) p s = init_fields p 0 ts s.
Proof. reflexivity. Qed.

(** Fields [k .. k + length ts - 1]. *)
Definition each (P : ty -> list nat -> st -> Prop) (p : list nat) (k : nat) (ts : list ty) (s : st) :=
  forall i t, nth_error ts i = Some t -> P t (field p (k + i)) s.

Lemma vacant_struct ts p s : vacant (TStruct ts) p s <-> each vacant p 0 ts s.
Proof.
  split.
  - intros V i t E q L. apply V. eapply leaf_field; eauto.
  - intros V q L. apply leaf_struct_inv in L. destruct L as (i & t & E & L). apply (V i t E q L).
Qed.
Lemma initialized_struct ts p s : initialized (TStruct ts) p s <-> each initialized p 0 ts s.
Proof.
  split.
  - intros V i t E q L. apply V. eapply leaf_field; eauto.
  - intros V q L. apply leaf_struct_inv in L. destruct L as (i & t & E & L). apply (V i t E q L).
Qed.

Lemma each_tail (P : ty -> list nat -> st -> Prop) p k t ts s : each P p k (t :: ts) s -> each P p (S k) ts s.
Proof. intros H i t' E. replace (S k + i) with (k + S i) by lia. now apply H. Qed.
Lemma each_head (P : ty -> list nat -> st -> Prop) p k t ts s : each P p k (t :: ts) s -> P t (field p k) s.
Proof. intros H. specialize (H 0 t eq_refl). now rewrite Nat.add_0_r in H. Qed.
Lemma each_cons (P : ty -> list nat -> st -> Prop) p k t ts s : P t (field p k) s -> each P p (S k) ts s -> each P p k (t :: ts) s.
Proof.
  intros A B i t' E. destruct i; cbn in E.
  - injection E as <-. now rewrite Nat.add_0_r.
  - replace (k + S i) with (S k + i) by lia. now apply B.
Qed.

Lemma init_val_ok t : forall p s,
  frame p s (init_val t p s) /\ initialized t p (init_val t p s) /\
  (sound s -> vacant t p s -> sound (init_val t p s)).
Proof.
  induction t as [|ts IH] using ty_ind2; intros p s.
  - cbn [init_val]. split; [|split].
    + intros q N. unfold init_leaf. cbn [mem]. apply upd_other. intros ->. apply N, under_refl.
    + intros q L. inversion L; subst. unfold init_leaf. cbn [mem]. rewrite upd_same. eauto.
    + intros SD V. apply sound_init_leaf; auto. apply V. constructor.
  - rewrite init_val_struct.
    assert (G : forall ts, Forall (fun t => forall p s,
        frame p s (init_val t p s) /\ initialized t p (init_val t p s) /\
        (sound s -> vacant t p s -> sound (init_val t p s))) ts -> forall k s,
      (forall q, (forall i, k <= i -> ~ under (field p i) q) -> mem (init_fields p k ts s) q = mem s q) /\
      each initialized p k ts (init_fields p k ts s) /\
      (sound s -> each vacant p k ts s -> sound (init_fields p k ts s))).
    { clear ts IH s. intros ts F. induction F as [|t ts Ht _ IH]; intros k s; cbn [init_fields_with].
      - split; [auto|split; [|auto]]. intros i t E. destruct i; discriminate.
      - destruct (Ht (field p k) s) as (A & B & C).
        destruct (IH (S k) (init_val t (field p k) s)) as (A' & B' & C'). split; [|split].
        + intros q N. rewrite A'; [|intros i L; apply N; lia]. apply A. apply N. lia.
        + apply each_cons; auto. intros q L. rewrite A'.
          * now apply B.
          * intros i L' U. assert (i = k); [|lia].
            eapply under_field_inj; eauto. eapply leaf_under; eauto.
        + intros SD V. apply C'; [apply C; auto; eapply each_head; eauto|].
          intros i t' E. apply vacant_frame_other with (i := k) (s := s); auto; [lia|].
          apply (each_tail _ _ _ _ _ _ V i t' E). }
    destruct (G ts IH 0 s) as (A & B & C). split; [|split].
    + intros q N. apply A. intros i _ U. apply N. eapply under_field; eauto.
    + now apply initialized_struct.
    + intros SD V. apply C; auto. now apply vacant_struct.
Qed.

Notation drop_fields dp := (drop_fields_with (drop_val dp)).
Lemma drop_val_struct dp unw ts p s :
  drop_val dp unw (TStruct ts) p s = drop_fields dp p unw 0 ts false s.
Proof. reflexivity. Qed.

(** Dropping a complete value: exactly its objects are destroyed, even if some
    destructors panic, unless the process aborts. *)
Lemma drop_val_ok dp t : forall unw p s d s',
  drop_val dp unw t p s = (d, s') ->
  frame p s s' /\ next s' = next s /\
  (sound s -> initialized t p s -> sound s') /\
  (initialized t p s -> d <> DAbort -> vacant t p s') /\
  (d = DPanic -> unw = false).
Proof.
  induction t as [|ts IH] using ty_ind2; intros unw p s d s'.
  - cbn [drop_val]. unfold drop_leaf. destruct (mem s p) as [o|] eqn:E.
    + set (s1 := St _ _ _).
      assert (R : forall d0, d0 = d -> s1 = s' -> (d0 = DPanic -> unw = false) ->
        frame p s s' /\ next s' = next s /\ (sound s -> initialized TLeaf p s -> sound s') /\
        (initialized TLeaf p s -> d <> DAbort -> vacant TLeaf p s') /\ (d = DPanic -> unw = false)).
      { intros d0 <- <- HU. split; [|split; [|split; [|split]]]; auto.
        - intros q N. cbn. apply upd_other. intros ->. apply N, under_refl.
        - intros SD _. now apply sound_drop_leaf.
        - intros _ _ q L. inversion L; subst. apply upd_same. }
      destruct (dp o); intros [= E1 E2].
      * eapply R; eauto. destruct unw; congruence.
      * eapply R; eauto. congruence.
    + intros [= <- <-]. split; [|split; [|split; [|split]]]; auto.
      * now intros q _.
      * intros _ I. destruct (I p) as [o K]; [constructor|]. congruence.
      * intros I. destruct (I p) as [o K]; [constructor|]. congruence.
      * congruence.
  - rewrite drop_val_struct.
    assert (G : forall ts, Forall (fun t => forall unw p s d s',
        drop_val dp unw t p s = (d, s') ->
        frame p s s' /\ next s' = next s /\
        (sound s -> initialized t p s -> sound s') /\
        (initialized t p s -> d <> DAbort -> vacant t p s') /\
        (d = DPanic -> unw = false)) ts -> forall k pk s d s',
      drop_fields dp p unw k ts pk s = (d, s') ->
      (forall q, (forall i, k <= i -> ~ under (field p i) q) -> mem s' q = mem s q) /\ next s' = next s /\
      (sound s -> each initialized p k ts s -> sound s') /\
      (each initialized p k ts s -> d <> DAbort -> each vacant p k ts s') /\
      (d = DPanic -> pk = false -> unw = false)).
    { clear ts IH s d s'. intros ts F. induction F as [|t ts Ht _ IH]; intros k pk s d s'; cbn [drop_fields_with].
      - intros [= <- <-]. split; [|split; [|split; [|split]]]; auto.
        + intros _ _ i t E. destruct i; discriminate.
        + destruct pk; congruence.
      - destruct (drop_val dp (unw || pk) t (field p k) s) as [d1 s1] eqn:E1.
        destruct (Ht _ _ _ _ _ E1) as (A & NX & C & D & U).
        assert (R : forall pk', drop_fields dp p unw (S k) ts pk' s1 = (d, s') -> d1 <> DAbort ->
           (pk' = true -> pk = false -> unw = false) ->
          (forall q, (forall i, k <= i -> ~ under (field p i) q) -> mem s' q = mem s q) /\ next s' = next s /\
          (sound s -> each initialized p k (t :: ts) s -> sound s') /\
          (each initialized p k (t :: ts) s -> d <> DAbort -> each vacant p k (t :: ts) s') /\
          (d = DPanic -> pk = false -> unw = false)).
        { intros pk' E' ND HU. destruct (IH _ _ _ _ _ E') as (A' & NX' & C' & D' & U').
          assert (T : each initialized p k (t :: ts) s -> each initialized p (S k) ts s1).
          { intros I i t' Et. apply init_frame_other with (i := k) (s := s); auto; [lia|].
            apply (each_tail _ _ _ _ _ _ I i t' Et). }
          split; [|split; [|split; [|split]]].
          - intros q N. rewrite A'; [|intros i L; apply N; lia]. apply A, N. lia.
          - congruence.
          - intros SD I. apply C'; auto. apply C; auto. eapply each_head; eauto.
          - intros I N. apply each_cons; auto. intros q L. rewrite A'.
            + apply D; auto. eapply each_head; eauto.
            + intros i L' U1. assert (i = k); [|lia].
              eapply under_field_inj; eauto. eapply leaf_under; eauto.
          - intros E2 E3. destruct pk'; auto. }
        destruct d1.
        + intros E'. eapply R; eauto; [congruence|]. congruence.
        + intros E'. eapply R; eauto; [congruence|]. intros _ Hpk.
          specialize (U eq_refl). destruct unw; auto.
        + intros [= <- <-]. split; [|split; [|split; [|split]]]; auto.
          * intros SD I. apply C; auto. eapply each_head; eauto.
          * congruence.
          * congruence. }
    intros E. destruct (G ts IH _ _ _ _ _ E) as (A & NX & C & D & U).
    split; [|split; [|split; [|split]]]; auto.
    + intros q N. apply A. intros i _ U'. apply N. eapply under_field; eauto.
    + intros SD I. apply C; auto. now apply initialized_struct.
    + intros I N. apply vacant_struct. apply D; auto. now apply initialized_struct.
Qed.
