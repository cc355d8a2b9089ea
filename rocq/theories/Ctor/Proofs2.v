(** Running constructors. *)
From Coq Require Import List Arith Bool Lia Permutation.
From Verif Require Import Ctor.Model Ctor.Spec Ctor.Proofs.
Import ListNotations.
Local Open Scope nat_scope.
Local Open Scope list_scope.

Lemma NoDup_app_l {A} (l1 l2 : list A) : NoDup (l1 ++ l2) -> NoDup l1.
Proof.
  induction l1 as [|a l IH]; cbn; intros H; [constructor|].
  apply NoDup_cons_iff in H. destruct H as [H1 H2]. constructor; auto.
  intros I. apply H1, in_app_iff. auto.
Qed.

Notation run_fields dp := (run_fields_with dp (run dp)).

Section R.
Variable dp : nat -> bool.

Lemma run_struct ts fs p s : run dp (CStruct ts fs) p s = run_fields dp p fs [] s.
Proof. reflexivity. Qed.

Definition guard_of (p : list nat) (x : nat * ctor) : ty * list nat :=
  (out (snd x), field p (fst x)).

Lemma unwind_ok p : forall gs s o s',
  NoDup (map fst gs) ->
  unwind dp (map (guard_of p) gs) s = (o, s') ->
  frame p s s' /\
  (forall q, (forall x, In x gs -> ~ under (field p (fst x)) q) -> mem s' q = mem s q) /\
  (o = OPanic \/ o = OAbort) /\
  ((forall x, In x gs -> initialized (out (snd x)) (field p (fst x)) s) ->
   (sound s -> sound s') /\
   (o = OPanic -> forall x, In x gs -> vacant (out (snd x)) (field p (fst x)) s')).
Proof.
  induction gs as [|[i c] gs IH]; intros s o s' ND; cbn [map unwind guard_of fst snd].
  - intros [= <- <-]. split; [apply frame_refl|]. split; [auto|]. split; [auto|].
    intros _. split; auto. intros _ x [].
  - destruct (drop_val dp true (out c) (field p i) s) as [d s1] eqn:E1.
    destruct (drop_val_ok _ _ _ _ _ _ _ E1) as (A & _ & C & D & U).
    cbn in ND. apply NoDup_cons_iff in ND. destruct ND as [NI ND].
    assert (T : d <> DAbort -> unwind dp (map (guard_of p) gs) s1 = (o, s') ->
      frame p s s' /\
      (forall q, (forall x, In x ((i, c) :: gs) -> ~ under (field p (fst x)) q) -> mem s' q = mem s q) /\
      (o = OPanic \/ o = OAbort) /\
      ((forall x, In x ((i, c) :: gs) -> initialized (out (snd x)) (field p (fst x)) s) ->
       (sound s -> sound s') /\
       (o = OPanic -> forall x, In x ((i, c) :: gs) -> vacant (out (snd x)) (field p (fst x)) s'))).
    { intros Nd Eu. destruct (IH _ _ _ ND Eu) as (A' & F' & O' & K').
      split; [eapply frame_trans; eauto; eapply frame_field; eauto|].
      split. { intros q N. rewrite F'.
               - apply A. apply (N (i, c)). now left.
               - intros x Ix. apply N. now right. }
      split; auto. intros HI.
      assert (HI' : forall x, In x gs -> initialized (out (snd x)) (field p (fst x)) s1).
      { intros x Ix. apply init_frame_other with (i := i) (s := s); auto.
        - intros ->. apply NI. now apply in_map.
        - apply HI. now right. }
      destruct (K' HI') as [K1 K2]. assert (Hc := HI (i, c) (or_introl eq_refl)). cbn in Hc.
      split; [auto|]. intros Ep x [<-|Ix]; [|auto]. cbn [fst snd].
      intros q L. rewrite F'.
      - now apply D.
      - intros x Ix U'. apply NI. replace i with (fst x); [now apply in_map|].
        eapply under_field_inj; eauto. eapply leaf_under; eauto. }
    destruct d; [now apply T|now apply T|].
    intros [= <- <-]. split; [eapply frame_field; eauto|].
    split. { intros q N. apply A. apply (N (i, c)). now left. }
    split; auto. intros HI. assert (Hc := HI (i, c) (or_introl eq_refl)). cbn in Hc.
    split; [auto|]. discriminate.
Qed.

(** What holds of every well-typed constructor, clean or not. *)
Definition basic (c : ctor) : Prop := forall fe p s o s',
  wt c fe -> run dp c p s = (o, s') ->
  frame p s s' /\
  (o = OOk -> initialized (out c) p s') /\
  (fe = false -> forall e, o <> OErr e).

Lemma unwind_frame p : forall gs s o s',
  (forall x, In x gs -> under p (snd x)) ->
  unwind dp gs s = (o, s') -> frame p s s' /\ (o = OPanic \/ o = OAbort).
Proof.
  induction gs as [|[t q] gs IH]; intros s o s' HU; cbn [unwind].
  - intros [= <- <-]. split; [apply frame_refl|auto].
  - destruct (drop_val dp true t q s) as [d s1] eqn:E1.
    destruct (drop_val_ok _ _ _ _ _ _ _ E1) as (A & _).
    assert (A' : frame p s s1).
    { intros q' N. apply A. intros [r ->]. apply N.
      destruct (HU (t, q) (or_introl eq_refl)) as [r' E]. cbn in E. subst q.
      exists (r' ++ r). now rewrite app_assoc. }
    assert (HU' : forall x, In x gs -> under p (snd x)) by (intros; apply HU; now right).
    destruct d; intros E.
    + destruct (IH _ _ _ HU' E). split; auto. eapply frame_trans; eauto.
    + destruct (IH _ _ _ HU' E). split; auto. eapply frame_trans; eauto.
    + injection E as <- <-. auto.
Qed.

Local Ltac ih IHc E A B C :=
  match type of E with run _ ?c _ _ = _ =>
    match goal with W1 : wt c _ |- _ => destruct (IHc _ _ _ _ _ W1 E) as (A & B & C) end end.

Lemma run_basic c : basic c.
Proof.
  induction c using ctor_ind2; unfold basic; intros fe p s o s' W; cbn [run out]; inversion W; subst.
  - (* CMove *) intros [= <- <-]. destruct (init_val_ok t p s) as (A & B & _).
    split; [auto|split; [auto|congruence]].
  - (* CFn *) destruct b; intros [= <- <-].
    + split; [apply frame_refl|split; [congruence|congruence]].
    + destruct (init_val_ok t p s) as (A & B & _). split; [auto|split; [auto|congruence]].
  - intros [= <- <-]. split; [apply frame_refl|split; [congruence|congruence]].
  - intros [= <- <-]. split; [apply frame_refl|split; [congruence|congruence]].
  - (* MakeFallible *) intros E. ih IHc E A B C.
    split; [auto|split; [auto|]]. auto.
  - (* ErrInto *) destruct (run dp c p s) as [o1 s1] eqn:E1.
    ih IHc E1 A B C.
    destruct o1 as [|e| |].
    + intros [= <- <-]. split; [auto|split; [auto|congruence]].
    + destruct (f e) as [e'|] eqn:Ef; intros [= <- <-]; (split; [auto|split; [congruence|]]).
      * intros -> e''. match goal with K : ?x = true -> false = false -> forall e, f e = None |- _ =>
          destruct x; [specialize (K eq_refl eq_refl e); congruence|now destruct (C eq_refl e)] end.
      * congruence.
    + intros [= <- <-]. split; [auto|split; [congruence|congruence]].
    + intros [= <- <-]. split; [auto|split; [congruence|congruence]].
  - (* Then *) destruct (run dp c p s) as [o1 s1] eqn:E1.
    ih IHc E1 A B C.
    destruct o1 as [|e| |].
    + destruct f as [|e|]; intros [= <- <-]; (split; [auto|split; [auto; congruence|]]); try congruence.
      intros F. match goal with K : _ = false -> forall e, _ <> FErr e |- _ => now destruct (K F e) end.
    + intros [= <- <-]. split; [auto|split; [congruence|auto]].
    + intros [= <- <-]. split; [auto|split; [congruence|congruence]].
    + intros [= <- <-]. split; [auto|split; [congruence|congruence]].
  - (* MapErr *) destruct (run dp c p s) as [o1 s1] eqn:E1.
    ih IHc E1 A B C.
    destruct o1 as [|e| |].
    + intros [= <- <-]. split; [auto|split; [auto|congruence]].
    + destruct (f e) as [e'|] eqn:Ef; intros [= <- <-]; (split; [auto|split; [congruence|]]).
      * intros -> e''. match goal with K : ?x = true -> false = false -> forall e, f e = None |- _ =>
          destruct x; [specialize (K eq_refl eq_refl e); congruence|now destruct (C eq_refl e)] end.
      * congruence.
    + intros [= <- <-]. split; [auto|split; [congruence|congruence]].
    + intros [= <- <-]. split; [auto|split; [congruence|congruence]].
  - (* OrElse *) destruct (run dp c p s) as [o1 s1] eqn:E1.
    ih IHc E1 A B C.
    destruct o1 as [|e| |].
    + intros [= <- <-]. split; [auto|split; [auto|congruence]].
    + destruct (f e) as [d|] eqn:Ef; intros E.
      * match goal with K : forall e o, f e = Some o -> wt o _ /\ _ |- _ =>
          destruct (K _ _ Ef) as [Wd Od] end. destruct (H _ _ Ef _ _ _ _ _ Wd E) as (A' & B' & C').
        rewrite Od in B'. split; [eapply frame_trans; eauto|auto].
      * injection E as <- <-. split; [auto|split; [congruence|congruence]].
    + intros [= <- <-]. split; [auto|split; [congruence|congruence]].
    + intros [= <- <-]. split; [auto|split; [congruence|congruence]].
  - (* Expect *) destruct (run dp c p s) as [o1 s1] eqn:E1.
    ih IHc E1 A B C.
    destruct o1; intros [= <- <-]; (split; [auto|split; [auto; congruence|congruence]]).
  - (* Unwrap *) destruct (run dp c p s) as [o1 s1] eqn:E1.
    ih IHc E1 A B C.
    destruct o1; intros [= <- <-]; (split; [auto|split; [auto; congruence|congruence]]).
  - (* UnwrapOrDefault *) destruct (run dp c1 p s) as [o1 s1] eqn:E1.
    ih IHc1 E1 A B C.
    destruct o1 as [|e| |]; intros E.
    + injection E as <- <-. split; [auto|split; [auto|congruence]].
    + ih IHc2 E A' B' C'.
      match goal with K : out c2 = out c1 |- _ => rewrite K in B' end. split; [eapply frame_trans; eauto|auto].
    + injection E as <- <-. split; [auto|split; [congruence|congruence]].
    + injection E as <- <-. split; [auto|split; [congruence|congruence]].
  - (* Struct *) change (run_fields dp p fs [] s = (o, s') ->
      frame p s s' /\ (o = OOk -> initialized (TStruct ts) p s') /\ (false = false -> forall e, o <> OErr e)).
    assert (G : forall fs, Forall (fun x => basic (snd x)) fs ->
      (forall i c, In (i, c) fs -> wt c false) -> NoDup (map fst fs) ->
      forall gs s o s', (forall x, In x gs -> under p (snd x)) ->
      run_fields dp p fs gs s = (o, s') ->
      frame p s s' /\ (forall e, o <> OErr e) /\
      (o = OOk -> (forall x, In x fs -> initialized (out (snd x)) (field p (fst x)) s') /\
        (forall q, (forall x, In x fs -> ~ under (field p (fst x)) q) -> mem s' q = mem s q))).
    { clear. intros fs F. induction F as [|[i c] fs Hc _ IH]; intros HW ND gs s o s' HU; cbn [run_fields_with].
      - intros [= <- <-]. split; [apply frame_refl|]. split; [congruence|]. intros _. split; [intros x []|auto].
      - cbn in ND. apply NoDup_cons_iff in ND. destruct ND as [NI ND].
        destruct (run dp c (field p i) s) as [o1 s1] eqn:E1.
        destruct (Hc _ _ _ _ _ (HW i c (or_introl eq_refl)) E1) as (A & B & C). cbn [snd] in *.
        assert (Ap := frame_field _ _ _ _ A).
        destruct o1 as [|e| |]; intros E.
        + assert (HU' : forall x, In x (gs ++ [(out c, field p i)]) -> under p (snd x)).
          { intros x I. apply in_app_iff in I. destruct I as [I|[<-|[]]]; [auto|].
            cbn. exists [i]. reflexivity. }
          destruct (IH ltac:(intros; apply (HW i0); now right) ND _ _ _ _ HU' E) as (A' & N' & K').
          split; [eapply frame_trans; eauto|]. split; [auto|]. intros Eo.
          destruct (K' Eo) as [K1 K2]. split.
          * intros x [<-|I]; [|auto]. cbn [fst snd]. intros q L. rewrite K2; [now apply B|].
            intros x I U. apply NI. replace i with (fst x); [now apply in_map|].
            eapply under_field_inj; eauto. eapply leaf_under; eauto.
          * intros q N. rewrite K2; [|intros x I; apply N; now right].
            apply A. apply (N (i, c)). now left.
        + destruct (C eq_refl e). reflexivity.
        + destruct (unwind_frame p _ _ _ _ HU E) as [A' [-> | ->]];
            (split; [eapply frame_trans; eauto|split; congruence]).
        + injection E as <- <-. split; [auto|split; congruence]. }
    match goal with K : forall i c, In (i, c) fs -> wt c false /\ _ |- _ => rename K into HW end.
    intros E. assert (ND : NoDup (map fst fs)).
    { eapply Permutation_NoDup; [symmetry; eauto|]. apply seq_NoDup. }
    destruct (G fs H ltac:(intros; eapply HW; eauto) ND [] s o s' ltac:(intros x []) E) as (A & B & C).
    split; [auto|]. split; [|auto]. intros Eo. destruct (C Eo) as [C1 _].
    apply initialized_struct. intros i t Et.
    assert (I : In i (map fst fs)).
    { eapply Permutation_in; [symmetry; eauto|]. apply in_seq.
      assert (i < length ts) by (apply nth_error_Some; congruence). lia. }
    apply in_map_iff in I. destruct I as ([i' c] & Ei & I). cbn in Ei. subst i'.
    destruct (HW _ _ I) as [_ Et']. cbn [Nat.add]. specialize (C1 _ I). cbn [fst snd] in C1.
    replace t with (out c) by congruence. exact C1.
Qed.

(** Constructors in which no [ctor_then] closure fails clean up after
    themselves. *)
Definition clean (c : ctor) : Prop := forall fe p s o s',
  wt c fe -> no_failing_then c -> sound s -> vacant (out c) p s -> run dp c p s = (o, s') ->
  sound s' /\ (o <> OOk -> o <> OAbort -> vacant (out c) p s').

Lemma run_clean c : clean c.
Proof.
  induction c using ctor_ind2; unfold clean; intros fe p s o s' W NF SD V; cbn [run out] in *;
    inversion W; inversion NF; subst.
  - intros [= <- <-]. destruct (init_val_ok t p s) as (_ & _ & C). split; [auto|congruence].
  - destruct b; intros [= <- <-]; [split; auto|].
    destruct (init_val_ok t p s) as (_ & _ & C). split; [auto|congruence].
  - intros [= <- <-]. auto.
  - intros [= <- <-]. auto.
  - intros E. eapply IHc; eauto.
  - destruct (run dp c p s) as [o1 s1] eqn:E1.
    match goal with W1 : wt c ?fe', N1 : no_failing_then c |- _ =>
      destruct (IHc _ _ _ _ _ W1 N1 SD V E1) as (A & B) end.
    destruct o1 as [|e| |].
    + intros [= <- <-]. split; [auto|congruence].
    + destruct (f e); intros [= <- <-]; (split; [auto|intros _ _; apply B; congruence]).
    + intros [= <- <-]. split; auto.
    + intros [= <- <-]. split; [auto|congruence].
  - destruct (run dp c p s) as [o1 s1] eqn:E1.
    match goal with W1 : wt c ?fe', N1 : no_failing_then c |- _ =>
      destruct (IHc _ _ _ _ _ W1 N1 SD V E1) as (A & B) end.
    destruct o1; intros [= <- <-]; (split; [auto|auto; congruence]).
  - destruct (run dp c p s) as [o1 s1] eqn:E1.
    match goal with W1 : wt c ?fe', N1 : no_failing_then c |- _ =>
      destruct (IHc _ _ _ _ _ W1 N1 SD V E1) as (A & B) end.
    destruct o1 as [|e| |].
    + intros [= <- <-]. split; [auto|congruence].
    + destruct (f e); intros [= <- <-]; (split; [auto|intros _ _; apply B; congruence]).
    + intros [= <- <-]. split; auto.
    + intros [= <- <-]. split; [auto|congruence].
  - destruct (run dp c p s) as [o1 s1] eqn:E1.
    match goal with W1 : wt c ?fe', N1 : no_failing_then c |- _ =>
      destruct (IHc _ _ _ _ _ W1 N1 SD V E1) as (A & B) end.
    destruct o1 as [|e| |].
    + intros [= <- <-]. split; [auto|congruence].
    + destruct (f e) as [d|] eqn:Ef; intros E.
      * match goal with K : forall e o, f e = Some o -> wt o _ /\ _ |- _ =>
          destruct (K _ _ Ef) as [Wd Od] end.
        match goal with K : forall e o, f e = Some o -> no_failing_then o |- _ =>
          assert (Nd := K _ _ Ef) end.
        rewrite <- Od in *. eapply H; eauto. apply B; congruence.
      * injection E as <- <-. split; [auto|intros _ _; apply B; congruence].
    + intros [= <- <-]. split; auto.
    + intros [= <- <-]. split; [auto|congruence].
  - destruct (run dp c p s) as [o1 s1] eqn:E1.
    match goal with W1 : wt c ?fe', N1 : no_failing_then c |- _ =>
      destruct (IHc _ _ _ _ _ W1 N1 SD V E1) as (A & B) end.
    destruct o1; intros [= <- <-]; (split; [auto|try congruence; intros _ _; apply B; congruence]).
  - destruct (run dp c p s) as [o1 s1] eqn:E1.
    match goal with W1 : wt c ?fe', N1 : no_failing_then c |- _ =>
      destruct (IHc _ _ _ _ _ W1 N1 SD V E1) as (A & B) end.
    destruct o1; intros [= <- <-]; (split; [auto|try congruence; intros _ _; apply B; congruence]).
  - destruct (run dp c1 p s) as [o1 s1] eqn:E1.
    match goal with W1 : wt c1 ?fe', N1 : no_failing_then c1 |- _ =>
      destruct (IHc1 _ _ _ _ _ W1 N1 SD V E1) as (A & B) end.
    match goal with K : out c2 = out c1 |- _ => rewrite <- K in * end.
    destruct o1 as [|e| |]; intros E.
    + injection E as <- <-. split; [auto|congruence].
    + eapply IHc2; eauto. apply B; congruence.
    + injection E as <- <-. split; auto.
    + injection E as <- <-. split; [auto|congruence].
  - change (run_fields dp p fs [] s = (o, s') ->
      sound s' /\ (o <> OOk -> o <> OAbort -> vacant (TStruct ts) p s')).
    match goal with K : Permutation _ _ |- _ => rename K into HP end.
    match goal with K : forall i c, In (i, c) fs -> wt c false /\ _ |- _ => rename K into HW end.
    match goal with K : forall i c, In (i, c) fs -> no_failing_then c |- _ => rename K into HNF end.
    assert (ND : NoDup (map fst fs)).
    { eapply Permutation_NoDup; [symmetry; eauto|]. apply seq_NoDup. }
    assert (G : forall fs, Forall (fun x => clean (snd x)) fs ->
      (forall i c, In (i, c) fs -> wt c false) ->
      (forall i c, In (i, c) fs -> no_failing_then c) ->
      forall ds s o s', NoDup (map fst (ds ++ fs)) -> sound s ->
      (forall x, In x ds -> initialized (out (snd x)) (field p (fst x)) s) ->
      (forall x, In x fs -> vacant (out (snd x)) (field p (fst x)) s) ->
      run_fields dp p fs (map (guard_of p) ds) s = (o, s') ->
      sound s' /\ (o <> OOk -> o <> OAbort ->
        forall x, In x (ds ++ fs) -> vacant (out (snd x)) (field p (fst x)) s')).
    { clear. intros fs F. induction F as [|[i c] fs Hc _ IH]; intros HW HNF ds s o s' ND SD HI HV; cbn [run_fields_with].
      - intros [= <- <-]. split; [auto|congruence].
      - destruct (run dp c (field p i) s) as [o1 s1] eqn:E1.
        destruct (run_basic c _ _ _ _ _ (HW i c (or_introl eq_refl)) E1) as (A & I1 & N1).
        destruct (Hc _ _ _ _ _ (HW i c (or_introl eq_refl)) (HNF i c (or_introl eq_refl)) SD
                    (HV _ (or_introl eq_refl)) E1) as (B & C).
        assert (NE : forall x, In x ds \/ In x fs -> fst x <> i).
        { rewrite map_app in ND. cbn in ND. apply NoDup_remove_2 in ND. intros x I <-.
          apply ND. apply in_app_iff. destruct I; [left|right]; now apply in_map. }
        assert (HI1 : forall x, In x ds -> initialized (out (snd x)) (field p (fst x)) s1).
        { intros x Ix. apply init_frame_other with (i := i) (s := s); auto.
          intros EQ. apply (NE x); auto. }
        assert (HV1 : forall x, In x fs -> vacant (out (snd x)) (field p (fst x)) s1).
        { intros x Ix. apply vacant_frame_other with (i := i) (s := s); auto.
          - intros EQ. apply (NE x); auto.
          - apply HV. now right. }
        assert (UW : vacant (out c) (field p i) s1 -> unwind dp (map (guard_of p) ds) s1 = (o, s') ->
          sound s' /\ (o <> OOk -> o <> OAbort ->
          forall x, In x (ds ++ (i, c) :: fs) -> vacant (out (snd x)) (field p (fst x)) s')).
        { intros Vc E. assert (ND1 : NoDup (map fst ds)).
          { rewrite map_app in ND. eapply NoDup_app_l; eauto. }
          destruct (unwind_ok p _ _ _ _ ND1 E) as (_ & F' & O' & K'). destruct (K' HI1) as [K1 K2].
          split; [auto|]. intros N2 N3 x Ix. destruct O' as [->|]; [|congruence].
          apply in_app_iff in Ix. destruct Ix as [Ix|Ix]; [auto|].
          assert (VX : vacant (out (snd x)) (field p (fst x)) s1) by (destruct Ix as [<-|Ix]; auto).
          intros q L. rewrite F'; [now apply VX|]. intros y Iy U.
          assert (EQ : fst y = fst x). { eapply under_field_inj; eauto. eapply leaf_under; eauto. }
          rewrite map_app in ND. revert ND EQ. clear - Ix Iy. intros ND EQ.
          assert (I1 : In (fst y) (map fst ds)) by (now apply in_map).
          assert (I2 : In (fst y) (map fst ((i, c) :: fs))).
          { rewrite EQ. now apply in_map. }
          revert ND I1 I2. generalize (map fst ds), (map fst ((i, c) :: fs)), (fst y). clear.
          induction l as [|a l IH]; cbn; intros l0 n ND; [tauto|].
          apply NoDup_cons_iff in ND. destruct ND as [NI ND]. intros [->|I1] I2.
          - apply NI. apply in_app_iff. auto.
          - eapply IH; eauto. }
        destruct o1 as [|e| |]; intros E.
        + replace (map (guard_of p) ds ++ [(out c, field p i)]) with (map (guard_of p) (ds ++ [(i, c)])) in E
            by (rewrite map_app; reflexivity).
          replace (ds ++ (i, c) :: fs) with ((ds ++ [(i, c)]) ++ fs) in * by (rewrite <- app_assoc; reflexivity).
          eapply IH; eauto.
          * intros; apply (HW i0); now right.
          * intros; apply (HNF i0); now right.
          * intros x Ix. apply in_app_iff in Ix. destruct Ix as [Ix|[<-|[]]]; cbn [fst snd]; auto.
        + apply UW; auto. apply C; congruence.
        + apply UW; auto. apply C; congruence.
        + injection E as <- <-. split; [auto|congruence]. }
    intros E.
    destruct (G fs H ltac:(intros; eapply HW; eauto) HNF [] s o s' ND SD ltac:(intros x [])
      ltac:(intros [i c] Ix; cbn [fst snd]; destruct (HW _ _ Ix) as [_ Et]; intros q L; apply V;
            eapply leaf_field; eauto) E) as [A B].
    split; [auto|]. intros N1 N2. apply vacant_struct. intros i t Et.
    assert (I : In i (map fst fs)).
    { eapply Permutation_in; [symmetry; eauto|]. apply in_seq.
      assert (i < length ts) by (apply nth_error_Some; congruence). lia. }
    apply in_map_iff in I. destruct I as ([i' c] & Ei & I). cbn in Ei. subst i'.
    destruct (HW _ _ I) as [_ Et']. cbn [Nat.add]. specialize (B N1 N2 _ I). cbn [fst snd] in B.
    replace t with (out c) by congruence. exact B.
Qed.
End R.
