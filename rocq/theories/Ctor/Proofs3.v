(** Results as [Result]s, order of destruction, slots. *)
From Coq Require Import List Arith Bool Lia Permutation.
From Verif Require Import Ctor.Model Ctor.Spec Ctor.Proofs Ctor.Proofs2.
Import ListNotations.
Local Open Scope nat_scope.
Local Open Scope list_scope.

(** ** [Result] reading *)
Section Res.
Variable dp : nat -> bool.

Lemma unwind_outcome : forall gs s o s', unwind dp gs s = (o, s') -> o = OPanic \/ o = OAbort.
Proof.
  induction gs as [|[t q] gs IH]; intros s o s'; cbn [unwind]; [intros [= <- <-]; auto|].
  destruct (drop_val dp true t q s) as [[] s1]; intros E; eauto. injection E as <- <-. auto.
Qed.

Definition reads (c : ctor) : Prop := forall p s o s' r,
  run dp c p s = (o, s') -> outcome_res o = Some r -> gives c r.

Lemma run_reads c : reads c.
Proof.
  induction c using ctor_ind2; unfold reads; intros p s o s' r; cbn [run].
  - intros [= <- <-] [= <-]. constructor.
  - destruct b; intros [= <- <-] [= <-]; constructor.
  - intros [= <- <-] [= <-]. constructor.
  - intros [= <- <-] [= <-]. constructor.
  - intros E R. constructor. eauto.
  - destruct (run dp c p s) as [o1 s1] eqn:E1.
    destruct o1 as [|e| |]; intros E R; try (injection E as <- <-).
    + injection R as <-. apply (gi_into c f ok). eapply IHc; eauto; reflexivity.
    + replace r with (res_map_err (err e) f).
      * constructor. eapply IHc; eauto; reflexivity.
      * cbn. destruct (f e); injection E as <- <-; injection R as <-; reflexivity.
    + injection R as <-. apply (gi_into c f None). eapply IHc; eauto; reflexivity.
    + discriminate.
  - destruct (run dp c p s) as [o1 s1] eqn:E1.
    destruct o1 as [|e| |]; intros E R; try (injection E as <- <-).
    + replace r with (res_and_then ok (fres_res f)).
      * constructor. eapply IHc; eauto; reflexivity.
      * cbn. destruct f; injection E as <- <-; injection R as <-; reflexivity.
    + injection R as <-. apply (gi_then c f (err e)). eapply IHc; eauto; reflexivity.
    + injection R as <-. apply (gi_then c f None). eapply IHc; eauto; reflexivity.
    + discriminate.
  - destruct (run dp c p s) as [o1 s1] eqn:E1.
    destruct o1 as [|e| |]; intros E R; try (injection E as <- <-).
    + injection R as <-. apply (gi_map c f ok). eapply IHc; eauto; reflexivity.
    + replace r with (res_map_err (err e) f).
      * constructor. eapply IHc; eauto; reflexivity.
      * cbn. destruct (f e); injection E as <- <-; injection R as <-; reflexivity.
    + injection R as <-. apply (gi_map c f None). eapply IHc; eauto; reflexivity.
    + discriminate.
  - destruct (run dp c p s) as [o1 s1] eqn:E1.
    destruct o1 as [|e| |]; intros E R; try (injection E as <- <-).
    + injection R as <-. apply gi_orelse_ok; [|discriminate]. eapply IHc; eauto; reflexivity.
    + assert (K : gives c (err e)) by (eapply IHc; eauto; reflexivity).
      destruct (f e) as [d|] eqn:Ef.
      * eapply gi_orelse; eauto. eapply H; eauto.
      * injection E as <- <-. injection R as <-. eapply gi_orelse_p; eauto.
    + injection R as <-. apply gi_orelse_ok; [|discriminate]. eapply IHc; eauto; reflexivity.
    + discriminate.
  - destruct (run dp c p s) as [o1 s1] eqn:E1.
    destruct o1 as [|e| |]; intros [= <- <-] R; try discriminate; injection R as <-.
    + apply (gi_expect c ok). eapply IHc; eauto; reflexivity.
    + apply (gi_expect c (err e)). eapply IHc; eauto; reflexivity.
    + apply (gi_expect c None). eapply IHc; eauto; reflexivity.
  - destruct (run dp c p s) as [o1 s1] eqn:E1.
    destruct o1 as [|e| |]; intros [= <- <-] R; try discriminate; injection R as <-.
    + apply (gi_unwrap c ok). eapply IHc; eauto; reflexivity.
    + apply (gi_unwrap c (err e)). eapply IHc; eauto; reflexivity.
    + apply (gi_unwrap c None). eapply IHc; eauto; reflexivity.
  - destruct (run dp c1 p s) as [o1 s1] eqn:E1.
    destruct o1 as [|e| |]; intros E R; try (injection E as <- <-).
    + injection R as <-. apply gi_uod_ok; [|discriminate]. eapply IHc1; eauto; reflexivity.
    + eapply gi_uod; [eapply IHc1; eauto; reflexivity|]. eapply IHc2; eauto.
    + injection R as <-. apply gi_uod_ok; [|discriminate]. eapply IHc1; eauto; reflexivity.
    + discriminate.
  - change (run_fields dp p fs [] s = (o, s') -> outcome_res o = Some r -> gives (CStruct ts fs) r).
    assert (G : forall fs2, Forall (fun x => reads (snd x)) fs2 -> forall fs1 gs s,
      (forall i c, In (i, c) fs1 -> gives c ok) ->
      run_fields dp p fs2 gs s = (o, s') -> outcome_res o = Some r -> gives (CStruct ts (fs1 ++ fs2)) r).
    { clear fs H s. intros fs2 F. induction F as [|[i c] fs2 Hc _ IH]; intros fs1 gs s HO; cbn [run_fields_with].
      - intros [= <- <-] [= <-]. apply gi_struct_ok. intros i c I. rewrite app_nil_r in I. eauto.
      - destruct (run dp c (field p i) s) as [o1 s1] eqn:E1. cbn [snd] in Hc.
        destruct o1 as [|e| |]; intros E R.
        + replace (fs1 ++ (i, c) :: fs2) with ((fs1 ++ [(i, c)]) ++ fs2) by (rewrite <- app_assoc; reflexivity).
          eapply IH; eauto. intros j d I. apply in_app_iff in I. destruct I as [I|[I|[]]]; [eauto|].
          injection I as <- <-. eapply Hc; eauto; reflexivity.
        + destruct (unwind_outcome _ _ _ _ E) as [-> | ->]; [|discriminate]. injection R as <-.
          eapply gi_struct_panic with (r := err e); auto; [|discriminate]. eapply Hc; eauto; reflexivity.
        + destruct (unwind_outcome _ _ _ _ E) as [-> | ->]; [|discriminate]. injection R as <-.
          eapply gi_struct_panic with (r := None); auto; [|discriminate]. eapply Hc; eauto; reflexivity.
        + injection E as <- <-. discriminate. }
    intros E R. apply (G fs H [] [] s); auto. intros i c [].
Qed.
End Res.

(** Conversely, the documented result is the only one possible. *)
Section Res2.
Variable dp : nat -> bool.

Lemma outcome_res_inj o r : outcome_res o = Some r ->
  match r with Some (inl _) => o = OOk | Some (inr e) => o = OErr e | None => o = OPanic end.
Proof. destruct o; intros [= <-]; reflexivity. Qed.

Lemma gives_run c r : gives c r -> forall p s o s',
  run dp c p s = (o, s') -> o <> OAbort -> outcome_res o = Some r.
Proof.
  induction 1; intros p s o s'; cbn [run].
  - intros [= <- <-] _. reflexivity.
  - intros [= <- <-] _. reflexivity.
  - intros [= <- <-] _. reflexivity.
  - intros [= <- <-] _. reflexivity.
  - intros [= <- <-] _. reflexivity.
  - eauto.
  - destruct (run dp c p s) as [o1 s1] eqn:E1. intros E N.
    assert (N1 : o1 <> OAbort) by (intros ->; injection E as <- <-; auto).
    assert (K := IHgives _ _ _ _ E1 N1). apply outcome_res_inj in K.
    destruct r as [[[]|e]|]; subst o1; cbn in *.
    + now injection E as <- <-.
    + destruct (f e); now injection E as <- <-.
    + now injection E as <- <-.
  - destruct (run dp c p s) as [o1 s1] eqn:E1. intros E N.
    assert (N1 : o1 <> OAbort) by (intros ->; injection E as <- <-; auto).
    assert (K := IHgives _ _ _ _ E1 N1). apply outcome_res_inj in K.
    destruct r as [[[]|e]|]; subst o1; cbn in *.
    + destruct f; now injection E as <- <-.
    + now injection E as <- <-.
    + now injection E as <- <-.
  - destruct (run dp c p s) as [o1 s1] eqn:E1. intros E N.
    assert (N1 : o1 <> OAbort) by (intros ->; injection E as <- <-; auto).
    assert (K := IHgives _ _ _ _ E1 N1). apply outcome_res_inj in K.
    destruct r as [[[]|e]|]; subst o1; cbn in *.
    + now injection E as <- <-.
    + destruct (f e); now injection E as <- <-.
    + now injection E as <- <-.
  - destruct (run dp c p s) as [o1 s1] eqn:E1. intros E N.
    assert (N1 : o1 <> OAbort) by (intros ->; injection E as <- <-; auto).
    assert (K := IHgives _ _ _ _ E1 N1). apply outcome_res_inj in K.
    destruct r as [[[]|e]|]; subst o1; [now injection E as <- <-| |now injection E as <- <-].
    now destruct (H0 e).
  - destruct (run dp c p s) as [o1 s1] eqn:E1. intros E N.
    assert (N1 : o1 <> OAbort) by (intros ->; injection E as <- <-; auto).
    assert (K := IHgives1 _ _ _ _ E1 N1). apply outcome_res_inj in K. cbn in K. subst o1.
    rewrite H0 in E. eauto.
  - destruct (run dp c p s) as [o1 s1] eqn:E1. intros E N.
    assert (N1 : o1 <> OAbort) by (intros ->; injection E as <- <-; auto).
    assert (K := IHgives _ _ _ _ E1 N1). apply outcome_res_inj in K. cbn in K. subst o1.
    rewrite H0 in E. now injection E as <- <-.
  - destruct (run dp c p s) as [o1 s1] eqn:E1. intros E N.
    assert (N1 : o1 <> OAbort) by (intros ->; injection E as <- <-; auto).
    assert (K := IHgives _ _ _ _ E1 N1). apply outcome_res_inj in K.
    destruct r as [[[]|e]|]; subst o1; now injection E as <- <-.
  - destruct (run dp c p s) as [o1 s1] eqn:E1. intros E N.
    assert (N1 : o1 <> OAbort) by (intros ->; injection E as <- <-; auto).
    assert (K := IHgives _ _ _ _ E1 N1). apply outcome_res_inj in K.
    destruct r as [[[]|e]|]; subst o1; now injection E as <- <-.
  - destruct (run dp c p s) as [o1 s1] eqn:E1. intros E N.
    assert (N1 : o1 <> OAbort) by (intros ->; injection E as <- <-; auto).
    assert (K := IHgives _ _ _ _ E1 N1). apply outcome_res_inj in K.
    destruct r as [[[]|e]|]; subst o1; [now injection E as <- <-| |now injection E as <- <-].
    now destruct (H0 e).
  - destruct (run dp c p s) as [o1 s1] eqn:E1. intros E N.
    assert (N1 : o1 <> OAbort) by (intros ->; injection E as <- <-; auto).
    assert (K := IHgives1 _ _ _ _ E1 N1). apply outcome_res_inj in K. cbn in K. subst o1. eauto.
  - change (run_fields dp p fs [] s = (o, s') -> o <> OAbort -> outcome_res o = Some ok).
    assert (G : forall gs s, run_fields dp p fs gs s = (o, s') -> o <> OAbort -> outcome_res o = Some ok);
      [|apply G].
    clear s. induction fs as [|[i c] fs IH]; intros gs s; cbn [run_fields_with].
    + intros [= <- <-] _. reflexivity.
    + destruct (run dp c (field p i) s) as [o1 s1] eqn:E1. intros E N.
      assert (N1 : o1 <> OAbort) by (intros ->; injection E as <- <-; auto).
      assert (K := H0 i c (or_introl eq_refl) _ _ _ _ E1 N1). apply outcome_res_inj in K. cbn in K. subst o1.
      eapply IH; eauto; intros; [eapply H; right; eauto|eapply H0; [right; eauto|eauto|eauto]].
  - change (run_fields dp p (fs1 ++ (i, c) :: fs2) [] s = (o, s') -> o <> OAbort -> outcome_res o = Some None).
    assert (G : forall gs s, run_fields dp p (fs1 ++ (i, c) :: fs2) gs s = (o, s') ->
       o <> OAbort -> outcome_res o = Some None); [|apply G].
    clear s. induction fs1 as [|[j d] fs IH]; intros gs s; cbn [run_fields_with app].
    + destruct (run dp c (field p i) s) as [o1 s1] eqn:E1. intros E N.
      assert (N1 : o1 <> OAbort) by (intros ->; injection E as <- <-; auto).
      assert (K := IHgives _ _ _ _ E1 N1). apply outcome_res_inj in K.
      destruct r as [[[]|e]|]; subst o1; [now destruct H2| |];
        destruct (unwind_outcome _ _ _ _ _ E) as [-> | ->]; auto; congruence.
    + destruct (run dp d (field p j) s) as [o1 s1] eqn:E1. intros E N.
      assert (N1 : o1 <> OAbort) by (intros ->; injection E as <- <-; auto).
      assert (K := H0 j d (or_introl eq_refl) _ _ _ _ E1 N1). apply outcome_res_inj in K. cbn in K. subst o1.
      eapply IH; eauto; intros; [eapply H; right; eauto|eapply H0; [right; eauto|eauto|eauto]].
Qed.
End Res2.

Definition field_leaves (p : list nat) :=
  fix go (i : nat) (ts : list ty) : list (list nat) :=
    match ts with [] => [] | t :: ts => leaves t (field p i) ++ go (S i) ts end.

(** ** Destructors that do not panic *)
Section Quiet.
Variable dp : nat -> bool.
Hypothesis quiet : forall o, dp o = false.

Lemma drop_quiet t : forall unw p s, fst (drop_val dp unw t p s) = DOk.
Proof.
  induction t as [|ts IH] using ty_ind2; intros unw p s.
  - cbn [drop_val]. unfold drop_leaf. destruct (mem s p); [|reflexivity]. now rewrite quiet.
  - rewrite drop_val_struct. generalize 0. revert s. induction IH as [|t ts Ht _ IH]; intros s k; [reflexivity|].
    cbn [drop_fields_with]. specialize (Ht (unw || false) (field p k) s).
    destruct (drop_val dp (unw || false) t (field p k) s) as [d s1]. cbn in Ht. subst d. apply IH.
Qed.

Lemma unwind_quiet : forall gs s, fst (unwind dp gs s) = OPanic.
Proof.
  induction gs as [|[t p] gs IH]; intros s; cbn [unwind]; [reflexivity|].
  assert (K := drop_quiet t true p s). destruct (drop_val dp true t p s) as [d s1]. cbn in K. subst d. apply IH.
Qed.

Lemma run_quiet c : forall p s, fst (run dp c p s) <> OAbort.
Proof.
  induction c using ctor_ind2; intros p s; cbn [run];
    try (specialize (IHc p s); destruct (run dp c p s) as [[] s1]; cbn in *; auto; try discriminate).
  - discriminate.
  - destruct b; discriminate.
  - discriminate.
  - discriminate.
  - destruct (f e); discriminate.
  - destruct f; discriminate.
  - destruct (f e); discriminate.
  - destruct (f e) eqn:Ef; [eapply H; eauto|discriminate].
  - specialize (IHc1 p s). destruct (run dp c1 p s) as [[] s1]; cbn in *; auto.
  - change (fst (run_fields dp p fs [] s) <> OAbort). generalize (@nil (ty * list nat)). revert s.
    induction H as [|[i c] fs Hc _ IH]; intros s gs; cbn [run_fields_with]; [discriminate|].
    specialize (Hc (field p i) s). cbn [snd] in Hc. destruct (run dp c (field p i) s) as [[] s1]; cbn in Hc; auto.
    + rewrite unwind_quiet. discriminate.
    + rewrite unwind_quiet. discriminate.
Qed.

Lemma leaves_of t : forall p q, In q (leaves t p) <-> leaf_of t p q.
Proof.
  induction t as [|ts IH] using ty_ind2; intros p q.
  - cbn. split; [intros [->|[]]; constructor|]. inversion 1; auto.
  - change (leaves (TStruct ts) p) with (field_leaves p 0 ts).
    assert (G : forall k, In q (field_leaves p k ts) <->
       exists i t, nth_error ts i = Some t /\ leaf_of t (field p (k + i)) q).
    { induction IH as [|t ts Ht _ IH]; intros k; cbn [field_leaves].
      - split; [intros []|]. intros (i & t & E & _). destruct i; discriminate.
      - rewrite in_app_iff, Ht, IH. split.
        + intros [L|(i & t' & E & L)].
          * exists 0, t. rewrite Nat.add_0_r. auto.
          * exists (S i), t'. replace (k + S i) with (S k + i) by lia. auto.
        + intros (i & t' & E & L). destruct i; cbn in E.
          * left. injection E as <-. now rewrite Nat.add_0_r in L.
          * right. exists i, t'. replace (S k + i) with (k + S i) by lia. auto. }
    rewrite G. split.
    + intros (i & t & E & L). eapply leaf_field; eauto.
    + intros L. apply leaf_struct_inv in L. exact L.
Qed.

Lemma drops_app s qs1 qs2 e1 e2 : drops s qs1 e1 -> drops s qs2 e2 -> drops s (qs1 ++ qs2) (e1 ++ e2).
Proof. apply Forall2_app. Qed.

Lemma drops_frame s s' qs es : (forall q, In q qs -> mem s' q = mem s q) -> drops s' qs es -> drops s qs es.
Proof.
  intros F D. induction D as [|q e qs es (o & E & ->) D IH]; constructor.
  - exists o. split; auto. rewrite <- F; auto. now left.
  - apply IH. intros q' I. apply F. now right.
Qed.

Lemma drop_log t : forall unw p s, initialized t p s ->
  exists es, log (snd (drop_val dp unw t p s)) = log s ++ es /\ drops s (leaves t p) es.
Proof.
  induction t as [|ts IH] using ty_ind2; intros unw p s HI.
  - cbn [drop_val leaves]. unfold drop_leaf. destruct (HI p) as [o E]; [constructor|].
    rewrite E, quiet. exists [EDrop p o]. split; [reflexivity|]. repeat constructor. eauto.
  - rewrite drop_val_struct. change (leaves (TStruct ts) p) with (field_leaves p 0 ts).
    apply initialized_struct in HI. revert HI. generalize 0. revert s.
    induction IH as [|t ts Ht _ IH]; intros s k HI; cbn [drop_fields_with field_leaves].
    + exists []. rewrite app_nil_r. split; [reflexivity|constructor].
    + destruct (Ht (unw || false) (field p k) s) as (es1 & L1 & D1).
      { eapply each_head; eauto. }
      assert (Q := drop_quiet t (unw || false) (field p k) s).
      destruct (drop_val dp (unw || false) t (field p k) s) as [d s1] eqn:E1. cbn in Q, L1. subst d.
      destruct (drop_val_ok _ _ _ _ _ _ _ E1) as (A & _).
      destruct (IH s1 (S k)) as (es2 & L2 & D2).
      { intros i t' Et. apply init_frame_other with (i := k) (s := s); auto; [lia|].
        apply (each_tail _ _ _ _ _ _ HI i t' Et). }
      exists (es1 ++ es2). split; [rewrite L2, L1; now rewrite app_assoc|].
      apply drops_app; auto. eapply drops_frame; [|eauto].
      intros q I. apply A. intros U.
      assert (G : exists i, k < i /\ under (field p i) q).
      { clear - I. revert I. assert (S k > k) by lia. revert H. generalize (S k). induction ts as [|t ts IH]; cbn [field_leaves]; intros j L I; [destruct I|].
        apply in_app_iff in I. destruct I as [I|I].
        - exists j. split; auto. apply leaves_of in I. eapply leaf_under; eauto.
        - destruct (IH (S j) ltac:(lia) I) as (i & Li & Ui). eauto. }
      destruct G as (i & Li & Ui). assert (i = k) by (eapply under_field_inj; eauto). lia.
Qed.

Lemma unwind_log p : forall gs s, NoDup (map fst gs) ->
  (forall x, In x gs -> initialized (out (snd x)) (field p (fst x)) s) ->
  exists es s', unwind dp (map (guard_of p) gs) s = (OPanic, s') /\ log s' = log s ++ es /\
    drops s (flat_map (fun x => leaves (out (snd x)) (field p (fst x))) gs) es.
Proof.
  induction gs as [|[i c] gs IH]; intros s ND HI; cbn [map unwind guard_of fst snd flat_map].
  - exists [], s. rewrite app_nil_r. repeat split. constructor.
  - cbn in ND. apply NoDup_cons_iff in ND. destruct ND as [NI ND].
    destruct (drop_log (out c) true (field p i) s) as (es1 & L1 & D1).
    { apply (HI (i, c)). now left. }
    assert (Q := drop_quiet (out c) true (field p i) s).
    destruct (drop_val dp true (out c) (field p i) s) as [d s1] eqn:E1. cbn in Q, L1. subst d.
    destruct (drop_val_ok _ _ _ _ _ _ _ E1) as (A & _).
    destruct (IH s1 ND) as (es2 & s' & U & L2 & D2).
    { intros x Ix. apply init_frame_other with (i := i) (s := s); auto.
      - intros ->. apply NI. now apply in_map.
      - apply HI. now right. }
    exists (es1 ++ es2), s'. split; [exact U|]. split; [rewrite L2, L1; now rewrite app_assoc|].
    apply drops_app; auto. eapply drops_frame; [|eauto].
    intros q I. apply A. intros U'. apply in_flat_map in I. destruct I as (x & Ix & Iq).
    apply leaves_of, leaf_under in Iq. apply NI. replace i with (fst x); [now apply in_map|].
    eapply under_field_inj; eauto.
Qed.
End Quiet.

(** ** [ctor!] step by step *)
Section Struct.
Variable dp : nat -> bool.

Lemma builds_run p : forall fs1 s sa, builds dp p fs1 s sa -> forall fs2 gs,
  run_fields dp p (fs1 ++ fs2) (map (guard_of p) gs) s =
  run_fields dp p fs2 (map (guard_of p) (gs ++ fs1)) sa.
Proof.
  induction 1 as [|i c fs s s1 sa E B IH]; intros fs2 gs.
  - now rewrite app_nil_r.
  - cbn [app run_fields_with]. rewrite E.
    replace (map (guard_of p) gs ++ [(out c, field p i)]) with (map (guard_of p) (gs ++ [(i, c)]))
      by (rewrite map_app; reflexivity).
    rewrite IH. now rewrite <- app_assoc.
Qed.

Lemma builds_init p : forall fs s sa, builds dp p fs s sa ->
  NoDup (map fst fs) -> (forall i c, In (i, c) fs -> wt c false) ->
  (forall q, (forall x, In x fs -> ~ under (field p (fst x)) q) -> mem sa q = mem s q) /\
  forall x, In x fs -> initialized (out (snd x)) (field p (fst x)) sa.
Proof.
  induction 1 as [|i c fs s s1 sa E B IH]; intros ND HW.
  - split; [auto|intros x []].
  - cbn in ND. apply NoDup_cons_iff in ND. destruct ND as [NI ND].
    destruct (IH ND ltac:(intros; apply (HW i0); now right)) as [F K].
    destruct (run_basic dp c _ _ _ _ _ (HW i c (or_introl eq_refl)) E) as (A & I1 & _).
    split.
    + intros q N. rewrite F; [|intros x I; apply N; now right]. apply A. apply (N (i, c)). now left.
    + intros x [<-|I]; [|auto]. cbn [fst snd]. intros q L. rewrite F; [now apply I1|].
      intros x I U. apply NI. replace i with (fst x); [now apply in_map|].
      eapply under_field_inj; eauto. eapply leaf_under; eauto.
Qed.
End Struct.

(** ** Slots *)
Section Slot.
Variable dp : nat -> bool.
Hypothesis quiet : forall o, dp o = false.

Definition slot_inv (t : ty) (p : list nat) (f : bool) (s : st) : Prop :=
  sound s /\ (if f then initialized t p s else vacant t p s).

Lemma clear_inv t p f s : slot_inv t p f s ->
  exists s', clear dp t p f s = (OOk, false, s') /\ slot_inv t p false s'.
Proof.
  intros [SD V]. unfold clear. destruct f; [|eexists; split; [reflexivity|split; auto]].
  assert (Q := drop_quiet dp quiet t false p s).
  destruct (drop_val dp false t p s) as [d s1] eqn:E. cbn in Q. subst d.
  destruct (drop_val_ok _ _ _ _ _ _ _ E) as (_ & _ & C & D & _).
  eexists; split; [reflexivity|]. split; [auto|]. apply D; auto. congruence.
Qed.

Lemma slot_step_inv t p op f s o f' s' : slot_op_ok t op -> slot_inv t p f s ->
  slot_step dp t p op f s = (o, f', s') -> slot_inv t p f' s' /\ o <> OAbort /\
  (forall c, op = SReplace c -> (f' = true <-> o = OOk)).
Proof.
  intros OK IV. destruct op as [|c]; cbn [slot_step].
  - destruct (clear_inv _ _ _ _ IV) as (s1 & -> & IV'). intros [= <- <- <-].
    split; [auto|split; [discriminate|discriminate]].
  - unfold try_replace. destruct (clear_inv _ _ _ _ IV) as (s1 & -> & SD & V).
    inversion OK as [|c' fe W NF Eo]; subst. 
    assert (Q := run_quiet dp quiet c p s1).
    destruct (run dp c p s1) as [o1 s2] eqn:E. cbn in Q.
    destruct (run_basic dp c _ _ _ _ _ W E) as (_ & I1 & _).
    destruct (run_clean dp c _ _ _ _ _ W NF SD V E) as [SD2 V2].
    destruct o1; intros [= <- <- <-]; (split; [split; [auto|]|split; [congruence|intros; split; congruence]]).
    + auto.
    + apply V2; congruence.
    + apply V2; congruence.
    + congruence.
Qed.

Lemma slot_run_inv t p ops : forall f s o f' s', Forall (slot_op_ok t) ops -> slot_inv t p f s ->
  slot_run dp t p ops f s = (o, f', s') -> slot_inv t p f' s' /\ o <> OAbort.
Proof.
  induction ops as [|op ops IH]; intros f s o f' s' F IV; cbn [slot_run].
  - intros [= <- <- <-]. split; [auto|discriminate].
  - inversion F as [|x l OK F']; subst. destruct (slot_step dp t p op f s) as [[o1 f1] s1] eqn:E.
    destruct (slot_step_inv _ _ _ _ _ _ _ _ OK IV E) as (IV1 & N1 & _).
    destruct o1; try congruence; intros E2; eapply IH; eauto.
Qed.
End Slot.
