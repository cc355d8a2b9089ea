(** Theorems C112-C117: in-place pinned construction. *)
From Coq Require Import List Arith Bool Lia Permutation.
From Verif Require Import Ctor.Model Ctor.Spec Ctor.Proofs Ctor.Proofs2 Ctor.Proofs3 Ctor.Proofs4.
Import ListNotations.
Local Open Scope nat_scope.
Local Open Scope list_scope.

(** * C112: the contract of [Ctor::ctor] holds for every program built with the
    API: [Ok] means a completely initialised destination, no memory outside the
    destination is touched, and a constructor whose error type is [Infallible]
    never returns an error (so the [unwrap]s in [emplace!], [construct],
    [init_field] and [replace] cannot fire). *)
Theorem C112_ctor_contract :
  forall (dp : nat -> bool) c fe p s o s',
  wt c fe -> run dp c p s = (o, s') ->
  (o = OOk -> initialized (out c) p s') /\
  (forall q, ~ leaf_of (out c) p q -> mem s' q = mem s q) /\
  (fe = false -> forall e, o <> OErr e).
Proof.
  intros dp c fe p s o s' W E. destruct (run_basic dp c fe p s o s' W E) as (_ & A & B).
  split; [auto|]. split; [|auto]. assert (K := ev_run dp c fe p s W). rewrite E in K. apply (ev_mem _ _ _ K).
Qed.
Print Assumptions C112_ctor_contract.

(** * C113: a construction that fails leaves nothing behind: every object it
    constructed was destroyed exactly once, where it was constructed.
    Full claim: for every well-typed constructor.  Proved for those in which no
    closure given to [ctor_then] fails; refuted below for the others. *)
Theorem C113_failed_construction_leaves_nothing_partial :
  forall (dp : nat -> bool) c fe p s o s',
  wt c fe -> no_failing_then c -> sound s -> vacant (out c) p s ->
  run dp c p s = (o, s') -> (o = OPanic \/ exists e, o = OErr e) ->
  sound s' /\ vacant (out c) p s' /\
  forall ob, next s <= ob < next s' ->
    exists q, history ob (log s') = [EInit q ob; EDrop q ob].
Proof.
  intros dp c fe p s o s' W NF SD V E F.
  destruct (run_clean dp c fe p s o s' W NF SD V E) as [A B].
  assert (V' : vacant (out c) p s').
  { apply B; destruct F as [->|[e ->]]; discriminate. }
  split; [auto|]. split; [auto|]. intros ob [L1 L2].
  assert (K := ev_run dp c fe p s W). rewrite E in K. cbn [snd] in K.
  apply (vacant_dead (out c) p s s'); auto.
Qed.
Print Assumptions C113_failed_construction_leaves_nothing_partial.

(** And a construction that succeeds has left exactly one live object per leaf,
    whatever earlier attempts ([ctor_or_else], [ctor_unwrap_or_default]) were
    abandoned on the way. *)
Theorem C113_successful_construction_is_sound_partial :
  forall (dp : nat -> bool) c fe p s s',
  wt c fe -> no_failing_then c -> sound s -> vacant (out c) p s ->
  run dp c p s = (OOk, s') -> sound s' /\ initialized (out c) p s'.
Proof.
  intros dp c fe p s s' W NF SD V E. split.
  - eapply run_clean; eauto.
  - eapply run_basic; eauto.
Qed.
Print Assumptions C113_successful_construction_is_sound_partial.

(** [ctor_then] whose closure returns an error (or panics) leaves the
    constructed object alive in memory that everyone treats as uninitialised:
    its destructor never runs. *)
Theorem C113_ctor_then_leaks_refuted :
  exists c : ctor, wt c true /\
  let '(o, s') := try_emplace (fun _ => false) c [0] fresh_st in
  o = OErr 7 /\ mem s' [0] = Some 0 /\ history 0 (log s') = [EInit [0] 0].
Proof.
  exists (CThen (CMove TLeaf) (FErr 7)). split.
  - constructor; [constructor|discriminate].
  - vm_compute. auto 10.
Qed.
Print Assumptions C113_ctor_then_leaks_refuted.

(** A fallback constructor then overwrites the live pinned object: the pin
    guarantee (memory is not reused before the destructor ran) is broken from
    safe code. *)
Theorem C113_fallback_overwrites_live_object_refuted :
  exists c : ctor, wt c false /\
  let '(o, s') := run (fun _ => false) c [0] fresh_st in
  o = OOk /\ history 0 (log s') = [EInit [0] 0; EClobber [0] 0].
Proof.
  exists (COrElse (CThen (CMove TLeaf) (FErr 7)) (fun _ => Some (CMove TLeaf))). split.
  - apply wt_orelse with (fe := true).
    + constructor; [constructor|discriminate].
    + intros e o [= <-]. split; [constructor|reflexivity].
  - vm_compute. auto 10.
Qed.
Print Assumptions C113_fallback_overwrites_live_object_refuted.

(** A struct whose second field's constructor panics inside an [or_else]. *)
Definition demo_struct : ctor :=
  CStruct [TLeaf; TStruct [TLeaf; TLeaf]; TLeaf]
    [(1, CStruct [TLeaf; TLeaf] [(0, CMove TLeaf); (1, CFn TLeaf false)]);
     (0, CUnwrap (CThen (CMove TLeaf) FOk));
     (2, CExpect (COrElse (CError TLeaf 3) (fun e => if e =? 3 then Some (CUnreachable TLeaf) else None)))].
Example C113_demo : wt demo_struct false /\ no_failing_then demo_struct /\
  let '(o, s') := run (fun _ => false) demo_struct [9] fresh_st in
  o = OPanic /\ next s' = 3 /\
  log s' = [EInit [9;1;0] 0; EInit [9;1;1] 1; EInit [9;0] 2;
            EDrop [9;1;0] 0; EDrop [9;1;1] 1; EDrop [9;0] 2].
Proof.
  split; [|split; [|vm_compute; auto]].
  - apply wt_struct.
    + apply (perm_swap 0 1 [2]).
    + intros i c I. cbn in I. destruct I as [[= <- <-]|[[= <- <-]|[[= <- <-]|[]]]].
      * split; [|reflexivity]. apply wt_struct; [apply Permutation_refl|].
        intros i c I. cbn in I. destruct I as [[= <- <-]|[[= <- <-]|[]]]; split; constructor.
      * split; [|reflexivity]. apply wt_unwrap with (fe := true). constructor; [constructor|discriminate].
      * split; [|reflexivity]. apply wt_expect with (fe := true).
        apply wt_orelse with (fe := true); [constructor|].
        intros e o. destruct (e =? 3); intros [= <-]. split; [constructor|reflexivity].
  - apply nf_struct. intros i c I. cbn in I. destruct I as [[= <- <-]|[[= <- <-]|[[= <- <-]|[]]]].
    + apply nf_struct. intros i c I. cbn in I. destruct I as [[= <- <-]|[[= <- <-]|[]]]; constructor.
    + repeat constructor.
    + constructor. constructor; [constructor|]. intros e o. destruct (e =? 3); intros [= <-]. constructor.
Qed.

(** * C114: [ctor!] builds the fields in the order written; if one field's
    constructor panics, exactly the fields already built are destroyed, in that
    same order, and no later field is touched. *)
Theorem C114_ctor_macro_success :
  forall (dp : nat -> bool) ts fs p s s',
  builds dp p fs s s' -> run dp (CStruct ts fs) p s = (OOk, s').
Proof.
  intros dp ts fs p s s' B. rewrite run_struct.
  assert (K := builds_run dp p fs s s' B [] []). rewrite app_nil_r in K. cbn [map] in K. rewrite K. reflexivity.
Qed.
Print Assumptions C114_ctor_macro_success.

Theorem C114_ctor_macro_unwinds_in_order :
  forall (dp : nat -> bool) ts fs1 i c fs2 p s sa s1,
  (forall ob, dp ob = false) ->
  wt (CStruct ts (fs1 ++ (i, c) :: fs2)) false ->
  builds dp p fs1 s sa -> run dp c (field p i) sa = (OPanic, s1) ->
  exists es s', run dp (CStruct ts (fs1 ++ (i, c) :: fs2)) p s = (OPanic, s') /\
    log s' = log s1 ++ es /\
    drops s1 (flat_map (fun x => leaves (out (snd x)) (field p (fst x))) fs1) es.
Proof.
  intros dp ts fs1 i c fs2 p s sa s1 Q W B E. inversion W as [| | | | | | | | | | | |ts' fs' HP HW]; subst.
  assert (ND : NoDup (map fst (fs1 ++ (i, c) :: fs2))).
  { eapply Permutation_NoDup; [symmetry; eauto|]. apply seq_NoDup. }
  rewrite run_struct. assert (K := builds_run dp p fs1 s sa B ((i, c) :: fs2) []). cbn [map app] in K.
  rewrite K. cbn [run_fields_with]. rewrite E.
  assert (ND1 : NoDup (map fst fs1)).
  { rewrite map_app in ND. eapply NoDup_app_l; eauto. }
  assert (HW1 : forall j d, In (j, d) fs1 -> wt d false).
  { intros j d I. apply (HW j d). apply in_app_iff. auto. }
  destruct (builds_init dp p fs1 s sa B ND1 HW1) as [_ I1].
  destruct (HW i c) as [Wc _]; [apply in_app_iff; right; now left|].
  destruct (run_basic dp c _ _ _ _ _ Wc E) as (F & _ & _).
  destruct (unwind_log dp Q p fs1 s1 ND1) as (es & s' & U & L & D).
  - intros x Ix. apply init_frame_other with (i := i) (s := sa); auto.
    intros ->. rewrite map_app in ND. apply NoDup_remove_2 in ND. apply ND.
    apply in_app_iff. left. exact (in_map fst _ _ Ix).
  - exists es, s'. auto.
Qed.
Print Assumptions C114_ctor_macro_unwinds_in_order.

(** * C115: every combinator returns what the [Result] method it is documented
    after would return, for all nestings. *)
Theorem C115_combinators_act_like_result :
  forall (dp : nat -> bool) c p s o s' r,
  run dp c p s = (o, s') -> o <> OAbort ->
  (outcome_res o = Some r <-> gives c r).
Proof.
  intros dp c p s o s' r E N. split.
  - eapply run_reads; eauto.
  - intros G. eapply gives_run; eauto.
Qed.
Print Assumptions C115_combinators_act_like_result.

(** The process aborts only if some destructor panics. *)
Theorem C115_no_abort :
  forall (dp : nat -> bool) c p s, (forall ob, dp ob = false) -> fst (run dp c p s) <> OAbort.
Proof. intros dp c p s Q. now apply run_quiet. Qed.
Print Assumptions C115_no_abort.

Example C115_demo :
  gives (COrElse (CMapErr (CThen (CMove TLeaf) (FErr 1)) (fun e => Some (e + 1)))
           (fun e => if e =? 2 then Some (CUnwrapOrDefault (CError TLeaf 5) (CMove TLeaf)) else None)) ok.
Proof.
  eapply gi_orelse with (e := 2).
  - apply (gi_map (CThen (CMove TLeaf) (FErr 1)) (fun e => Some (e + 1)) (err 1)).
    apply (gi_then (CMove TLeaf) (FErr 1) ok). constructor.
  - reflexivity.
  - eapply gi_uod; constructor.
Qed.

(** * C116: a [Slot] knows whether it holds a value, through every history of
    [clear], [replace], [try_replace] whatever the constructors do; and when it
    is dropped every object ever constructed in it has been destroyed exactly
    once.  Full claim: also when a destructor panics; refuted below. *)
Theorem C116_slot_history_partial :
  forall (dp : nat -> bool) t p ops s o f s',
  (forall ob, dp ob = false) -> Forall (slot_op_ok t) ops ->
  sound s -> vacant t p s ->
  slot_run dp t p ops false s = (o, f, s') ->
  (if as_opt f then initialized t p s' else vacant t p s') /\
  exists s'', slot_drop dp t p f s' = (OOk, false, s'') /\
    sound s'' /\ vacant t p s''.
Proof.
  intros dp t p ops s o f s' Q F SD V E.
  destruct (slot_run_inv dp Q t p ops false s o f s' F (conj SD V) E) as [[SD' V'] _].
  split; [exact V'|]. destruct (clear_inv dp Q t p f s' (conj SD' V')) as (s'' & E'' & SD'' & V'').
  exists s''. auto.
Qed.
Print Assumptions C116_slot_history_partial.

(** [replace] leaves the slot full exactly when the constructor succeeded. *)
Theorem C116_slot_full_iff_replaced_partial :
  forall (dp : nat -> bool) t p c f s o f' s',
  (forall ob, dp ob = false) -> slot_op_ok t (SReplace c) -> sound s ->
  (if as_opt f then initialized t p s else vacant t p s) ->
  try_replace dp t p c f s = (o, f', s') -> (as_opt f' = true <-> o = OOk).
Proof.
  intros dp t p c f s o f' s' Q OK SD V E.
  destruct (slot_step_inv dp Q t p (SReplace c) f s o f' s' OK (conj SD V) E) as (_ & _ & K).
  now apply (K c).
Qed.
Print Assumptions C116_slot_full_iff_replaced_partial.

(** If the destructor of the held value panics, the slot still believes that it
    holds a value, and destroys it a second time when it is dropped. *)
Theorem C116_slot_destructor_panic_drops_twice_refuted :
  exists (dp : nat -> bool) (ops : list slot_op), Forall (slot_op_ok TLeaf) ops /\
  let '(_, f, s1) := slot_run dp TLeaf [0] ops false fresh_st in
  let '(_, _, s2) := slot_drop dp TLeaf [0] f s1 in
  as_opt f = true /\ mem s1 [0] = None /\ In (EDropDead [0]) (log s2).
Proof.
  exists (fun _ => true), [SReplace (CMove TLeaf); SClear]. split.
  - constructor; [|constructor; [constructor|constructor]].
    apply so_replace with (fe := false); [constructor|constructor|reflexivity].
  - vm_compute. auto 10.
Qed.
Print Assumptions C116_slot_destructor_panic_drops_twice_refuted.

Example C116_demo :
  let ops := [SReplace (CMove TLeaf); SReplace (CError TLeaf 4); SReplace (CFn TLeaf true);
              SReplace (CMove TLeaf); SReplace (CMove TLeaf)] in
  let '(_, f, s1) := slot_run (fun _ => false) TLeaf [0] ops false fresh_st in
  f = true /\ log s1 = [EInit [0] 0; EDrop [0] 0; EInit [0] 1; EDrop [0] 1; EInit [0] 2].
Proof. vm_compute. auto 10. Qed.

(** * C117: owners.  A value emplaced in a [Box], [Rc] or [Arc] is destroyed
    exactly once, when its owner is, whichever destructors panic. *)
Theorem C117_emplaced_value_destroyed_once_partial :
  forall (dp : nat -> bool) c fe p s s1 o2 s2,
  wt c fe -> no_failing_then c -> sound s -> vacant (out c) p s ->
  try_emplace dp c p s = (OOk, s1) -> drop_owner dp (out c) p s1 = (o2, s2) -> o2 <> OAbort ->
  sound s2 /\ vacant (out c) p s2 /\
  forall ob, next s <= ob < next s2 ->
    exists q, history ob (log s2) = [EInit q ob; EDrop q ob].
Proof.
  intros dp c fe p s s1 o2 s2 W NF SD V E1 E2 N.
  assert (R : run dp c p s = (OOk, s1)).
  { revert E1. unfold try_emplace. destruct (run dp c p s) as [[] s']; congruence. }
  destruct (run_clean dp c _ _ _ _ _ W NF SD V R) as [SD1 _].
  destruct (run_basic dp c _ _ _ _ _ W R) as (_ & I1 & _). specialize (I1 eq_refl).
  revert E2. unfold drop_owner. assert (EV2 := ev_drop dp (out c) false p s1).
  destruct (drop_val dp false (out c) p s1) as [d s2'] eqn:E. cbn [snd] in EV2. intros E2.
  destruct (drop_val_ok _ _ _ _ _ _ _ E) as (_ & _ & C & D & _).
  assert (ND : d <> DAbort /\ s2' = s2) by (destruct d; injection E2 as <- <-; split; congruence).
  destruct ND as [ND ->]. specialize (C SD1 I1). specialize (D I1 ND).
  split; [auto|]. split; [auto|]. intros ob [L1 L2].
  assert (EV1 := ev_run dp c fe p s W). rewrite R in EV1. cbn [snd] in EV1.
  apply (vacant_dead (out c) p s s2); auto. eapply ev_trans; eauto.
Qed.
Print Assumptions C117_emplaced_value_destroyed_once_partial.

(** [reconstruct] destroys the old value completely before building the new
    one; it never returns or unwinds with the place uninitialised because of
    the constructor: if that panics the process dies. *)
Theorem C117_reconstruct_partial :
  forall (dp : nat -> bool) c p s o s',
  (forall ob, dp ob = false) -> wt c false -> no_failing_then c ->
  sound s -> initialized (out c) p s ->
  reconstruct dp c p s = (o, s') ->
  (o = OOk \/ o = OAbort) /\
  (o = OOk -> sound s' /\ initialized (out c) p s' /\
    (forall q ob, leaf_of (out c) p q -> mem s q = Some ob ->
       history ob (log s') = [EInit q ob; EDrop q ob]) /\
    (forall q ob, leaf_of (out c) p q -> mem s' q = Some ob -> next s <= ob)).
Proof.
  intros dp c p s o s' Q W NF SD I E. revert E. unfold reconstruct.
  assert (QD := drop_quiet dp Q (out c) false p s). assert (EV1 := ev_drop dp (out c) false p s).
  destruct (drop_val dp false (out c) p s) as [d s1] eqn:E1. cbn in QD. subst d. cbn [snd] in EV1.
  destruct (drop_val_ok _ _ _ _ _ _ _ E1) as (_ & NX & C & D & _).
  specialize (C SD I). specialize (D I ltac:(discriminate)).
  assert (EV2 := ev_run dp c false p s1 W).
  destruct (run dp c p s1) as [o2 s2] eqn:E2. cbn [snd] in EV2.
  destruct (run_basic dp c _ _ _ _ _ W E2) as (_ & I2 & _).
  destruct (run_clean dp c _ _ _ _ _ W NF C D E2) as [SD2 _].
  intros E. split; [destruct o2; injection E as <- <-; auto|].
  intros ->. destruct o2; try discriminate. injection E as <-.
  split; [auto|]. split; [auto|]. split.
  - intros q ob L M. assert (Lt := sound_live_lt _ _ _ SD M).
    assert (HQ : forall q', mem s q' = Some ob -> q' = q).
    { destruct (so_old _ SD ob Lt) as [p0 _ HM | p0 _ HM]; [|now destruct (HM q)].
      intros q' M'. apply HM in M, M'. congruence. }
    assert (Lt2 : ob < next s2) by (destruct EV2; lia).
    assert (ND : forall q', mem s2 q' <> Some ob).
    { intros q' M'. destruct (ev_new _ _ _ EV2 _ _ M') as [M1|G]; [|lia].
      destruct (ev_new _ _ _ EV1 _ _ M1) as [M0|G]; [|lia].
      apply HQ in M0. subst q'. rewrite (D q L) in M1. discriminate. }
    destruct (so_old _ SD2 ob Lt2) as [p0 HH HM | p0 HH HM].
    + exfalso. apply (ND p0). now apply HM.
    + replace q with p0; auto.
      assert (HS : history ob (log s) = [EInit q ob]).
      { destruct (so_old _ SD ob Lt) as [p1 HH1 HM1 | p1 HH1 HM1]; [|now destruct (HM1 q)].
        rewrite (proj1 (HM1 q) M). exact HH1. }
      assert (PX : exists l, log s2 = log s ++ l).
      { destruct (drop_log dp Q (out c) false p s I) as (es & L1 & _). rewrite E1 in L1. cbn in L1.
        destruct (run_log_grows dp c p s1) as [l2 L2]. rewrite E2 in L2. cbn in L2.
        exists (es ++ l2). rewrite L2, L1. now rewrite app_assoc. }
      destruct PX as [l PX]. rewrite PX, history_app, HS in HH. cbn in HH. congruence.
  - intros q ob L M. destruct (ev_new _ _ _ EV2 _ _ M) as [M1|G]; [|lia].
    rewrite (D q L) in M1. discriminate.
Qed.
Print Assumptions C117_reconstruct_partial.

(** If the old value's destructor panics, [reconstruct] unwinds with the place
    uninitialised, and whoever owns the place destroys it again. *)
Theorem C117_reconstruct_destructor_panic_refuted :
  exists dp : nat -> bool,
  let '(_, s1) := try_emplace dp (CMove TLeaf) [0] fresh_st in
  let '(o2, s2) := reconstruct dp (CMove TLeaf) [0] s1 in
  let '(_, s3) := drop_owner dp TLeaf [0] s2 in
  o2 = OPanic /\ mem s2 [0] = None /\ In (EDropDead [0]) (log s3).
Proof. exists (fun _ => true). vm_compute. auto 10. Qed.
Print Assumptions C117_reconstruct_destructor_panic_refuted.

Example C117_demo :
  let '(_, s1) := try_emplace (fun _ => false) (CMove (TStruct [TLeaf; TLeaf])) [0] fresh_st in
  let '(o, s2) := reconstruct (fun _ => false)
     (CStruct [TLeaf; TLeaf] [(1, CMove TLeaf); (0, CMove TLeaf)]) [0] s1 in
  o = OOk /\ log s2 = [EInit [0;0] 0; EInit [0;1] 1; EDrop [0;0] 0; EDrop [0;1] 1;
                       EInit [0;1] 2; EInit [0;0] 3].
Proof. vm_compute. auto 10. Qed.

(** A fresh program is a sound starting point. *)
Example fresh_sound : forall t p, sound fresh_st /\ vacant t p fresh_st.
Proof.
  intros t p. split; [|now intros q _]. constructor; cbn.
  - intros o L. lia.
  - intros o _. split; [reflexivity|discriminate].
  - intros q [].
Qed.
