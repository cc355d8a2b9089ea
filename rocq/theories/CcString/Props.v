(** * C135–C137: strings, string views and unique pointers across the language border *)
From Coq Require Import List Arith Bool Lia.
Import ListNotations.
From Verif Require Import CcString.Model CcString.Spec CcString.Proofs CcString.Proofs2.

(** ** C135 *)

(** Programs over owned strings behave as if strings were values, whatever a move leaves
    behind: no undefined behaviour, the outputs are the specified ones, each variable holds
    the specified bytes, and every heap string has exactly one owner. *)
Theorem C135_owned_strings_are_values : forall leftover l s' outs,
  srun sstart l s' outs ->
  exists w' outs',
    run leftover start l = Some (w', outs') /\
    Forall2 agrees outs' outs /\
    owned_once w' /\
    (forall v b, srs s' v = Some b <-> exists a, rs w' v = Some a /\ heap w' a = Some b) /\
    (forall k b, swire s' k = Some b <-> exists a, wire w' k = Some a /\ heap w' a = Some b) /\
    (forall c b, scc s' c = Some (Known b) -> cc w' c = Some b).
Proof.
  intros leftover l s' outs R.
  destruct (sim_run leftover l _ _ _ _ sim_start R) as (w' & ys & E & S & A).
  exists w', ys. split; [exact E|]. split; [exact A|]. split; [exact (sim_owned _ _ S)|].
  pose proof S as [I _].
  split; [|split].
  - intros v b. split; [apply (rs_some _ _ _ _ S)|].
    intros (a & E1 & E2). destruct (inv_live _ _ _ _ (ByRust v) a I E1) as (b' & E3 & E4).
    cbn in E3. congruence.
  - intros v b. split; [apply (wire_some _ _ _ _ S)|].
    intros (a & E1 & E2). destruct (inv_live _ _ _ _ (ByWire v) a I E1) as (b' & E3 & E4).
    cbn in E3. congruence.
  - intros c b. apply (cc_known _ _ _ _ S).
Qed.
Print Assumptions C135_owned_strings_are_values.

(** Nothing leaks: when no Rust variable and no buffer holds a string, none is on the heap. *)
Theorem C135_no_string_leaks : forall leftover l s' outs w' outs',
  srun sstart l s' outs ->
  (forall v, srs s' v = None) -> (forall k, swire s' k = None) ->
  run leftover start l = Some (w', outs') ->
  forall a, heap w' a = None.
Proof.
  intros leftover l s' outs w' outs' R N1 N2 E a.
  destruct (C135_owned_strings_are_values leftover l s' outs R)
    as (w2 & o2 & E2 & _ & (_ & Ow & _) & V & W & _).
  rewrite E in E2. injection E2 as -> ->.
  destruct (heap w2 a) as [b|] eqn:Hb; [|reflexivity].
  destruct (Ow a) as ([v|k] & Q); [congruence| |]; cbn in Q.
  - assert (srs s' v = Some b) by (apply V; eauto). congruence.
  - assert (swire s' k = Some b) by (apply W; eauto). congruence.
Qed.
Print Assumptions C135_no_string_leaks.

(** A string made in Rust, cloned, sent to C++ both ways, changed there and sent back. *)
Definition trip : list op :=
  [RFrom 0 [72; 105]; RClone 0 1; REq 0 1; REncode 0 0; CDecode 0 0; CBytes 0; CWrite 0 [72; 111];
   CPass 0 2; CBytes 0; CDestroy 0; RBytes 2; REq 1 2; RReturn 1 1; CBytes 1; CEncode 1 1; RDecode 1 3;
   RDrop 2; RDrop 3].
Example C135_trip : exists s' outs,
  srun sstart trip s' outs /\ (forall v, srs s' v = None) /\ (forall k, swire s' k = None) /\
  outs = [SNothing; SNothing; SBool ([72; 105] = [72; 105]); SNothing; SNothing; SBytes [72; 105];
          SNothing; SNothing; SAny; SNothing; SBytes [72; 111]; SBool ([72; 105] = [72; 111]); SNothing;
          SBytes [72; 105]; SNothing; SNothing; SNothing; SNothing].
Proof.
  eexists. eexists. split.
  - unfold trip.
    do 8 (eapply sr_cons; [econstructor; reflexivity|cbn [srs scc swire]]).
    eapply sr_cons; [apply s_cany; reflexivity|cbn [srs scc swire]].
    do 9 (eapply sr_cons; [econstructor; reflexivity|cbn [srs scc swire]]).
    apply sr_nil.
  - split; [|split].
    + intros v. cbn. unfold put, take. destruct v as [|[|[|[|v]]]]; reflexivity.
    + intros v. cbn. unfold put, take. destruct v as [|[|v]]; reflexivity.
    + reflexivity.
Qed.
(** Without the discipline the model has the bugs: decoding a buffer twice, say, would free
    the string twice. *)
Example C135_needs_discipline :
  step (fun _ => []) (World (fun _ => None) 1 (fun v => Some 0) (fun _ => None) (fun _ => None)) (RDrop 0)
  = None.
Proof. reflexivity. Qed.

(** ** C136 *)

(** From Rust: length kept, the pointer kept unless empty, and an empty slice becomes the
    null view (which C++'s default string_view is). *)
Theorem C136_slice_to_view : forall p n,
  v_size (raw_of_slice (SlicePtr p n)) = n /\
  raw_len (raw_of_slice (SlicePtr p n)) = n /\
  (n <> 0 -> v_data (raw_of_slice (SlicePtr p n)) = p) /\
  (n = 0 -> v_data (raw_of_slice (SlicePtr p n)) = 0).
Proof.
  intros p n. unfold raw_of_slice, raw_len, get_raw_parts. cbn.
  destruct (Nat.eqb_spec n 0) as [->|N]; cbn; repeat split; intros; try lia; congruence.
Qed.
Print Assumptions C136_slice_to_view.

(** From C++: every valid view becomes a slice that is never null, of the same length, with
    the same pointer unless that was null; the assertion fails for invalid views only. *)
Theorem C136_view_to_slice : forall d n,
  (valid_view d n <-> slice_of_raw (Raw d n) <> None) /\
  (forall s, slice_of_raw (Raw d n) = Some s ->
     s_len s = n /\ s_ptr s <> 0 /\ (d <> 0 -> s_ptr s = d)).
Proof.
  intros d n. unfold slice_of_raw, raw_len, valid_view. cbn [v_data v_size].
  replace (d + n - d) with n by lia.
  destruct (Nat.eqb_spec d 0) as [->|Nd]; [destruct (Nat.eqb_spec n 0) as [->|Nn]|].
  - split; [split; [discriminate|reflexivity]|]. intros s E. injection E as <-. cbn.
    unfold dangling. repeat split; lia.
  - split; [split; [intros H; exfalso; apply Nn; apply H; reflexivity|congruence]|discriminate].
  - split; [split; [discriminate|lia]|]. intros s E. injection E as <-. cbn. auto.
Qed.
Print Assumptions C136_view_to_slice.

(** So the round trip of a (non-null) Rust slice gives a non-null slice of the same bytes. *)
Theorem C136_round_trip : forall p n, p <> 0 ->
  exists q, slice_of_raw (raw_of_slice (SlicePtr p n)) = Some (SlicePtr q n) /\
    q <> 0 /\ (n <> 0 -> q = p).
Proof.
  intros p n Hp. destruct (C136_slice_to_view p n) as (E & _ & K & Z).
  destruct (raw_of_slice (SlicePtr p n)) as [d m] eqn:R. cbn [v_data v_size] in *. subst m.
  destruct (C136_view_to_slice d n) as (V & F).
  assert (valid_view d n) by (unfold valid_view; destruct n; [reflexivity|intros ->; rewrite K in Hp; lia]).
  apply V in H. destruct (slice_of_raw (Raw d n)) as [[q k]|]; [|congruence].
  destruct (F _ eq_refl) as (L & Q & D). cbn in L, Q, D. subst k.
  exists q. split; [reflexivity|]. split; [exact Q|]. intros Hn. rewrite <- (K Hn). apply D.
  rewrite (K Hn). exact Hp.
Qed.
Print Assumptions C136_round_trip.

(** And a C++ view survives a trip through Rust: same size and, unless empty, same data. *)
Theorem C136_round_trip_from_cpp : forall d n s, slice_of_raw (Raw d n) = Some s ->
  v_size (raw_of_slice s) = n /\ (n <> 0 -> raw_of_slice s = Raw d n).
Proof.
  intros d n s E. destruct (C136_view_to_slice d n) as (V & F). destruct (F _ E) as (L & Q & D).
  destruct s as [q k]. cbn in L, Q, D. subst k.
  destruct (C136_slice_to_view q n) as (E1 & _ & K & _). split; [exact E1|].
  intros Hn. assert (Hd : d <> 0).
  { assert (W : valid_view d n) by (apply V; congruence). unfold valid_view in W. auto. }
  destruct (raw_of_slice (SlicePtr q n)) as [d' n']. cbn in *. rewrite (K Hn), (D Hd), E1. reflexivity.
Qed.
Print Assumptions C136_round_trip_from_cpp.
Example C136_example : slice_of_raw (raw_of_slice (SlicePtr 4096 5)) = Some (SlicePtr 4096 5)
  /\ raw_of_slice (SlicePtr 1 0) = Raw 0 0 /\ slice_of_raw (Raw 0 0) = Some (SlicePtr 1 0)
  /\ slice_of_raw (Raw 0 3) = None.
Proof. repeat split. Qed.

(** ** C137 *)

(** Programs over unique_ptr never meet undefined behaviour; every object made is either held by
    exactly one pointer, alive and untouched, or was destroyed once and then freed once, with the
    size and alignment of its type, and then nobody holds it. *)
Theorem C137_unique_ptr_ends_objects_once_partial : forall size align l,
  utyped (fun _ => false) (fun _ => false) l ->
  exists w' outs, urun size align ustart l = Some (w', outs) /\
    unext w' = objects_made l /\
    forall a, a < unext w' ->
      (untouched (ulog w') a /\ exists x, uowns w' x a /\ forall y, uowns w' y a -> y = x) \/
      (ended_once size align (ulog w') a /\ forall y, ~ uowns w' y a).
Proof.
  intros size align l T.
  destruct (urun_ok size align l _ _ _ (usim_start size align) T) as (w' & ys & P & R & E & S & N).
  exists w', ys. split; [exact E|]. split; [rewrite N; cbn; lia|].
  destruct S as ((I1 & I2 & I3 & I4 & I5) & _).
  intros a Ha. destruct (I5 a Ha) as [[L U]|[Z En]].
  - left. split; [exact U|]. destruct (I3 a L) as (x & Ex). exists x.
    split; [apply uown_iff; exact Ex|]. intros y Ey. apply uown_iff in Ey. exact (I2 _ _ _ Ey Ex).
  - right. split; [exact En|]. intros y Ey. apply uown_iff in Ey. rewrite (I1 _ _ Ey) in Z. discriminate.
Qed.
Print Assumptions C137_unique_ptr_ends_objects_once_partial.

(** After [release], [get] gives null and dropping touches nothing. *)
Theorem C137_release_gives_up_ownership : forall size align w p r w1 y,
  ustep size align w (URelease p r) = Some (w1, y) ->
  ustep size align w1 (UGet p) = Some (w1, UPtr None) /\
  (exists w2, ustep size align w1 (UDrop p) = Some (w2, UNothing) /\
     ulog w2 = ulog w /\ (forall a, cells w2 a = cells w a)) /\
  (forall a, ptrs w p = Some (Some a) -> raws w1 r = Some (Some a)).
Proof.
  intros size align w p r w1 y E. cbn in E.
  destruct (ptrs w p) as [o|] eqn:Ep; [|discriminate].
  destruct (raws w r) eqn:Er; [discriminate|]. injection E as <- <-.
  cbn. unfold up. rewrite !Nat.eqb_refl. split; [reflexivity|]. split.
  - eexists. split; [reflexivity|]. split; [reflexivity|]. intros a. reflexivity.
  - intros a K. injection K as ->. reflexivity.
Qed.
Print Assumptions C137_release_gives_up_ownership.

(** If a destructor panics, the memory is not freed, and then nobody can: the object is
    destroyed, never freed, and held by nobody ([Box] frees in that case). *)
Theorem C137_panicking_destructor_leaks_refuted : forall size align,
  exists w' outs, urun size align ustart [UNewObject 0; UAdopt 0 0; UDropPanics 0] = Some (w', outs) /\
    In (Destroyed 0) (ulog w') /\ (forall s l, ~ In (Freed 0 s l) (ulog w')) /\
    (forall y, ~ uowns w' y 0) /\ cells w' 0 <> None.
Proof.
  intros. eexists. eexists. split; [reflexivity|]. cbn.
  split; [auto|]. split; [intros s l [H|[]]; discriminate|]. split; [|discriminate].
  intros [p|r]; cbn; unfold up; [destruct (Nat.eqb p 0)|destruct (Nat.eqb r 0)]; discriminate.
Qed.
Print Assumptions C137_panicking_destructor_leaks_refuted.

Example C137_typed :
  utyped (fun _ => false) (fun _ => false)
    [UNewObject 0; UNewObject 1; UAdopt 0 0; UAdopt 1 1; UMove 0 2; URelease 1 1; UUse 2; UDrop 2; UDrop 1].
Proof. repeat (constructor; try reflexivity). Qed.
Example C137_log : forall size align, exists w' outs,
  urun size align ustart
    [UNewObject 0; UNewObject 1; UAdopt 0 0; UAdopt 1 1; UMove 0 2; URelease 1 1; UUse 2; UDrop 2; UDrop 1]
    = Some (w', outs) /\ ulog w' = [Destroyed 0; Freed 0 size align].
Proof.
  intros. eexists. eexists. cbn. unfold cpp_delete. cbn. rewrite !Nat.eqb_refl. cbn.
  split; reflexivity.
Qed.
