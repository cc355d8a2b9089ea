(** C120 (rs::Movable) and C121 (values passed through crubit::Slot). *)
From Coq Require Import List Bool Arith Lia.
From Verif.Movable Require Import Model Spec Proofs.
From Verif.Own Require Import Own.
Import ListNotations.

(** ** C120, C121: every object is destroyed exactly once *)

(** For every T (relocatable or only C++ movable) and every history of
    constructions, moves, copies (also throwing ones), assignments (also to
    self), reads, passes to Rust, returns from Rust and destructions, that
    reads no empty Movable: no uninitialised bytes are used; every T object
    ever constructed is destroyed, or handed to Rust, at most once, and never
    used afterwards; and when all variables are gone, exactly once. *)
Theorem C120_every_object_destroyed_once : forall reloc ops, arun ops <> None ->
  let w := run reloc ops in
  w_fault w = false /\
  (forall o, count_ends ends o (w_log w) <= 1 /\ no_use_after_end ends touches o (w_log w)) /\
  (forall o e, In e (w_log w) -> touches o e = true -> o < w_next w) /\
  ((forall n, w_cells w n = None) -> forall o, o < w_next w -> count_ends ends o (w_log w) = 1).
Proof.
  intros reloc ops H w. subst w. destruct (arun ops) as [a|] eqn:E; [|contradiction].
  pose proof (run_J reloc ops init ainit a J_init E) as K. fold (run reloc ops) in K.
  destruct (inv_meaning _ _ ends_touches _ _ _ (j_inv _ _ K)) as (A & B & C & _).
  split; [apply K|]. split; [exact A|]. split; [exact B|].
  intros L o Ho. apply C; auto. intros n. unfold own. rewrite L. discriminate.
Qed.

(** At every moment the live objects are exactly the values of the non-empty
    variables: an object that was constructed and did not end is held by
    exactly one variable, and that variable is not valueless. *)
Theorem C120_live_objects_are_the_values : forall reloc ops a, arun ops = Some a ->
  let w := run reloc ops in
  forall o, o < w_next w -> count_ends ends o (w_log w) = 0 ->
  exists n, (w_cells w n = Some (CMov (Some o) false) \/ w_cells w n = Some (CPlain o)) /\
            a_cells a n <> Some (AMov None) /\
            (forall m, w_cells w m = Some (CMov (Some o) false) \/ w_cells w m = Some (CPlain o) -> m = n).
Proof.
  intros reloc ops a E w o Ho Hc.
  pose proof (run_J reloc ops init ainit a J_init E) as K. fold (run reloc ops) in K. fold w in K.
  destruct (inv_meaning _ _ ends_touches _ _ _ (j_inv _ _ K)) as (_ & _ & C & _ & U).
  assert (X : forall m, own w m = Some o <->
     w_cells w m = Some (CMov (Some o) false) \/ w_cells w m = Some (CPlain o)).
  { intros m. unfold own. destruct (w_cells w m) as [[[x|] []|x]|]; cbn; split; intros; intuition congruence. }
  destruct (j_inv _ _ K o) as [[(A & _ & n & Hn & _)|[(A & B & _)|(A & _)]] _]; [|lia|lia].
  exists n. split; [apply X; exact Hn|]. split.
  - intros Q. pose proof (j_cells _ _ K n) as R. rewrite Q in R.
    apply X in Hn. destruct Hn as [Hn|Hn]; rewrite Hn in R; cbn in R; [discriminate|contradiction].
  - intros m Hm. apply X in Hm. eapply U; eauto.
Qed.

(** ** C120: Movable is an optional value *)

(** What the program reads, what valueless_after_move tells it, and what Rust
    receives, are those of the specification, in which a Movable is an
    optional value, moving takes it and leaves nothing, and assigning to
    itself changes nothing. *)
Theorem C120_movable_is_an_optional_value : forall reloc ops a, arun ops = Some a ->
  flat_map observe (w_log (run reloc ops)) = a_obs a.
Proof.
  intros reloc ops a E.
  pose proof (run_J reloc ops init ainit a J_init E) as K. apply K.
Qed.

(** valueless_after_move is true exactly for the Movables without a value. *)
Theorem C120_valueless_flag_is_exact : forall reloc ops a n v vl, arun ops = Some a ->
  w_cells (run reloc ops) n = Some (CMov v vl) ->
  (vl = true <-> a_cells a n = Some (AMov None)) /\
  (vl = false <-> exists p, a_cells a n = Some (AMov (Some p))).
Proof.
  intros reloc ops a n v vl E Hn.
  pose proof (run_J reloc ops init ainit a J_init E) as K. fold (run reloc ops) in K.
  pose proof (j_cells _ _ K n) as R. rewrite Hn in R.
  destruct (a_cells a n) as [[[p|]|p]|]; cbn in R; try contradiction.
  - destruct R as [-> _]. split; split; try congruence. eauto. 
  - subst vl. split; split; try congruence. intros [p Hp]. discriminate.
Qed.

(** ** C121: values cross the boundary once *)

(** Passing a variable to Rust hands over its value in an object of its own;
    the variable keeps an object it will destroy itself. *)
Theorem C121_pass_hands_over_the_value : forall reloc ops a n p, arun ops = Some a ->
  a_cells a n = Some (APlain p) ->
  let w := run reloc ops in let w' := run reloc (ops ++ [PPass n]) in
  exists o o', w_cells w n = Some (CPlain o) /\ w_cells w' n = Some (CPlain o) /\ o <> o' /\
    w_log w' = w_log w ++ [EvNew o'; EvUse o; EvToRust o' p] /\
    (forall e, In e (w_log w) -> touches o' e = false).
Proof.
  intros reloc ops a n p E Hn w w'.
  pose proof (run_J reloc ops init ainit a J_init E) as K. fold (run reloc ops) in K. fold w in K.
  pose proof (j_cells _ _ K n) as R. rewrite Hn in R.
  destruct (w_cells w n) as [[v vl|o]|] eqn:Wn; cbn in R; try contradiction.
  assert (Lt := own_lt _ _ _ _ K (own_plain _ _ _ Wn)).
  assert (Ew : w' = p_pass w o).
  { unfold w', run. rewrite fold_left_app. cbn [fold_left]. fold (run reloc ops). fold w.
    cbn [step]. rewrite Wn. reflexivity. }
  exists o, (w_next w). split; [reflexivity|]. rewrite Ew. unfold p_pass. nrm.
  split; [exact Wn|]. split; [lia|]. split.
  - rewrite R, <- !app_assoc. reflexivity.
  - intros e Ie. destruct (touches (w_next w) e) eqn:T; auto.
    destruct (inv_meaning _ _ ends_touches _ _ _ (j_inv _ _ K)) as (_ & B & _).
    specialize (B _ _ Ie T). lia.
Qed.

(** A value returned by Rust ends up in the variable, and no other object
    survives the call. *)
Theorem C121_return_brings_the_value : forall reloc ops a n p, arun ops = Some a ->
  a_cells a n = None ->
  let w := run reloc ops in let w' := run reloc (ops ++ [PReturn n p]) in
  exists o, w_cells w' n = Some (CPlain o) /\ w_pay w' o = p /\
    (forall x, w_next w <= x -> x < w_next w' -> x <> o -> count_ends ends x (w_log w') = 1).
Proof.
  intros reloc ops a n p E Hn w w'.
  pose proof (run_J reloc ops init ainit a J_init E) as K. fold (run reloc ops) in K. fold w in K.
  assert (Wn := cell_none _ _ _ K Hn).
  assert (Ew : w' = p_return reloc w n p).
  { unfold w', run. rewrite fold_left_app. cbn [fold_left]. fold (run reloc ops). fold w.
    cbn [step]. rewrite Wn. reflexivity. }
  assert (E' : arun (ops ++ [PReturn n p]) = Some (aset a n (Some (APlain p)))).
  { unfold arun in *. clear - E Hn. revert E. generalize ainit. induction ops as [|x r IH]; intros b E; cbn in *.
    - injection E as ->. rewrite Hn. reflexivity.
    - destruct (astep b x); [auto|discriminate]. }
  pose proof (run_J reloc _ init ainit _ J_init E') as K'. fold (run reloc (ops ++ [PReturn n p])) in K'. fold w' in K'.
  pose proof (j_cells _ _ K' n) as R. unfold aset in R at 1. cbn [a_cells] in R. rewrite Nat.eqb_refl in R.
  destruct (w_cells w' n) as [[v vl|o]|] eqn:Wn'; cbn in R; try contradiction.
  exists o. split; [reflexivity|]. split; [exact R|].
  destruct (inv_meaning _ _ ends_touches _ _ _ (j_inv _ _ K')) as (_ & _ & C & _).
  intros x L1 L2 Nx. apply C; auto. intros m Hm.
  destruct (Nat.eq_dec m n) as [->|Nm].
  - rewrite (own_plain _ _ _ Wn') in Hm. congruence.
  - assert (own w m = Some x).
    { unfold own in *. rewrite <- Hm. f_equal. rewrite Ew. unfold p_return.
      destruct reloc; nrm; destruct (Nat.eqb_spec m n); try congruence; reflexivity. }
    pose proof (own_lt _ _ _ _ K H). lia.
Qed.

(** ** The hypotheses are met *)
Definition demo : list op :=
  [ONew 0 5; OTake 1 6; OMoveAssign 0 0; OMoveAssign 0 1; ORead 0; OFlag 1; OCopyCtor 2 0 false;
   OCopyCtor 3 0 true; OMoveCtor 3 2; OCopyAssign 2 3 false; OCopyAssign 3 1 false; OFlag 3; ORead 2;
   PNew 4 9; PPass 4; PReturn 5 8; ORead 5;
   ODestroy 0; ODestroy 1; ODestroy 2; ODestroy 3; ODestroy 4; ODestroy 5].

Example demo_ok : forall reloc, arun demo <> None /\
  flat_map observe (w_log (run reloc demo)) =
    [ObRead 0 6; ObFlag 1 true; ObFlag 3 true; ObRead 2 6; ObToRust 9; ObRead 5 8] /\
  (forall n, w_cells (run reloc demo) n = None) /\ w_next (run reloc demo) >= 7.
Proof.
  intros reloc. split; [vm_compute; discriminate|]. split; [destruct reloc; reflexivity|].
  split; [|destruct reloc; vm_compute; lia].
  intros n. do 7 (destruct n as [|n]; [destruct reloc; reflexivity|]). destruct reloc; reflexivity.
Qed.

Print Assumptions C120_every_object_destroyed_once.
Print Assumptions C120_live_objects_are_the_values.
Print Assumptions C120_movable_is_an_optional_value.
Print Assumptions C120_valueless_flag_is_exact.
Print Assumptions C121_pass_hands_over_the_value.
Print Assumptions C121_return_brings_the_value.
