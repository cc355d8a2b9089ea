(** C124: a C++ loop over a Rust iterator is the Rust loop. *)
From Coq Require Import List Bool Arith Lia.
From Verif.IterAdapter Require Import Model.
Import ListNotations.

(** ** Specification: Rust's own for loop

    `for x in it { body }` is `loop { match it.next() { None => break, Some(x) => body } }`. *)
Section Spec.
Variables (St A B : Type) (next : St -> option A * St) (body : A -> B -> B * bool).

(* [for_rust s b calls s' b']: the loop started with iterator state [s]
   terminates; [calls] are the results of its calls of next, in order. *)
Inductive for_rust : St -> B -> list (option A) -> St -> B -> Prop :=
  | FR_end s b s' : next s = (None, s') -> for_rust s b [None] s' b
  | FR_break s b x s' b' : next s = (Some x, s') -> body x b = (b', true) ->
      for_rust s b [Some x] s' b'
  | FR_next s b x s' b' calls s2 b2 : next s = (Some x, s') -> body x b = (b', false) ->
      for_rust s' b' calls s2 b2 -> for_rust s b (Some x :: calls) s2 b2.

(* the state after [n] calls, and the result of the [n]-th call (from 0) *)
Fixpoint state_after (s : St) (n : nat) : St :=
  match n with 0 => s | S m => snd (next (state_after s m)) end.
Definition output (s : St) (n : nat) : option A := fst (next (state_after s n)).
End Spec.
Arguments for_rust {St A B}.
Arguments state_after {St A}.
Arguments output {St A}.

Section Proofs.
Variables (St A B : Type) (next : St -> option A * St) (body : A -> B -> B * bool).
Notation world := (world St A).
Notation adapter := (adapter St A).

(* where the state of the adapted iterator is *)
Definition src_state (w : world) (s : source St) : St :=
  match s with SVal _ s => s | SPtr _ v => w_vars _ _ w v end.
(* the adapted iterator moved to [s'] with the given calls of next, and nothing else changed *)
Definition reaches (w : world) (s : source St) (s' : St) (calls : list (option A))
    (w2 : world) (src2 : source St) : Prop :=
  w_calls _ _ w2 = w_calls _ _ w ++ calls /\
  match s with
  | SVal _ _ => src2 = SVal _ s' /\ forall v, w_vars _ _ w2 v = w_vars _ _ w v
  | SPtr _ p => src2 = SPtr _ p /\ w_vars _ _ w2 p = s' /\
                forall v, v <> p -> w_vars _ _ w2 v = w_vars _ _ w v
  end.

Lemma adv_spec w a w' a' : adv _ _ next w a = (w', a') ->
  exists o s', next (src_state w (a_src _ _ a)) = (o, s') /\ a_cur _ _ a' = o /\
  reaches w (a_src _ _ a) s' [o] w' (a_src _ _ a') /\ src_state w' (a_src _ _ a') = s'.
Proof.
  unfold adv, src_next. destruct a as [[s|p] c]; cbn.
  - destruct (next s) as [o s'] eqn:E. intros H. injection H as <- <-. exists o, s'. cbn. 
    repeat split; auto.
  - destruct (next (w_vars _ _ w p)) as [o s'] eqn:E. intros H. injection H as <- <-. exists o, s'. cbn.
    unfold reaches, vupd. cbn. rewrite Nat.eqb_refl. repeat split; auto.
    intros v Hv. apply Nat.eqb_neq in Hv. now rewrite Hv.
Qed.

Lemma reaches_trans w s s1 c1 w1 src1 s2 c2 w2 src2 :
  reaches w s s1 c1 w1 src1 -> reaches w1 src1 s2 c2 w2 src2 -> reaches w s s2 (c1 ++ c2) w2 src2.
Proof.
  unfold reaches. intros [A1 A2] [B1 B2].
  split; [rewrite B1, A1, app_assoc; reflexivity|].
  destruct s as [s|p].
  - destruct A2 as [-> A2]. destruct B2 as [-> B2]. split; auto. intros v. rewrite B2. auto.
  - destruct A2 as (-> & A2 & A3). destruct B2 as (-> & B2 & B3). split; auto. split; auto.
    intros v Hv. rewrite B3; auto.
Qed.

Lemma adv_make w src c : adv _ _ next w (mkA _ _ src c) = make _ _ next w src.
Proof. reflexivity. Qed.

(** Every C++ loop over a fresh adapter that terminates, terminates as the Rust
    loop: the body ran for the same items, in the same order, to the same
    result; `next` was called equally often with the same results; the iterator
    (also one that a pointer refers to) is left in the same state; and the
    adapter tells whether the loop broke or reached the end. *)
Theorem C124_range_for_is_the_rust_loop : forall w src b w1 a1 w2 a2 b2,
  make _ _ next w src = (w1, a1) ->
  for_cpp _ _ next _ body w1 a1 b w2 a2 b2 ->
  exists calls s2, for_rust next body (src_state w src) b calls s2 b2 /\
    reaches w src s2 calls w2 (a_src _ _ a2) /\
    (at_end _ _ a2 = true <-> exists c, calls = c ++ [None]).
Proof.
  intros w src b w1 a1 w2 a2 b2 M F. revert w src M.
  induction F as [w1 a b E|w1 a b x b' E D Bd|w1 a b x b' w' a' w2 a2 b2 E D Bd Ad F IH]; intros w src M;
    apply adv_spec in M; destruct M as (o & s' & N & C & R & _); cbn in N, R.
  - unfold at_end in E. rewrite C in E. destruct o; [discriminate|].
    exists [None], s'. split; [apply FR_end; auto|]. split; auto.
    unfold at_end. rewrite C. split; auto. intros _. exists []. reflexivity.
  - unfold deref in D. rewrite C in D. subst o. exists [Some x], s'.
    split; [eapply FR_break; eauto|]. split; auto.
    rewrite E. split; [discriminate|]. intros [[|y c] Q]; [discriminate|].
    destruct c; discriminate.
  - unfold deref in D. rewrite C in D. subst o.
    destruct a as [src1 c1]. cbn in *.
    destruct (IH w1 src1 Ad) as (calls & s2 & FR & R2 & En).
    assert (Es : src_state w1 src1 = s').
    { destruct src as [s|p]; unfold reaches in R; cbn in R; [destruct R as [_ [-> _]]|destruct R as (_ & -> & R & _)]; cbn; auto. }
    rewrite Es in FR.
    exists (Some x :: calls), s2. split; [eapply FR_next; eauto|]. split.
    + apply (reaches_trans _ _ _ _ _ _ _ _ _ _ R R2).
    + rewrite En. split; intros [c Hc].
      * exists (Some x :: c). rewrite Hc. reflexivity.
      * destruct c as [|y c]; [discriminate|]. injection Hc as _ Hc. exists c. exact Hc.
Qed.

(** And the other way round: when the Rust loop terminates, so does the C++
    loop. *)
Theorem C124_rust_loop_is_the_range_for : forall s b calls s2 b2,
  for_rust next body s b calls s2 b2 ->
  forall w src w1 a1, src_state w src = s -> make _ _ next w src = (w1, a1) ->
  exists w2 a2, for_cpp _ _ next _ body w1 a1 b w2 a2 b2.
Proof.
  intros s b calls s2 b2 F.
  induction F as [s b s' N|s b x s' b' N Bd|s b x s' b' calls s2 b2 N Bd F IH]; intros w src w1 a1 <- M;
    apply adv_spec in M; destruct M as (o & s1 & N1 & C & R & Es); cbn in N1, R;
    rewrite N in N1; injection N1 as <- <-.
  - exists w1, a1. apply FC_end. unfold at_end. now rewrite C.
  - exists w1, a1. eapply FC_break; eauto. unfold at_end. now rewrite C.
  - destruct (adv _ _ next w1 a1) as [w' a'] eqn:Ad.
    destruct a1 as [src1 c1]. cbn in C, R, Es.
    destruct (IH w1 src1 w' a' Es Ad) as (w2 & a2 & L).
    exists w2, a2. eapply FC_next; eauto. unfold at_end. cbn. now rewrite C.
Qed.

(** Incrementing by hand: after construction and [n] increments the adapter
    shows the [n]-th output of the iterator (from 0), at the end exactly when
    that output is None, and the iterator was advanced exactly [n + 1] times --
    also past the end, where an iterator that is not fused may go on. *)
Fixpoint advances (w : world) (a : adapter) (n : nat) : world * adapter :=
  match n with
  | 0 => (w, a)
  | S m => let '(w, a) := advances w a m in adv _ _ next w a
  end.

Theorem C124_nth_item : forall w src n w1 a1 w2 a2,
  make _ _ next w src = (w1, a1) -> advances w1 a1 n = (w2, a2) ->
  let s := src_state w src in
  deref _ _ a2 = output next s n /\
  (at_end _ _ a2 = true <-> output next s n = None) /\
  exists calls, length calls = S n /\
    (forall i, i <= n -> nth_error calls i = Some (output next s i)) /\
    reaches w src (state_after next s (S n)) calls w2 (a_src _ _ a2).
Proof.
  intros w src n w1 a1 w2 a2 M Ad s.
  enough (Q : deref _ _ a2 = output next s n /\
    src_state w2 (a_src _ _ a2) = state_after next s (S n) /\
    exists calls, length calls = S n /\
    (forall i, i <= n -> nth_error calls i = Some (output next s i)) /\
    reaches w src (state_after next s (S n)) calls w2 (a_src _ _ a2)).
  { destruct Q as (D & _ & Q). split; auto. split; auto. unfold at_end. unfold deref in D. rewrite D.
    destruct (output next s n); split; congruence. }
  revert w2 a2 Ad. induction n as [|n IH]; intros w2 a2 Ad.
  - cbn in Ad. injection Ad as <- <-. apply adv_spec in M.
    destruct M as (o & s' & N & C & R & Es). cbn in N, R. fold s in N.
    unfold deref, output. cbn [state_after]. rewrite N. cbn [fst snd].
    split; auto. split; auto. exists [o]. split; auto. split; auto.
    intros i Hi. destruct i; [cbn; now rewrite N|lia].
  - cbn in Ad. destruct (advances w1 a1 n) as [w3 a3] eqn:E3.
    destruct (IH w3 a3 eq_refl) as (D & Es & calls & L & Nth & R).
    apply adv_spec in Ad. destruct Ad as (o & s' & N & C & R2 & Es2).
    rewrite Es in N.
    assert (Ost : state_after next s (S (S n)) = s').
    { change (state_after next s (S (S n))) with (snd (next (state_after next s (S n)))).
      rewrite N. reflexivity. }
    assert (Oo : output next s (S n) = o) by (unfold output; rewrite N; reflexivity).
    rewrite Ost, Oo. split; auto. split; auto.
    exists (calls ++ [o]). split; [rewrite app_length, L; cbn; lia|]. split.
    + intros i Hi. destruct (Nat.eq_dec i (S n)) as [->|Ni].
      * rewrite nth_error_app2 by lia. rewrite L, Nat.sub_diag, Oo. reflexivity.
      * rewrite nth_error_app1 by lia. apply Nth. lia.
    + apply (reaches_trans _ _ _ _ _ _ _ _ _ _ R R2).
Qed.

End Proofs.
Print Assumptions C124_range_for_is_the_rust_loop.
Print Assumptions C124_rust_loop_is_the_range_for.
Print Assumptions C124_nth_item.

(** ** A demonstration: an iterator that counts down and is not fused, behind a
    pointer, summed by a loop that breaks at 3: it consumed 5, 4, 3 only. *)
Definition down (s : nat) : option nat * nat := match s with 0 => (None, 9) | S m => (Some (S m), m) end.
Definition sum_body (x b : nat) : nat * bool := (b + x, Nat.eqb x 3).
Definition w0 : world nat nat := mkW _ _ (fun _ => 5) [].

Example demo_break : exists w2 a2,
  for_cpp _ _ down _ sum_body (fst (make _ _ down w0 (SPtr _ 0))) (snd (make _ _ down w0 (SPtr _ 0))) 0 w2 a2 12 /\
  w_vars _ _ w2 0 = 2 /\ w_calls _ _ w2 = [Some 5; Some 4; Some 3].
Proof.
  eexists. eexists. split.
  - eapply FC_next; [reflexivity|reflexivity|reflexivity|reflexivity|].
    eapply FC_next; [reflexivity|reflexivity|reflexivity|reflexivity|].
    eapply FC_break; reflexivity.
  - split; reflexivity.
Qed.

Example demo_full : exists w2 a2,
  for_cpp _ _ down _ (fun x b => (b + x, false)) (fst (make _ _ down w0 (SVal _ 2)))
    (snd (make _ _ down w0 (SVal _ 2))) 0 w2 a2 3 /\
  at_end _ _ a2 = true /\ w_calls _ _ w2 = [Some 2; Some 1; None].
Proof.
  eexists. eexists. split.
  - eapply FC_next; [reflexivity|reflexivity|reflexivity|reflexivity|].
    eapply FC_next; [reflexivity|reflexivity|reflexivity|reflexivity|].
    eapply FC_end; reflexivity.
  - split; reflexivity.
Qed.
