(** C118, C119: rs_std::DynCallable. *)
From Coq Require Import List Bool Arith Lia.
From Verif.Callable Require Import Model Spec Proofs Proofs2.
Import ListNotations.

(** ** C118: every Rust closure handed to C++ ends exactly once *)

(** Whatever a program does with its handles, as long as it does not call an
    empty handle, move-assign a full handle to itself or pass a handle to Rust
    whose FnOnce it already called ([arun] = Some): every closure that came
    from Rust is dropped, consumed, handed back or given to an AnyInvocable at
    most once; nothing happens to it afterwards; and when no handle owns it
    any more (in particular when all handles are gone) it ended exactly once.
    [_partial]: see the refuted claims below for the three excluded uses. *)
Theorem C118_closures_end_exactly_once_partial : forall k ops, arun k ops <> None ->
  let w := run k ops in
  (forall b, count_ends b (w_log w) <= 1 /\ no_use_after_end b (w_log w)) /\
  (forall b e, In e (w_log w) -> touches b e = true -> b < w_next w) /\
  ((forall n, live w n = false) -> forall b, b < w_next w -> count_ends b (w_log w) = 1).
Proof.
  intros k ops H w. subst w. unfold run.
  destruct (arun k ops) as [a|] eqn:E; [|contradiction].
  assert (S := run_sim k ops init ainit a sim_init E).
  assert (I := arun_inv k ops ainit a inv_init E). unfold ainv in I.
  rewrite (sim_log _ _ S), (sim_next _ _ S).
  split; [|split].
  - intros b. destruct (I b) as [C N]. split; auto.
    destruct C as [(A & B & _)|[(A & B & _)|(A & B & _)]]; try lia.
    assert (count_ends b (a_log a) = 0); [|lia].
    unfold count_ends. destruct (filter (ends b) (a_log a)) as [|e r] eqn:F; auto.
    exfalso. assert (Ie : In e (filter (ends b) (a_log a))) by (rewrite F; left; auto).
    apply filter_In in Ie. destruct Ie as [Ie Ee]. apply ends_touches in Ee.
    rewrite (B e Ie) in Ee. discriminate.
  - intros b e Ie Te. destruct (I b) as [C _].
    destruct C as [(A & _)|[(A & _)|(A & B & _)]]; auto.
    rewrite (B e Ie) in Te. discriminate.
  - intros L b Hb. destruct (I b) as [C _].
    destruct C as [(A & B & n & Hn & _)|[(A & B & _)|(A & B & _)]]; auto; try lia.
    destruct (sim_acell_at _ _ _ _ S Hn) as (c & Hc & _).
    specialize (L n). unfold live in L. rewrite Hc in L. discriminate.
Qed.

(** The three excluded uses are exactly the undefined behaviours of the
    representation: any other history never reads uninitialised storage, never
    calls a null pointer, never hands out a garbage box. *)
Theorem C118_undefined_iff_misuse : forall k ops,
  arun k ops = None <-> exists r, w_stat (run k ops) = Undefined r.
Proof.
  intros k ops. split.
  - intros H. apply (misuse_run_ub k ops init ainit sim_init H).
  - intros [r H]. destruct (arun k ops) as [a|] eqn:E; auto.
    pose proof (sim_stat _ _ (run_sim k ops init ainit a sim_init E)) as St.
    unfold run in H. rewrite St in H. destruct (a_done a); discriminate.
Qed.

(** "Move assignment takes over the target" is false for self moves: the
    closure is dropped, and its box then copied onto itself. *)
Theorem C118_self_move_assign_refuted :
  exists ops, w_stat (run KFn ops) = Undefined OverlappingCopy /\ In (EvDrop 0) (w_log (run KFn ops)).
Proof. exists [OReceive 0; OMoveAssign 0 0]. vm_compute. auto. Qed.

(** ** C119: the documented states *)

(** For every history without misuse: the events that Rust, the program and
    the closures can observe, and whether the program was terminated, are
    those of the documented handle: empty, owning, or called. *)
Theorem C119_behaves_as_documented : forall k ops a, arun k ops = Some a ->
  w_log (run k ops) = a_log a /\
  (w_stat (run k ops) = Terminated <-> a_done a = true) /\
  (forall n, live (run k ops) n = true <-> a_cells a n <> None).
Proof.
  intros k ops a E.
  assert (S := run_sim k ops init ainit a sim_init E). fold (run k ops) in S.
  split; [apply S|]. split.
  - rewrite (sim_stat _ _ S). destruct (a_done a); split; congruence.
  - intros n. pose proof (sim_cells _ _ S n) as K. unfold live.
    destruct (w_cells (run k ops) (Var n)), (a_cells a n); cbn in K; split; try tauto; try congruence.
Qed.

(** An FnOnce is called at most once, and never by reference; an Fn or FnMut
    is never consumed. *)
Definition is_call (e : event) : bool := match e with EvCall _ => true | _ => false end.
Definition is_consume (e : event) : bool := match e with EvConsume _ => true | _ => false end.

Lemma in_app_l : forall (e : event) l x, In e (l ++ x) -> In e l \/ In e x.
Proof. intros. apply in_app_iff. auto. Qed.

Lemma kind_log : forall k ops a a', arun_from k a ops = Some a' ->
  (forall e, In e (a_log a) -> (if match k with KFnOnce => true | _ => false end then is_call e else is_consume e) = false) ->
  (forall e, In e (a_log a') -> (if match k with KFnOnce => true | _ => false end then is_call e else is_consume e) = false).
Proof.
  induction ops as [|o r IH]; cbn [arun_from]; intros a a' H P.
  - injection H as <-. exact P.
  - destruct (astep k a o) as [a1|] eqn:E; [|discriminate].
    apply (IH a1 a' H). clear IH H. intros e He. unfold astep in E.
    destruct (a_done a); [injection E as <-; auto|].
    destruct o as [n|n|n s|n s|n s|n pan|n|n|n|n].
    6:{ destruct (a_cells a n) as [[|b|]|]; try discriminate; injection E as <-; auto.
        destruct k, pan; cbn in He; apply in_app_l in He; destruct He as [He|[<-|[]]]; auto. }
    all: repeat match type of E with
      | context [match ?x with _ => _ end] => destruct x; try discriminate
      end; injection E as <-; auto; cbn in He;
      repeat match type of He with In _ (_ ++ _) => apply in_app_l in He; destruct He as [He|He] end; auto;
      repeat match goal with
        | He : In _ (drop_ev ?y) |- _ => destruct y; cbn in He
        | He : In _ [] |- _ => destruct He
        | He : In _ (_ :: _) |- _ => destruct He as [<-|He]
        | He : _ \/ _ |- _ => destruct He as [<-|He]
        | He : False |- _ => destruct He
        end; destruct k; reflexivity.
Qed.

Theorem C119_fn_once_called_at_most_once : forall ops, arun KFnOnce ops <> None ->
  (forall b, length (filter (fun e => match e with EvConsume x => Nat.eqb x b | _ => false end)
                            (w_log (run KFnOnce ops))) <= 1) /\
  (forall b, ~ In (EvCall b) (w_log (run KFnOnce ops))).
Proof.
  intros ops H. destruct (arun KFnOnce ops) as [a|] eqn:E; [|contradiction].
  destruct (C118_closures_end_exactly_once_partial KFnOnce ops) as (A & _ & _).
  { rewrite E. discriminate. }
  split.
  - intros b. destruct (A b) as [L _]. unfold count_ends in L.
    revert L. generalize (w_log (run KFnOnce ops)). intros l. revert b.
    assert (K : forall b, length (filter (fun e => match e with EvConsume x => Nat.eqb x b | _ => false end) l)
             <= length (filter (ends b) l)).
    { intros b. induction l as [|e l IH]; cbn; auto.
      destruct e; cbn; try (destruct (Nat.eqb _ b); cbn); lia. }
    intros b L. specialize (K b). lia.
  - intros b I. destruct (C119_behaves_as_documented _ _ _ E) as (L & _). rewrite L in I.
    pose proof (kind_log KFnOnce ops ainit a E (fun e (f : In e []) => match f with end) _ I) as F.
    discriminate.
Qed.

Theorem C119_fn_never_consumed : forall k ops, k <> KFnOnce -> arun k ops <> None ->
  forall b, ~ In (EvConsume b) (w_log (run k ops)).
Proof.
  intros k ops Nk H b I. destruct (arun k ops) as [a|] eqn:E; [|contradiction].
  destruct (C119_behaves_as_documented _ _ _ E) as (L & _). rewrite L in I.
  pose proof (kind_log k ops ainit a E (fun e (f : In e []) => match f with end) _ I) as F.
  destruct k; try contradiction; discriminate.
Qed.

(** Calling an FnOnce handle a second time terminates the process. *)
Theorem C119_second_call_terminates : forall ops a n pan, arun KFnOnce ops = Some a ->
  a_cells a n = Some ASpent -> a_done a = false ->
  w_stat (run KFnOnce (ops ++ [OCall n pan])) = Terminated.
Proof.
  intros ops a n pan E A D. unfold run. rewrite fold_left_app. cbn [fold_left].
  assert (S := run_sim KFnOnce ops init ainit a sim_init E).
  assert (X : astep KFnOnce a (OCall n pan) = Some (aterminate a)).
  { unfold astep. rewrite D, A. reflexivity. }
  rewrite (sim_stat _ _ (step_sim _ _ _ _ _ S X)). reflexivity.
Qed.

(** "Passing a moved-from or default constructed DynCallable back to Rust will
    result in a Rust Box<dyn Trait> that panics when called"
    (dyn_callable.h:215-218): true for default-constructed and moved-from
    handles ([astep]), false after the FnOnce was called: operator bool still
    says true, and the by-value parameter of Encode was filled by EmptyManager,
    which relocates nothing, so Rust receives two uninitialised words as a Box. *)
Theorem C119_called_handle_sends_garbage_refuted :
  exists ops, w_stat (run KFnOnce ops) = Undefined GarbageBox /\
    w_log (run KFnOnce ops) = [EvConsume 0; EvBool 0 true].
Proof. exists [OReceive 0; OCall 0 false; OBool 0; OToRust 0]. vm_compute. auto. Qed.

(** "Invoking it (an empty handle) results in program termination"
    (dyn_callable.h:198-200): a null function pointer is called instead. *)
Theorem C119_empty_call_terminates_refuted :
  exists ops, w_stat (run KFn ops) = Undefined NullCall.
Proof. exists [ODefault 0; OCall 0 false]. reflexivity. Qed.

(** ** The hypotheses are met *)
Definition demo : list op :=
  [OReceive 0; OReceive 1; ODefault 2; OMoveAssign 2 0; OSwap 1 2; OSwap 2 2; OCall 1 false;
   OMoveCtor 3 1; OBool 1; OBool 3; OToRust 2; OToRust 2; ODestroy 0; ODestroy 1; ODestroy 2; ODestroy 3].

Example demo_ok : arun KFnOnce demo <> None /\
  w_log (run KFnOnce demo) =
    [EvConsume 0; EvBool 1 false; EvBool 3 true; EvToRust 1; EvToRustPanicking] /\
  (forall n, live (run KFnOnce demo) n = false).
Proof.
  split; [vm_compute; discriminate|]. split; [reflexivity|].
  intros n. do 5 (destruct n as [|n]; [reflexivity|]). reflexivity.
Qed.

Example demo_second_call : exists a, arun KFnOnce [OReceive 0; OCall 0 false] = Some a /\
  a_cells a 0 = Some ASpent /\ a_done a = false.
Proof. eexists. vm_compute. auto. Qed.

Print Assumptions C118_closures_end_exactly_once_partial.
Print Assumptions C118_undefined_iff_misuse.
Print Assumptions C118_self_move_assign_refuted.
Print Assumptions C119_behaves_as_documented.
Print Assumptions C119_fn_once_called_at_most_once.
Print Assumptions C119_fn_never_consumed.
Print Assumptions C119_second_call_terminates.
Print Assumptions C119_called_handle_sends_garbage_refuted.
Print Assumptions C119_empty_call_terminates_refuted.
