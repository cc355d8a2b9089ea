(** C122 (futures given to C++ code) and C123 (wakers given to Rust code). *)
From Coq Require Import List Bool Arith Lia.
From Verif.Async Require Import Model Spec Proofs Proofs2.
From Verif.Own Require Import Own.
Import ListNotations.

Lemma reach_G S ops : G (run S ops).
Proof. apply run_G, G_init. Qed.

(** ** C122: every future ends exactly once *)

(** For every behaviour of the futures and every history of creations, moves,
    polls, discards, conversions and destructions of DynErasedFuture and
    DynFuture handles, interleaved in any way with Rust code using the wakers
    it kept: every future is dropped, or given back to Rust code, at most once;
    it is never polled (nor dropped) after that; no two handles own the same
    future; and when no handle is left, every future that was ever created has
    ended exactly once. *)
Theorem C122_every_future_ends_once : forall S ops,
  let w := run S ops in
  (forall i, count_ends ends i (w_log w) <= 1 /\ no_use_after_end ends touches i (w_log w)) /\
  (forall i e, In e (w_log w) -> touches i e = true -> i < w_nf w) /\
  (forall i n m, w_futs w n = Some (FUser i) -> w_futs w m = Some (FUser i) -> n = m) /\
  (forall i n m, w_dyns w n = Some (Some i) -> w_dyns w m = Some (Some i) -> n = m) /\
  (forall i n m, w_futs w n = Some (FUser i) -> w_dyns w m = Some (Some i) -> False) /\
  ((forall n, w_futs w n = None) -> (forall n, w_dyns w n = None) ->
   forall i, i < w_nf w -> count_ends ends i (w_log w) = 1).
Proof.
  intros S ops w. pose proof (reach_G S ops) as H. fold w in H.
  destruct (inv_meaning _ _ ends_touches _ _ _ (G_I _ H)) as (A & B & C & _ & U).
  split; [exact A|]. split; [exact B|]. split; [|split; [|split]].
  - intros i n m Hn Hm.
    assert (E : 2 * n = 2 * m) by (apply (U i); rewrite own_fut; [rewrite Hn|rewrite Hm]; reflexivity). lia.
  - intros i n m Hn Hm.
    assert (E : 2 * n + 1 = 2 * m + 1)
      by (apply (U i); rewrite own_dyn; [rewrite Hn|rewrite Hm]; reflexivity). lia.
  - intros i n m Hn Hm.
    assert (E : 2 * n = 2 * m + 1).
    { apply (U i); [rewrite own_fut, Hn|rewrite own_dyn, Hm]; reflexivity. } lia.
  - intros F D i Hi. apply C; auto. intros p. destruct (place_cases p) as [[n ->]|[n ->]].
    + rewrite own_fut, F. discriminate.
    + rewrite own_dyn, D. discriminate.
Qed.
Print Assumptions C122_every_future_ends_once.

(** ** C122: Poll returns what the future returned *)

(** In every reachable state, polling a handle that owns future [i] with one of
    the wakers of the C++ program polls exactly that future once, with a Waker
    of that waker's task; what the future does with wakers is the only thing
    that happens before the result; then, if the future was ready, its output
    is written to the given place (unless it has size zero) and true is
    returned, and otherwise nothing is written and false is returned. *)
Theorem C122_poll_reports_the_future : forall S ops n j out i x,
  let w := run S ops in
  w_stat w = Running -> w_futs w n = Some (FUser i) -> nth_error (w_cpp w) j = Some x ->
  let w' := step S w (EPoll n j out) in
  w_stat w' = Running /\ w_futs w' = w_futs w /\ w_dyns w' = w_dyns w /\ w_cpp w' = w_cpp w /\
  exists l, forallb is_waker_event l = true /\
    (wakes l, rust_tasks w') = actions_spec (w_task w x) (s_acts S i (w_polls w i)) (rust_tasks w) /\
    w_log w' = w_log w ++ [EvPoll i] ++ l ++
      match s_res S i (w_polls w i) with
      | Some v => (if s_zst S i then [] else [EvOut out v]) ++ [EvRes n true]
      | None => [EvRes n false]
      end.
Proof.
  intros S ops n j out i x w St Hn Hj w'.
  pose proof (reach_G S ops) as H. fold w in H.
  assert (Ho : own w (2 * n) = Some i) by (rewrite own_fut, Hn; reflexivity).
  pose proof (poll_ok S w i (2 * n) j x H St Ho Hj) as P.
  assert (Ew : w' = erased_poll S w n (FUser i) x out).
  { subst w'. unfold step, andthen at 1. rewrite St, Hn, Hj. reflexivity. }
  clearbody w'. subst w'. unfold erased_poll.
  destruct (poll_future S w i x) as [w1 r].
  destruct P as (_ & St1 & C1 & F1 & D1 & _ & -> & l & L & Wl & Sp).
  unfold with_borrowed_waker, andthen. rewrite St1.
  destruct (s_res S i (w_polls w i)) as [v|].
  - destruct (s_zst S i); cbn [emit w_stat w_futs w_dyns w_cpp w_log];
      (split; [exact St1|]); (split; [exact F1|]); (split; [exact D1|]); (split; [exact C1|]);
      exists l; (split; [exact Wl|]); (split; [exact Sp|]); rewrite L; cbn; rewrite <- !app_assoc; cbn; rewrite <- ?app_assoc; reflexivity.
  - cbn [emit w_stat w_futs w_dyns w_cpp w_log];
      (split; [exact St1|]); (split; [exact F1|]); (split; [exact D1|]); (split; [exact C1|]);
      exists l; (split; [exact Wl|]); (split; [exact Sp|]); rewrite L; cbn; rewrite <- !app_assoc; reflexivity.
Qed.
Print Assumptions C122_poll_reports_the_future.

(** The poll count used above counts the polls of the future: the script is
    followed in order, without skipping or repeating an answer, whichever
    handles the future was polled through. *)
Definition npolls (i : nat) (l : list event) : nat :=
  length (filter (fun e => match e with EvPoll x => Nat.eqb x i | _ => false end) l).

Lemma npolls_app i l1 l2 : npolls i (l1 ++ l2) = npolls i l1 + npolls i l2.
Proof. unfold npolls. rewrite filter_app, app_length. reflexivity. Qed.

Definition counted (w : world) : Prop := forall i, w_polls w i = npolls i (w_log w).

Lemma wk_npolls i l : forallb is_waker_event l = true -> npolls i l = 0.
Proof.
  induction l as [|e l IH]; cbn; auto. intros H. apply andb_true_iff in H. destruct H as [A B].
  unfold npolls in *. destruct e; try discriminate; cbn; auto.
Qed.

Lemma counted_wk w w' l : wk w w' l -> counted w -> counted w'.
Proof.
  intros K C i. rewrite (wk_polls _ _ _ K), (wk_log _ _ _ K), npolls_app,
    (wk_npolls _ _ (wk_ev _ _ _ K)), C. lia.
Qed.

Lemma counted_emit w e : (forall i, e <> EvPoll i) -> counted w -> counted (emit w e).
Proof.
  intros N C i. cbn [emit w_polls w_log]. rewrite npolls_app, C. unfold npolls at 3.
  destruct e; cbn; try lia. exfalso. eapply N; eauto.
Qed.

Lemma counted_poll S w i j x : W w -> w_stat w = Running -> nth_error (w_cpp w) j = Some x ->
  counted w -> counted (fst (poll_future S w i x)).
Proof.
  intros H St E C. unfold poll_future. cbn [fst].
  set (w1 := count_poll (emit w (EvPoll i)) i).
  assert (H1 : W w1). { apply (W_same w); auto. intros y. apply frees_snoc. exact Logic.I. }
  destruct (actions_ok S (s_acts S i (w_polls w i)) w1 j x (w_task w x) H1 St E eq_refl)
    as (_ & _ & l & K & _).
  eapply counted_wk; eauto.
  intros y. subst w1. cbn [emit count_poll w_polls w_log]. unfold fupd. rewrite npolls_app, <- C. unfold npolls. cbn.
  rewrite (Nat.eqb_sym i y). destruct (Nat.eqb_spec y i); subst; cbn; lia.
Qed.

Ltac emits := repeat (apply counted_emit; [discriminate|]); auto.

Lemma step_counted S w o : G w -> counted w -> counted (step S w o).
Proof.
  intros H C. unfold step, andthen at 1. destruct (w_stat w) eqn:St; auto.
  destruct o as [n|n s|n j out|n|n|n|n s|n s|n j|n|n|n|n|t|j|h].
  - destruct (w_futs w n); auto.
  - destruct (w_futs w n), (w_futs w s); auto.
  - destruct (w_futs w n) as [b|]; auto. destruct (nth_error (w_cpp w) j) as [x|] eqn:E; auto.
    destruct b as [i|]; cbn [erased_poll]; [|emits].
    pose proof (counted_poll S w i j x (G_W _ H) St E C) as P.
    destruct (poll_future S w i x) as [w1 r]. cbn [fst] in P.
    unfold with_borrowed_waker, andthen. destruct (w_stat w1); auto.
    destruct r; [destruct (s_zst S i)|]; emits.
  - destruct (w_futs w n) as [[i|]|]; auto. apply (counted_emit w (EvDropFut i)); auto. discriminate.
  - destruct (w_dyns w n); auto.
  - destruct (w_dyns w n); auto.
  - destruct (w_dyns w n), (w_dyns w s); auto.
  - destruct (w_dyns w n), (w_dyns w s); auto.
  - destruct (w_dyns w n) as [b|]; auto. destruct (nth_error (w_cpp w) j) as [x|] eqn:E; auto.
    destruct b as [i|]; cbn [dyn_poll]; [|auto].
    pose proof (counted_poll S w i j x (G_W _ H) St E C) as P.
    destruct (poll_future S w i x) as [w1 r]. cbn [fst] in P.
    unfold with_borrowed_waker, andthen. destruct (w_stat w1); auto.
    destruct r; emits.
  - destruct (w_dyns w n) as [[i|]|]; auto. apply (counted_emit w (EvDropFut i)); auto. discriminate.
  - destruct (w_dyns w n); emits.
  - destruct (w_dyns w n) as [[i|]|]; auto. apply (counted_emit w (EvToRust i)); auto. discriminate.
  - destruct (w_dyns w n) as [[i|]|]; auto. apply (counted_emit w (EvDropFut i)); auto. discriminate.
  - exact C.
  - destruct (nth_error (w_cpp w) j) as [x|]; auto.
    unfold waker_destroy, alive. cbn [set_cpp w_rc]. destruct (w_rc w x); auto.
    destruct (Datatypes.S n - 1); auto. emits.
  - destruct (hop_ok S w h (G_W _ H) St) as (_ & _ & l & K & _). eapply counted_wk; eauto.
Qed.

Theorem C122_scripts_are_followed_in_order : forall S ops i,
  w_polls (run S ops) i = npolls i (w_log (run S ops)).
Proof.
  intros S ops. unfold run.
  enough (Q : forall ops w, G w -> counted w -> counted (fold_left (step S) ops w)).
  { intros i. apply Q; [apply G_init|]. intros k. reflexivity. }
  induction ops0 as [|o r IH]; cbn; intros w H C; auto. apply IH; [apply step_G, H|apply step_counted; auto].
Qed.
Print Assumptions C122_scripts_are_followed_in_order.

(** A moved-from DynErasedFuture is a future that is never ready: Poll returns
    false, writes nothing, and touches neither a future nor a waker; the handle
    moved to owns the future. *)
Theorem C122_moved_from_is_pending : forall S ops n s i,
  let w := run S ops in
  w_stat w = Running -> w_futs w n = None -> w_futs w s = Some (FUser i) ->
  let w' := step S w (EMove n s) in
  w_log w' = w_log w /\ w_stat w' = Running /\
  w_futs w' n = Some (FUser i) /\ w_futs w' s = Some FPending /\
  forall j out x, nth_error (w_cpp w') j = Some x ->
    step S w' (EPoll s j out) = emit w' (EvRes s false).
Proof.
  intros S ops n s i w St Hn Hs w'.
  assert (Ew : w' = erased_move w n s (FUser i)).
  { subst w'. unfold step, andthen. rewrite St, Hn, Hs. reflexivity. }
  clearbody w'. subst w'.
  assert (Ne : n <> s) by congruence.
  assert (Fs : w_futs (erased_move w n s (FUser i)) s = Some FPending).
  { cbn [w_futs erased_move set_fut]. unfold fupd. rewrite Nat.eqb_refl. reflexivity. }
  split; [reflexivity|]. split; [exact St|]. split; [|split; [exact Fs|]].
  { cbn [w_futs erased_move set_fut]. unfold fupd. rewrite Nat.eqb_refl.
    destruct (Nat.eqb_spec n s); [contradiction|reflexivity]. }
  intros j out x Hj. unfold step, andthen.
  replace (w_stat (erased_move w n s (FUser i))) with Running by (symmetry; exact St).
  rewrite Fs, Hj. reflexivity.
Qed.
Print Assumptions C122_moved_from_is_pending.

(** ** C122: DynFuture *)

(** In every reachable state: is_completed_or_discarded tells whether the
    handle is empty; polling one that owns future [i] polls it once, and if it
    is ready drops it at once, leaves the handle empty and returns true,
    otherwise leaves all handles alone and returns false; discard drops what
    the handle owns and empties it; polling an empty one ends the program
    before anything else happens. *)
Theorem C122_dyn_future_contract : forall S ops n o,
  let w := run S ops in
  w_stat w = Running -> w_dyns w n = Some o ->
  step S w (DDone n) = emit w (EvDone n (match o with None => true | Some _ => false end)) /\
  (w_log (step S w (DDiscard n)) = w_log w ++ match o with Some i => [EvDropFut i] | None => [] end /\
   w_dyns (step S w (DDiscard n)) n = Some None) /\
  forall j x, nth_error (w_cpp w) j = Some x ->
  let w' := step S w (DPoll n j) in
  match o with
  | None => w_stat w' = Aborted /\ w_log w' = w_log w
  | Some i =>
      w_stat w' = Running /\ w_futs w' = w_futs w /\ w_cpp w' = w_cpp w /\
      (forall m, m <> n -> w_dyns w' m = w_dyns w m) /\
      w_dyns w' n = Some (match s_res S i (w_polls w i) with Some _ => None | None => Some i end) /\
      exists l, forallb is_waker_event l = true /\
        (wakes l, rust_tasks w') = actions_spec (w_task w x) (s_acts S i (w_polls w i)) (rust_tasks w) /\
        w_log w' = w_log w ++ [EvPoll i] ++ l ++
          match s_res S i (w_polls w i) with
          | Some _ => [EvDropFut i; EvDynRes n true]
          | None => [EvDynRes n false]
          end
  end.
Proof.
  intros S ops n o w St Hn.
  pose proof (reach_G S ops) as H. fold w in H.
  split; [unfold step, andthen; rewrite St, Hn; destruct o; reflexivity|].
  split.
  { assert (Ew : step S w (DDiscard n) = dyn_discard w n o)
      by (unfold step, andthen; rewrite St, Hn; reflexivity).
    rewrite Ew. unfold dyn_discard. cbn [set_dyn w_log w_dyns]. split.
    - destruct o; cbn [drop_opt emit w_log]; [reflexivity|now rewrite app_nil_r].
    - unfold fupd. now rewrite Nat.eqb_refl. }
  intros j x Hj w'.
  assert (Ew : w' = dyn_poll S w n o x).
  { subst w'. unfold step, andthen at 1. rewrite St, Hn, Hj. reflexivity. }
  clearbody w'. subst w'.
  destruct o as [i|]; [|split; reflexivity].
  assert (Ho : own w (2 * n + 1) = Some i) by (rewrite own_dyn, Hn; reflexivity).
  pose proof (poll_ok S w i (2 * n + 1) j x H St Ho Hj) as P. unfold dyn_poll.
  destruct (poll_future S w i x) as [w1 r].
  destruct P as (_ & St1 & C1 & F1 & D1 & _ & -> & l & L & Wl & Sp).
  unfold with_borrowed_waker, andthen. rewrite St1.
  destruct (s_res S i (w_polls w i)) as [v|].
  - unfold dyn_discard. cbn [drop_opt set_dyn emit w_stat w_futs w_dyns w_cpp w_log].
    split; [exact St1|]. split; [exact F1|]. split; [exact C1|].
    split; [|split].
    + intros m Hm. unfold fupd. destruct (Nat.eqb_spec m n); [contradiction|]. now rewrite D1.
    + unfold fupd. now rewrite Nat.eqb_refl.
    + exists l. split; [exact Wl|]. split; [exact Sp|]. rewrite L, <- !app_assoc. reflexivity.
  - cbn [emit w_stat w_futs w_dyns w_cpp w_log].
    split; [exact St1|]. split; [exact F1|]. split; [exact C1|].
    split; [|split].
    + intros m Hm. now rewrite D1.
    + rewrite D1. exact Hn.
    + exists l. split; [exact Wl|]. split; [exact Sp|]. rewrite L, <- !app_assoc. reflexivity.
Qed.
Print Assumptions C122_dyn_future_contract.

(** Moving DynFutures: the target of a move construction owns what the source
    owned and the source is empty; assignment exchanges the two; neither drops
    or polls anything. *)
Theorem C122_dyn_future_moves : forall S ops n s b,
  let w := run S ops in
  w_stat w = Running -> w_dyns w s = Some b ->
  (w_dyns w n = None ->
   let w' := step S w (DMove n s) in
   w_dyns w' n = Some b /\ w_dyns w' s = Some None /\ w_log w' = w_log w) /\
  (forall a, w_dyns w n = Some a ->
   let w' := step S w (DAssign n s) in
   w_dyns w' n = Some b /\ w_dyns w' s = Some a /\ w_log w' = w_log w).
Proof.
  intros S ops n s b w St Hs. split.
  - intros Hn. assert (Ne : n <> s) by congruence.
    unfold step, andthen. rewrite St, Hn, Hs. cbn. unfold fupd. rewrite !Nat.eqb_refl.
    destruct (Nat.eqb_spec n s); [contradiction|auto].
  - intros a Hn. unfold step, andthen. rewrite St, Hn, Hs. cbn. unfold fupd. rewrite !Nat.eqb_refl.
    destruct (Nat.eqb_spec n s) as [->|]; [|auto].
    assert (a = b) by congruence. subst a. auto.
Qed.
Print Assumptions C122_dyn_future_moves.

(** The program ends only by polling an empty DynFuture. *)
Lemma step_stat S w o : G w -> w_stat w = Running -> w_stat (step S w o) <> Running ->
  exists n j x, o = DPoll n j /\ w_dyns w n = Some None /\ nth_error (w_cpp w) j = Some x.
Proof.
  intros H St. unfold step, andthen at 1. rewrite St.
  destruct o as [n|n s|n j out|n|n|n|n s|n s|n j|n|n|n|n|t|j|h]; intros N.
  - destruct (w_futs w n); contradiction.
  - destruct (w_futs w n), (w_futs w s); contradiction.
  - destruct (w_futs w n) as [b|] eqn:Fn; [|contradiction].
    destruct (nth_error (w_cpp w) j) as [x|] eqn:E; [|contradiction].
    exfalso. destruct b as [i|]; cbn [erased_poll] in N; [|contradiction].
    assert (Ho : own w (2 * n) = Some i) by (rewrite own_fut, Fn; reflexivity).
    pose proof (poll_ok S w i (2 * n) j x H St Ho E) as P.
    destruct (poll_future S w i x) as [w1 r]. destruct P as (_ & S1 & _).
    unfold with_borrowed_waker, andthen in N. rewrite S1 in N.
    destruct r; [destruct (s_zst S i)|]; contradiction.
  - destruct (w_futs w n) as [[i|]|]; contradiction.
  - destruct (w_dyns w n); contradiction.
  - destruct (w_dyns w n); contradiction.
  - destruct (w_dyns w n), (w_dyns w s); contradiction.
  - destruct (w_dyns w n), (w_dyns w s); contradiction.
  - destruct (w_dyns w n) as [b|] eqn:Fn; [|contradiction].
    destruct (nth_error (w_cpp w) j) as [x|] eqn:E; [|contradiction].
    destruct b as [i|]; [|exists n, j, x; auto].
    exfalso. cbn [dyn_poll] in N.
    assert (Ho : own w (2 * n + 1) = Some i) by (rewrite own_dyn, Fn; reflexivity).
    pose proof (poll_ok S w i (2 * n + 1) j x H St Ho E) as P.
    destruct (poll_future S w i x) as [w1 r]. destruct P as (_ & S1 & _).
    unfold with_borrowed_waker, andthen in N. rewrite S1 in N.
    destruct r; contradiction.
  - destruct (w_dyns w n) as [[i|]|]; contradiction.
  - destruct (w_dyns w n); contradiction.
  - destruct (w_dyns w n) as [[i|]|]; contradiction.
  - destruct (w_dyns w n) as [[i|]|]; contradiction.
  - contradiction.
  - exfalso. destruct (nth_error (w_cpp w) j) as [x|] eqn:E; [|contradiction].
    assert (R : w_rc w x > 0).
    { rewrite (W_rc _ (G_W _ H)). pose proof (proj1 (count_occ_In Nat.eq_dec (w_cpp w) x) (nth_error_In _ _ E)). lia. }
    unfold waker_destroy, alive in N. cbn [set_cpp w_rc] in N. destruct (w_rc w x); [lia|].
    cbn [set_rc set_cpp emit w_stat] in N. destruct (Datatypes.S n - 1); contradiction.
  - destruct (hop_ok S w h (G_W _ H) St) as (_ & _ & l & K & _).
    rewrite (wk_stat _ _ _ K) in N. contradiction.
Qed.

Theorem C122_ends_only_by_polling_an_empty_handle : forall S ops,
  w_stat (run S ops) <> Running ->
  w_stat (run S ops) = Aborted /\
  exists before n j after, ops = before ++ DPoll n j :: after /\
    w_stat (run S before) = Running /\ w_dyns (run S before) n = Some None.
Proof.
  intros S ops N.
  split.
  { pose proof (G_S _ (reach_G S ops)). destruct (w_stat (run S ops)); auto; contradiction. }
  revert N. induction ops as [|o ops IH] using rev_ind; intros N; [contradiction|].
  unfold run in N. rewrite fold_left_app in N. cbn [fold_left] in N. fold (run S ops) in N.
  destruct (w_stat (run S ops)) eqn:St.
  - destruct (step_stat S (run S ops) o (reach_G S ops) St N) as (n & j & x & -> & D & _).
    exists ops, n, j, []. auto.
  - destruct IH as (b & n & j & a & -> & X & Y); [discriminate|].
    exists b, n, j, (a ++ [o]). rewrite <- app_assoc. auto.
  - exfalso. apply (G_S _ (reach_G S ops)). exact St.
Qed.
Print Assumptions C122_ends_only_by_polling_an_empty_handle.

(** ** C123: wakers *)

(** For every C++ executor whose Clone increments a count or returns a new
    object (or mixes both), every behaviour of futures and every history:
    no waker is used after it was destroyed; the number of references to a
    waker is the number of those held by the C++ program plus the Wakers owned
    by Rust code; a waker object is destroyed at most once, and exactly once as
    soon as nobody holds a reference to it. *)
Theorem C123_wakers_never_dangle_nor_leak : forall S ops,
  let w := run S ops in
  w_stat w <> UseAfterFree /\
  (forall x, w_rc w x = count_occ Nat.eq_dec (w_cpp w) x + count_occ Nat.eq_dec (w_rust w) x) /\
  (forall x, In x (w_cpp w) \/ In x (w_rust w) -> x < w_nw w /\ frees x (w_log w) = 0) /\
  (forall x, x < w_nw w -> ~ In x (w_cpp w) -> ~ In x (w_rust w) -> frees x (w_log w) = 1) /\
  (forall x, frees x (w_log w) <= 1).
Proof.
  intros S ops w. pose proof (reach_G S ops) as H. fold w in H.
  pose proof (G_W _ H) as Hw.
  split; [apply H|]. split; [apply Hw|]. split; [|split].
  - intros x I.
    assert (R : w_rc w x > 0).
    { rewrite (W_rc _ Hw).
      destruct I as [I|I]; apply (proj1 (count_occ_In Nat.eq_dec _ _)) in I; lia. }
    assert (L : x < w_nw w).
    { destruct (Nat.lt_ge_cases x (w_nw w)) as [L|L]; auto. pose proof (W_new _ Hw x L). lia. }
    split; auto. rewrite (W_free _ Hw). destruct (Nat.eqb_spec (w_rc w x) 0); [lia|].
    now rewrite andb_false_r.
  - intros x L A B. rewrite (W_free _ Hw), (W_rc _ Hw).
    rewrite (proj1 (count_occ_not_In Nat.eq_dec _ _) A), (proj1 (count_occ_not_In Nat.eq_dec _ _) B).
    rewrite (proj2 (Nat.ltb_lt _ _) L). reflexivity.
  - intros x. rewrite (W_free _ Hw). destruct (_ && _); lia.
Qed.
Print Assumptions C123_wakers_never_dangle_nor_leak.

(** In every reachable state, what Rust code does with the Wakers it owns has
    the effect that std::task documents, on the right task: waking wakes the
    task of the C++ waker it was cloned from (through any number of clones)
    exactly once, and consumes the Waker only if by value; cloning and dropping
    wake nothing. *)
Theorem C123_rust_wakers_wake_their_task : forall S ops h,
  let w := run S ops in
  w_stat w = Running ->
  let w' := step S w (WRust h) in
  exists l, w_log w' = w_log w ++ l /\ forallb is_waker_event l = true /\
    (wakes l, rust_tasks w') = hop_spec h (rust_tasks w) /\
    w_cpp w' = w_cpp w /\ w_futs w' = w_futs w /\ w_dyns w' = w_dyns w.
Proof.
  intros S ops h w St w'.
  assert (Ew : w' = run_hop S w h) by (subst w'; unfold step, andthen; rewrite St; reflexivity).
  clearbody w'. subst w'.
  destruct (hop_ok S w h (G_W _ (reach_G S ops)) St) as (_ & C & l & K & Sp).
  exists l. split; [apply K|]. split; [apply K|]. split; [exact Sp|]. split; [exact C|].
  split; apply K.
Qed.
Print Assumptions C123_rust_wakers_wake_their_task.

(** And nothing else wakes anything or changes what Rust owns: only polls and
    the uses of Rust's own Wakers do. *)
Definition uses_wakers (o : op) : bool :=
  match o with EPoll _ _ _ | DPoll _ _ | WRust _ => true | _ => false end.

Theorem C123_nothing_else_wakes : forall S ops o,
  let w := run S ops in
  uses_wakers o = false ->
  exists l, w_log (step S w o) = w_log w ++ l /\ wakes l = [] /\ w_rust (step S w o) = w_rust w.
Proof.
  intros S ops o w U. unfold step, andthen. pose proof (app_nil_r (w_log w)) as Z.
  destruct (w_stat w); [|exists []; auto|exists []; auto].
  destruct o as [n|n s|n j out|n|n|n|n s|n s|n j|n|n|n|n|t|j|h]; try discriminate U.
  - destruct (w_futs w n); exists []; cbn; auto.
  - destruct (w_futs w n), (w_futs w s); exists []; cbn; auto.
  - destruct (w_futs w n) as [[i|]|]; [exists [EvDropFut i]|exists []|exists []]; cbn; auto.
  - destruct (w_dyns w n); exists []; cbn; auto.
  - destruct (w_dyns w n); exists []; cbn; auto.
  - destruct (w_dyns w n), (w_dyns w s); exists []; cbn; auto.
  - destruct (w_dyns w n), (w_dyns w s); exists []; cbn; auto.
  - destruct (w_dyns w n) as [[i|]|]; [exists [EvDropFut i]|exists []|exists []]; cbn; auto.
  - destruct (w_dyns w n) as [b|]; [eexists [_]|exists []]; cbn; eauto.
  - destruct (w_dyns w n) as [[i|]|]; [exists [EvToRust i]|exists []|exists []]; cbn; auto.
  - destruct (w_dyns w n) as [[i|]|]; [exists [EvDropFut i]|exists []|exists []]; cbn; auto.
  - exists []; cbn; auto.
  - destruct (nth_error (w_cpp w) j) as [x|]; [|exists []; auto].
    unfold waker_destroy, alive. cbn [set_cpp w_rc]. destruct (w_rc w x) as [|r]; [exists []; cbn; auto|].
    destruct (Datatypes.S r - 1); [exists [EvFree x]|exists []]; cbn; auto.
Qed.
Print Assumptions C123_nothing_else_wakes.

(** ** A demonstration: two tasks, an async function moved and polled twice,
    whose first poll keeps a clone of the waker that a thread later uses, and a
    DynFuture; in the end everything was released exactly once. *)
Definition demo_S : scripts :=
  mkScripts (fun i k => match i, k with
                        | 0, 0 => [BClone; BWake; BHeld (HClone 0)]
                        | 1, 0 => [BClone]
                        | _, _ => [] end)
            (fun i k => match i, k with 0, 1 => Some 42 | 1, 1 => Some 0 | _, _ => None end)
            (fun _ => false)
            (fun x => Nat.eqb x 1).

Definition demo : list op :=
  [WNew 100; WNew 200; ECreate 0; EPoll 0 0 7; EMove 1 0; EPoll 0 0 7; WRust (HWake 0);
   EPoll 1 0 7; DDefault 0; DFrom 1; DAssign 0 1; DPoll 0 1; WRust (HWakeByRef 1); DPoll 0 1; DDone 0;
   EDestroy 0; EDestroy 1; DDestroy 0; DDestroy 1; WRelease 0; WRust (HDrop 0); WRust (HDrop 0); WRelease 0].

Example demo_log : w_log (run demo_S demo) =
  [EvPoll 0; EvWake 100; EvRes 0 false; EvRes 0 false; EvWake 100;
   EvPoll 0; EvOut 7 42; EvRes 1 true;
   EvPoll 1; EvDynRes 0 false; EvWake 200; EvPoll 1; EvDropFut 1; EvDynRes 0 true; EvDone 0 true;
   EvDropFut 0; EvFree 0; EvFree 2; EvFree 1].
Proof. vm_compute. reflexivity. Qed.

Example demo_end : w_stat (run demo_S demo) = Running /\ w_cpp (run demo_S demo) = [] /\
  w_rust (run demo_S demo) = [] /\ w_nw (run demo_S demo) = 3 /\ w_nf (run demo_S demo) = 2.
Proof. vm_compute. auto. Qed.

Example demo_abort : w_stat (run demo_S (demo ++ [WNew 1; DDefault 5; DPoll 5 0])) = Aborted.
Proof. vm_compute. reflexivity. Qed.
