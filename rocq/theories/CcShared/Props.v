(** Properties C71-C74: shared_ptr between Rust and C++, on any number of threads. *)
From Coq Require Import List Arith ZArith Lia Bool Permutation.
Import ListNotations.
From Verif.CcShared Require Import Model Spec Counts Pointers Progress Account.

Lemma reachable ls s rs : run init ls = Ok (s, rs) -> counted s /\ pointers s /\ elder s /\ log_ok (created ls) s.
Proof.
  intros R. destruct (run_inv ls init s rs counted_init pointers_init R) as [CO PO].
  destruct (run_account ls [] init s rs counted_init elder_init log_init R) as [E L]. auto.
Qed.

(** ** C71: memory safety *)

(** No interleaving of any calls touches a freed control block or a destroyed value. *)
Theorem C71_no_undefined_behaviour ls : no_null_deleter ls -> run init ls <> Ub.
Proof. apply run_no_ub; [apply counted_init | apply pointers_init]. Qed.
Print Assumptions C71_no_undefined_behaviour.

(** In every reachable state, what a [shared_ptr] (a variable, parts taken apart, or inside a live value) points into is alive. *)
Theorem C71_pointee_alive ls s rs h x :
  run init ls = Ok (s, rs) ->
  (In h (vars s) \/ In h (raws s) \/ exists c b ow, get (mem s) c = Some b /\ value b = Some ow /\ In h ow) ->
  ptr h = Into x -> alive (mem s) x.
Proof.
  intros R I P. destruct (reachable _ _ _ R) as (CO & (P1 & P2 & P3) & _).
  assert (X : handle_ok (mem s) h /\ owned_by s h).
  { destruct I as [I|[I|(c & b & ow & G & V & I)]].
    - assert (IS : In h (strongs s)) by (unfold strongs; rewrite !in_app_iff; auto). split; [auto | now apply strongs_owned].
    - assert (IS : In h (strongs s)) by (unfold strongs; rewrite !in_app_iff; auto). split; [auto | now apply strongs_owned].
    - assert (VS : val (mem s) c = Some ow) by (unfold val; now rewrite G). split; [eauto | eapply value_owned; eauto]. }
  destruct X as [H O]. unfold handle_ok in H. rewrite P in H. destruct H as (c & E & K). eapply keeps_alive; eauto.
Qed.
Print Assumptions C71_pointee_alive.

Lemma log_nodup ls s rs : run init ls = Ok (s, rs) -> NoDup (created ls) -> NoDup (destroyed_in (log s)) /\ NoDup (freed_in (log s)).
Proof.
  intros R N. destruct (reachable _ _ _ R) as (_ & _ & _ & (A & B & _)).
  assert (ND : NoDup (destroyed_in (log s))).
  { apply (Permutation_NoDup A) in N. clear - N. induction (flat_map live1 (mem s)) as [|x l IH]; [exact N|]. apply IH. now inversion N. }
  split; [exact ND|]. apply (Permutation_NoDup B) in ND. clear - ND.
  induction (flat_map dead1 (mem s)) as [|x l IH]; [exact ND|]. apply IH. now inversion ND.
Qed.

(** No value is destroyed twice, no control block is freed twice, and a block is freed only after its value is destroyed. *)
Theorem C71_destroyed_once ls s rs :
  run init ls = Ok (s, rs) ->
  (NoDup (created ls) -> NoDup (destroyed_in (log s)) /\ NoDup (freed_in (log s))) /\
  (forall before p after, log s = before ++ Freed p :: after -> In (Destroyed p) before) /\
  (forall p, In (Destroyed p) (log s) -> In p (created ls)).
Proof.
  intros R. split; [intros N; exact (log_nodup ls s rs R N)|]. destruct (reachable _ _ _ R) as (_ & _ & _ & (A & B & D)). split; [exact D|].
  intros p I. rewrite A. apply in_app_iff. right. unfold destroyed_in. apply in_flat_map. exists (Destroyed p). split; [exact I | now left].
Qed.
Print Assumptions C71_destroyed_once.

(** ** C72: the counts *)

(** A value lives exactly as long as it has an owner; drops that have not reached the count are still owners.  Between the
    last decrement and the destruction there is one pending call that destroys it. *)
Theorem C72_alive_while_owned ls s rs c :
  run init ls = Ok (s, rs) ->
  (owners c s <> 0 -> alive (mem s) c) /\
  (alive (mem s) c -> owners c s <> 0 \/ In (TDestroy c) (tasks s)).
Proof.
  intros R. destruct (reachable _ _ _ R) as (CO & _). split.
  - intros O. destruct (owned_alive s c CO O) as (b & ow & G & V). exists b, ow. auto.
  - intros (b & ow & G & V). destruct CO as (_ & H & _). specialize (H c). unfold cell_ok in H. rewrite G in H.
    unfold block_ok in H. rewrite V in H. destruct (Nat.eq_dec (owners c s) 0) as [Z|NZ]; [right | now left].
    assert (D : sum (t_destroy c) (tasks s) <> 0) by lia. clear - D.
    induction (tasks s) as [|t l IH]; cbn in D; [congruence|]. destruct (t_destroy c t) eqn:T.
    + right. apply IH. lia.
    + left. destruct t; cbn in T; try discriminate. destruct (Nat.eqb c c0) eqn:Q; [|discriminate]. apply Nat.eqb_eq in Q. now subst.
Qed.
Print Assumptions C72_alive_while_owned.

(** [use_count] is the number of owners, at every moment. *)
Theorem C72_use_count ls s rs i h :
  run init ls = Ok (s, rs) -> nth_error (vars s) i = Some h ->
  step s (LUseCount i) = Ok (s, Count (match cntrl h with Some c => Z.of_nat (owners c s) | None => 0 end)).
Proof.
  intros R NE. destruct (reachable _ _ _ R) as (CO & _).
  assert (T : exists r, take_res i (vars s) = Ok (h, r)).
  { unfold take_res. clear - NE. revert i NE. induction (vars s) as [|x l IH]; intros [|i] NE; cbn in NE; try discriminate.
    - injection NE as ->. cbn. eauto.
    - destruct (IH i NE) as (r & E). cbn. destruct (take i l) as [[y r']|]; [|discriminate]. injection E as -> ->. eauto. }
  destruct T as [r T]. destruct s as [m vs raw ws ts lo ev now]. cbn [step vars] in *. rewrite T. cbn [bind].
  unfold shared_ptr_use_count. destruct (cntrl h) as [c|] eqn:CH; [|reflexivity].
  assert (O : owners c (State m vs raw ws ts lo ev now) <> 0).
  { apply (strongs_owned _ h); [|exact CH]. unfold strongs. apply in_app_iff. left. now apply nth_error_In in NE. }
  destruct (owned_alive _ c CO O) as (b & ow & G & V). cbn [mem] in G. unfold at_block. rewrite G. cbn [bind].
  now rewrite (strong_eq _ c b CO G).
Qed.
Print Assumptions C72_use_count.

(** A value that has lost its last owner never gets another one (however many weak pointers are being locked). *)
Theorem C72_no_resurrection ls s rs ls' s' rs' c :
  run init ls = Ok (s, rs) -> owners c s = 0 ->
  run s ls' = Ok (s', rs') -> Forall (fun l => ~ allocates c l) ls' ->
  (exists b, get (mem s) c = Some b) -> owners c s' = 0.
Proof.
  intros R O R' NA _. destruct (reachable _ _ _ R) as (CO & _). clear R. revert s rs' CO O R'.
  induction ls' as [|l ls' IH]; intros s rs' CO O R'; cbn in R'.
  - now injection R' as <- _.
  - destruct (step s l) as [[s1 r]| |] eqn:ST; try discriminate. cbn in R'.
    destruct (run s1 ls') as [[s2 rs2]| |] eqn:R2; try discriminate. cbn in R'. injection R' as <- _.
    inversion NA as [|? ? NA1 NA2]; subst.
    apply (IH NA2 s1 rs2); auto.
    + eapply counted_step; eauto.
    + destruct (get (mem s) c) eqn:G; [eapply no_resurrection; eauto; congruence|].
      pose proof (counted_step _ _ _ _ CO ST) as CO1. pose proof (step_change _ _ _ _ CO ST) as CH.
      assert (G1 : get (mem s1) c = None).
      { destruct CH as [M|k b b' Gk M|a p ow Gk M L C I CR|k b b' Gk V M|k b Gk V M]; rewrite M.
        - exact G.
        - rewrite get_set_other; [exact G | congruence].
        - cbn. destruct (Nat.eqb c a) eqn:Q; [|exact G]. apply Nat.eqb_eq in Q. subst a. exfalso.
          destruct s as [m vs raw ws ts lo ev now]. cbn [mem clock] in *.
          destruct l; cbn in CR; try discriminate; apply NA1; cbn [allocates]; cbn [step] in ST.
          + destruct (take_many owned vs) as [[hs v1]| |]; cbn [bind] in ST; try discriminate.
            unfold new in ST. destruct (get m a); cbn [bind] in ST; [discriminate|]. injection ST as <- _. cbn in M. congruence.
          + destruct (take_many owned vs) as [[hs v1]| |]; cbn [bind] in ST; try discriminate.
            unfold from_box, new in ST. destruct (get m a); cbn [bind] in ST; [discriminate|].
            destruct (project _ _ (Some [])); cbn [bind] in ST; try discriminate. injection ST as <- _. cbn in M. congruence.
          + unfold from_ptr_and_deleter, new in ST. destruct (get m a); cbn [bind] in ST; [discriminate|].
            destruct (valid _ (ptr _)); cbn [bind] in ST; try discriminate.
            destruct (valid _ _); cbn [bind] in ST; try discriminate. injection ST as <- _. cbn in M. congruence.
        - rewrite get_set_other; [exact G | congruence].
        - rewrite get_remove_other; [exact G | congruence]. }
      destruct CO1 as (_ & H1 & _). specialize (H1 c). unfold cell_ok in H1. rewrite G1 in H1. lia.
Qed.
Print Assumptions C72_no_resurrection.

(** [weak_ptr::lock] ends with a pointer to a value that is alive and now has one more owner, or with a null pointer, and then
    the value has no owner. *)
Theorem C72_lock ls s rs i h c s' r :
  run init ls = Ok (s, rs) ->
  (nth_error (tasks s) i = Some (TLockLoad h c) \/ exists x, nth_error (tasks s) i = Some (TLockCas h c x)) ->
  step s (LTask i) = Ok (s', r) ->
  (vars s' = h :: vars s /\ owners c s <> 0 /\ owners c s' = owners c s + 1) \/
  (vars s' = null_handle :: vars s /\ owners c s = 0) \/
  (vars s' = vars s /\ owners c s' = owners c s /\ exists x, In (TLockCas h c x) (tasks s')).
Proof.
  intros R NE ST. destruct (reachable _ _ _ R) as (CO & _). pose proof (counted_step _ _ _ _ CO ST) as CO'.
  destruct s as [m vs raw ws ts lo ev now]. cbn [step tasks vars] in *.
  assert (T : exists t rest, take_res i ts = Ok (t, rest) /\ (t = TLockLoad h c \/ exists x, t = TLockCas h c x)).
  { unfold take_res. clear - NE. revert i NE. induction ts as [|t l IH]; intros [|i] NE; cbn in NE.
    - destruct NE as [NE|[x NE]]; discriminate.
    - destruct NE as [NE|[x NE]]; discriminate.
    - exists t, l. split; [reflexivity|]. destruct NE as [NE|[x NE]]; injection NE as ->; eauto.
    - destruct (IH i NE) as (t' & rest & E & Q). cbn. destruct (take i l) as [[y r']|]; [|discriminate]. injection E as -> ->. eauto. }
  destruct T as (t & rest & T & Q). rewrite T in ST. cbn [bind] in ST. apply take_res_ok in T.
  assert (TO : task_ok t) by (destruct CO as (_ & _ & F); cbn in F; apply (Permutation_Forall T) in F; now inversion F).
  destruct Q as [->|[x ->]]; cbn [advance] in ST; unfold at_block in ST; (destruct (get m c) as [b|] eqn:G; [|discriminate]);
    pose proof (strong_eq _ c b CO G) as SE.
  - cbn [bind] in ST. injection ST as <- _. unfold lock_try in *. destruct (strong b =? -1)%Z eqn:S1; cbn [e_vars e_mem e_tasks e_weaks e_events app vars tasks] in *.
    + right. left. split; [reflexivity|]. apply Z.eqb_eq in S1. lia.
    + right. right. split; [reflexivity|]. pose proof (strong_eq _ c b CO' G). split; [lia|]. exists (strong b). now left.
  - cbn in TO. destruct TO as [_ NX]. destruct (strong b =? x)%Z eqn:SX; cbn [bind] in ST; injection ST as <- _.
    + left. cbn [e_vars e_mem e_tasks e_weaks e_events app vars tasks] in *. apply Z.eqb_eq in SX. split; [reflexivity|]. split; [lia|].
      pose proof (strong_eq _ c _ CO' (get_set_same _ _ _ _ G)) as SE'. cbn [strong] in SE'. lia.
    + unfold lock_try in *. destruct (strong b =? -1)%Z eqn:S1; cbn [e_vars e_mem e_tasks e_weaks e_events app vars tasks] in *.
      * right. left. split; [reflexivity|]. apply Z.eqb_eq in S1. lia.
      * right. right. split; [reflexivity|]. pose proof (strong_eq _ c b CO' G). split; [lia|]. exists (strong b). now left.
Qed.
Print Assumptions C72_lock.

(** ** C73: nothing is left behind *)

(** When no call is in progress, every control block in memory is kept by somebody: its value by a pointer variable (or parts
    in the hands of the caller), directly or through the values these own; an empty block by a [weak_ptr]. *)
Theorem C73_no_garbage ls s rs c b :
  run init ls = Ok (s, rs) -> quiet s -> get (mem s) c = Some b ->
  (exists h c0, In h (vars s ++ raws s ++ lost s) /\ cntrl h = Some c0 /\ keeps (mem s) c0 c) \/
  (value b = None /\ exists h, In h (weaks s) /\ cntrl h = Some c).
Proof. intros R Q G. destruct (reachable _ _ _ R) as (CO & _ & E & _). eapply no_garbage; eauto. Qed.
Print Assumptions C73_no_garbage.

(** When all pointers are gone, every value ever created was destroyed exactly once and every block freed exactly once. *)
Theorem C73_all_released ls s rs :
  run init ls = Ok (s, rs) -> all_gone s ->
  mem s = [] /\ Permutation (created ls) (destroyed_in (log s)) /\ Permutation (created ls) (freed_in (log s)).
Proof.
  intros R A. destruct (reachable _ _ _ R) as (CO & _ & E & (L1 & L2 & _)). pose proof (all_freed s CO E A) as M.
  rewrite M in L1, L2. cbn in L1, L2. split; [exact M|]. split; [exact L1 | now rewrite L1].
Qed.
Print Assumptions C73_all_released.

(** Calls in progress can always go on, whatever the others do, and they end: from any state only so many task steps are
    possible. *)
Theorem C73_calls_finish ls s rs :
  run init ls = Ok (s, rs) ->
  (tasks s <> [] -> exists s' r, step s (LTask 0) = Ok (s', r)) /\
  exists n, forall ts s' rs', Forall (fun l => exists i, l = LTask i) ts -> run s ts = Ok (s', rs') -> length ts <= n.
Proof.
  intros R. destruct (reachable _ _ _ R) as (CO & _). split; [now apply task_can_step|].
  exists (work s * (locks s + 1) + stale s). intros ts s' rs' F R'. exact (tasks_bounded (locks s) ts s s' rs' (le_n _) F R').
Qed.
Print Assumptions C73_calls_finish.

(** Parts get lost only in [project] with a closure that panics. *)
Theorem C73_lost_only_by_panics ls s rs :
  run init ls = Ok (s, rs) -> (forall i, ~ In (LProjectPanics i) ls) -> lost s = [].
Proof.
  change (@nil handle) with (lost init). generalize init. revert s rs. induction ls as [|l ls IH]; intros s rs s0 R N; cbn in R.
  - now injection R as <- _.
  - destruct (step s0 l) as [[s1 r]| |] eqn:ST; try discriminate. cbn in R.
    destruct (run s1 ls) as [[s2 rs2]| |] eqn:R2; try discriminate. cbn in R. injection R as <- _.
    rewrite (IH s2 rs2 s1 R2) by (intros i I; apply (N i); now right).
    destruct s0 as [m vs raw ws ts lo ev now]. destruct l; cbn [step] in ST.
    8: { exfalso. apply (N i). now left. }
    all: repeat match type of ST with
           | bind ?e _ = _ => destruct e as [[? ?]| |] || destruct e as [?| |]; cbn [bind] in ST; try discriminate
           | (match cntrl ?h with _ => _ end) = _ => destruct (cntrl h)
           end; try (injection ST as <- _; reflexivity).
Qed.
Print Assumptions C73_lost_only_by_panics.

(** ** C74: two documented promises that do not hold *)

(** "[ptr] must be a valid, aligned pointer ..., or null" (shared_ptr.rs:213): with a null pointer the constructor itself
    dereferences it. *)
Theorem C74_null_with_deleter_refuted a p : run init [LFromPtrAndDeleter a p true] = Ub.
Proof. cbn. unfold at_block. cbn. rewrite Nat.eqb_refl. reflexivity. Qed.
Print Assumptions C74_null_with_deleter_refuted.

(** With any other pointer the deleter runs exactly once, when the last owner is gone: C71 and C73.  *)

(** A panicking [project] closure leaks the value: whatever happens later, it is never destroyed. *)
Theorem C74_panic_leaks ls s rs h c :
  run init ls = Ok (s, rs) -> In h (lost s) -> cntrl h = Some c ->
  forall ls' s' rs', run s ls' = Ok (s', rs') -> alive (mem s') c /\ In h (lost s').
Proof.
  intros R I C ls' s' rs' R'.
  assert (RR : run init (ls ++ ls') = Ok (s', rs ++ rs')).
  { rewrite run_app, R. cbn [bind]. now rewrite R'. }
  assert (I' : In h (lost s')).
  { clear R RR C. revert s s' rs' I R'. induction ls' as [|l ls' IH]; intros s s' rs' I R'; cbn in R'.
    - now injection R' as <- _.
    - destruct (step s l) as [[s1 r]| |] eqn:ST; try discriminate. cbn in R'.
      destruct (run s1 ls') as [[s2 rs2]| |] eqn:R2; try discriminate. cbn in R'. injection R' as <- _.
      apply (IH s1 s2 rs2); [|exact R2]. destruct s as [m vs raw ws ts lo ev now]. destruct l; cbn [step] in ST.
      all: repeat match type of ST with
           | bind ?e _ = _ => destruct e as [[? ?]| |] || destruct e as [?| |]; cbn [bind] in ST; try discriminate
           | (match cntrl ?h with _ => _ end) = _ => destruct (cntrl h)
           | (match ptr ?h with _ => _ end) = _ => destruct (ptr h); try discriminate
           end; try (injection ST as <- _; cbn in *; auto). }
  split; [|exact I']. destruct (reachable _ _ _ RR) as (CO & _).
  destruct (owned_alive s' c CO) as (b & ow & G & V).
  - apply (strongs_owned _ h); [|exact C]. unfold strongs. rewrite !in_app_iff. auto.
  - exists b, ow. auto.
Qed.
Print Assumptions C74_panic_leaks.

(** ** Non-vacuity *)

(** A value [2] that owns a pointer to the value [1]; a weak_ptr to [2] is locked (load) while the last owner of [2] is dropped
    and destroyed by another thread; the CAS then fails; [1] goes with [2]. *)
Definition race : list label :=
  [LNew 10 1 []; LNew 20 2 [0]; LWeakNew 0; LWeakLock 0; LTask 0 (* lock: load 0 *);
   LDrop 0 (* of value 2 *); LTask 0 (* unref: -1 *); LTask 0 (* destroy value 2 *);
   LTask 2 (* lock: CAS 0 -> 1 fails, null *); LTask 0 (* unref value 1 *); LTask 0 (* destroy value 1 *);
   LTask 0 (* weak load of 10: 0, delete *); LTask 0 (* delete 10 *); LTask 0 (* weak load of 20 *); LTask 0 (* weak dec *);
   LDrop 0 (* the null pointer *); LWeakDrop 0; LTask 0; LTask 0].
Example race_result :
  match run init race with
  | Ok (s, _) => mem s = [] /\ vars s = [] /\ weaks s = [] /\ tasks s = [] /\
                 log s = [Destroyed 2; Destroyed 1; Freed 1; Freed 2]
  | _ => False
  end.
Proof. vm_compute. repeat split. Qed.

(** The same lock, when the CAS comes first: the value survives the drop. *)
Example race_won :
  match run init [LNew 10 1 []; LWeakNew 0; LWeakLock 0; LTask 0; LDrop 0; LTask 1; LTask 0; LTryAsRef 0; LUseCount 0] with
  | Ok (s, r) => log s = [] /\ skipn 7 r = [NonNull true; Count 1] /\ alive (mem s) 10
  | _ => False
  end.
Proof. vm_compute. repeat split. eexists. eexists. split; reflexivity. Qed.

(** A projection through an owned pointer keeps both values alive. *)
Example projected :
  match run init [LNew 10 1 []; LNew 20 2 [0]; LProject 0 (Some [0]); LTryAsRef 0] with
  | Ok (s, _) => vars s = [Handle (Into 10) (Some 20)] /\ alive (mem s) 10 /\ alive (mem s) 20 /\ keeps (mem s) 20 10 /\
                 quiet s /\ owners 10 s = 1 /\ owners 20 s = 1
  | _ => False
  end.
Proof.
  cbn. unfold at_block. cbn. repeat split.
  - exists (Block 0 0 (Some []) 1 0), []. split; reflexivity.
  - exists (Block 0 0 (Some [Handle (Into 10) (Some 10)]) 2 1), [Handle (Into 10) (Some 10)]. split; reflexivity.
  - eapply keeps_step; [reflexivity | now left | reflexivity | constructor].
Qed.

Example leaks :
  match run init [LNew 10 1 []; LProjectPanics 0] with
  | Ok (s, _) => vars s = [] /\ tasks s = [] /\ lost s = [Handle (Into 10) (Some 10)]
  | _ => False
  end.
Proof. vm_compute. repeat split. Qed.

Example race_respects : no_null_deleter race /\ NoDup (created race).
Proof.
  split; [intros a p I; cbn in I; intuition discriminate|]. cbn. constructor; [cbn; intuition lia|]. constructor; [cbn; tauto | constructor].
Qed.
