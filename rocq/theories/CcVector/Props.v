(** C67-C70: [cc_std::std::vector<T>]. *)
From Coq Require Import List Arith Lia Bool Permutation.
Import ListNotations.
From Verif.CcVector Require Import Model Spec Heap Ops Proofs Run.

Section Props.
Context {E : Type}.
Variable clone : E -> E.
Variable asan lens : bool.
Notation run := (run clone asan lens).

(** What holds after a program: its results and the contents of its variables are those of the list semantics, and every
    live vector is laid out as C++ expects. *)
Definition as_specified (ops : list op) (st : @state E) (rs : list obs) : Prop :=
  exists ss given back,
    sruns clone sinit ops ss rs given back /\
    Permutation (map fst (live ss)) (map fst (st_objs st)) /\
    (forall v s, In (v, OVector s) (st_objs st) ->
       exists xs, In (v, (KVector, xs)) (live ss) /\ cpp_vector lens (st_world st) s xs (begin_ s) (capacity s)) /\
    destroyed ss = dropped (st_world st).

Theorem C67_vector_histories ops :
  match run init ops with
  | Ok (st, rs) => as_specified ops st rs
  | Ub => False
  | Impossible => True
  end.
Proof.
  pose proof (run_ok clone asan lens ops true init sinit (R_init asan lens)) as H.
  destruct (run init ops) as [[st rs]| |]; [|exact H|exact Logic.I].
  destruct H as (ss & g & b & RS & HR). exists ss, g, b. split; [exact RS|]. split; [|split].
  - destruct HR as (L & A & B & _). rewrite A, (Permutation_map fst B), !map_map. reflexivity.
  - intros v s I. destruct (in_perm_spec asan lens _ _ _ _ _ HR I) as (xs & IL & SH & gs & G).
    exists xs. split; [exact IL|]. eapply vown_cpp_vector; [exact SH | exact G].
  - destruct HR as (L & _ & _ & _ & _ & _ & D). exact D.
Qed.

(** Every element that came to be owned by the vectors has been handed back, or destroyed, or is in a live variable, once;
    live allocations are exactly the live variables' buffers. *)
Theorem C68_ownership ops st rs :
  run init ops = Ok (st, rs) ->
  (exists ss given back, sruns clone sinit ops ss rs given back /\
     Permutation given (back ++ flat_map (fun x => snd (snd x)) (live ss) ++ dropped (st_world st))) /\
  Permutation (blocks (st_world st)) (flat_map (fun x => buffer (snd x)) (st_objs st)).
Proof.
  intros H. pose proof (run_ok clone asan lens ops true init sinit (R_init asan lens)) as RO. rewrite H in RO.
  destruct RO as (ss & g & b & RS & HR). split.
  - exists ss, g, b. split; [exact RS|]. pose proof (sruns_conserves clone _ _ _ _ _ _ RS) as P.
    cbn in P. rewrite !app_nil_r in P. rewrite P. destruct HR as (L & _ & _ & _ & _ & _ & D). rewrite D. reflexivity.
  - eapply R_blocks; exact HR.
Qed.

(** When all variables are gone, nothing is left: no allocation, and every element was handed back or destroyed, once. *)
Theorem C68_no_leaks ops st rs :
  run init ops = Ok (st, rs) -> st_objs st = [] ->
  blocks (st_world st) = [] /\
  exists ss given back, sruns clone sinit ops ss rs given back /\ Permutation given (back ++ dropped (st_world st)).
Proof.
  intros H N. pose proof (C67_vector_histories ops) as VB. rewrite H in VB. 
  pose proof (run_ok clone asan lens ops true init sinit (R_init asan lens)) as RO. rewrite H in RO.
  destruct RO as (ss & g & b & RS & HR).
  split.
  - pose proof (R_blocks asan lens _ _ _ HR) as P. rewrite N in P. cbn in P. now apply Permutation_sym, Permutation_nil in P.
  - exists ss, g, b. split; [exact RS|]. pose proof (sruns_conserves clone _ _ _ _ _ _ RS) as P.
    cbn in P. rewrite !app_nil_r in P. rewrite P. destruct HR as (L & A & B & _ & _ & _ & D).
    rewrite N in A. symmetry in A. apply map_eq_nil in A. subst L. cbn in B. apply Permutation_sym, Permutation_nil in B.
    rewrite B, D. reflexivity.
Qed.

(** No method is ever stuck: on a live vector every method call has an outcome. *)
Theorem C67_methods_go_through ops st rs v s m :
  run init ops = Ok (st, rs) -> In (v, OVector s) (st_objs st) ->
  exists ch st' r, step clone asan lens st (OCall v m ch) = Ok (st', r).
Proof.
  intros H I. pose proof (run_ok clone asan lens ops true init sinit (R_init asan lens)) as RO. rewrite H in RO.
  destruct RO as (ss & g & b & RS & HR). eapply step_call_goes; [exact HR | exact I].
Qed.

(** After [reserve(n)] there is room for [n] more elements. *)
Theorem C67_reserve ops st rs v n m ch st' r :
  run init ops = Ok (st, rs) ->
  m = Reserve n \/ m = ReserveExact n \/ m = TryReserve n \/ m = TryReserveExact n ->
  step clone asan lens st (OCall v m ch) = Ok (st', r) ->
  exists s', lookup (st_objs st') v = Some (OVector s') /\ len s' + n <= capacity s'.
Proof.
  intros H M S. pose proof (run_ok clone asan lens ops true init sinit (R_init asan lens)) as RO. rewrite H in RO.
  destruct RO as (ss & g & b & RS & HR).
  destruct (step_call_inv clone asan lens _ _ _ _ _ _ _ _ HR S) as (s & xs & w1 & s1 & out & K & SH & CA & K' & _ & gs & G).
  exists s1. split; [exact K'|].
  pose proof (call_ok clone asan lens _ _ s xs gs m ch SH G) as CO. rewrite CA in CO.
  destruct M as [->|[->|[->| ->]]]; cbn in CO; destruct CO as (_ & S1 & _ & P & _); rewrite (shape_len _ _ _ S1); exact P.
Qed.

(** ** ASan *)

(** In a program without panics, what lies between the end of the elements and the end of the buffer is poisoned, for
    every live vector; the elements themselves are never poisoned ([cpp_vector], in all programs). *)
Theorem C70_tail_poisoned ops st rs v s :
  asan = true -> run init ops = Ok (st, rs) -> ~ In Panic rs -> In (v, OVector s) (st_objs st) ->
  forall a, end_ s <= a < capacity_end s -> poisoned (st_world st) a = true.
Proof.
  intros HA H NP I. pose proof (run_ok clone asan lens ops true init sinit (R_init asan lens)) as RO. rewrite H in RO.
  destruct RO as (ss & g & b & RS & HR). cbn [andb] in HR.
  assert (PF : panic_free rs = true).
  { unfold panic_free. apply negb_true_iff. destruct (existsb is_panic rs) eqn:Q; [|reflexivity].
    apply existsb_exists in Q. destruct Q as (r & IR & P). destruct r; try discriminate. contradiction. }
  rewrite PF in HR. destruct (in_perm_spec asan lens _ _ _ _ _ HR I) as (xs & IL & SH & gs & G).
  cbn in SH, G. rewrite (shape_end _ _ _ SH), (shape_capacity_end _ _ _ SH).
  eapply (vown_tail asan true); [exact HA | reflexivity | exact G].
Qed.

End Props.

(** ** A history: non-vacuity for both layouts, with and without ASan *)

Definition history : list (@op nat) :=
  [ONew 1; OCall 1 (Push 7) (Some (10, 4)); OCall 1 (Extend [8; 9]) None; OSlice 1; OSizes 1;
   OClone 1 2 (Some (20, 3)); OCppMutate 2 [1; 2] [9] None; OAppend 1 2 (Some (30, 8)); OCppRead 1;
   OCall 1 (SwapRemove 0) None; OSplitOff 1 2 3 (Some (40, 2)); OFillTail 1 [5]; ODeref 1;
   OCall 1 (Reserve 10) (Some (50, 16)); OIntoIter 1 4; ONext 4; ONextBack 4; ODrop 4; OIntoVec 3; ODrop 2].

Example history_runs : forall asan lens,
  exists w, Model.run (fun x => x + 100) asan lens init history =
    Ok (State w [],
        [Unit; Elems []; Elems []; Elems [7; 8; 9]; Sizes 3 4 false;
         Unit; Unit; Unit; Elems [7; 8; 9; 1; 2];
         Elems [7]; Unit; Unit; Elems [2; 8; 5];
         Elems []; Unit; Item (Some 2); Item (Some 5); Unit; Elems [9; 1]; Unit])
    /\ dropped w = [9; 8] /\ blocks w = [].
Proof. intros [|] [|]; eexists; (split; [vm_compute; reflexivity | split; reflexivity]). Qed.

(** ** Panics *)

(** A call that panics on its index leaves the vector as it was and usable: covered by [C67_vector_histories]
    ([s_call_panics], [s_split_off_panics], [s_assign_panics]). *)
Example index_panic_then_use : forall asan lens,
  exists st, Model.run (fun x : nat => x) asan lens init
    [ONew 1; OCall 1 (Push 7) (Some (10, 4)); OCall 1 (Remove 3) None; OSlice 1; OCall 1 (Insert 5 6) None; OCall 1 (Push 8) None; ODrop 1] =
    Ok (st, [Unit; Elems []; Panic; Elems [7]; Panic; Elems []; Unit]) /\ dropped (st_world st) = [6; 7; 8].
Proof. intros [|] [|]; eexists; (split; [vm_compute; reflexivity | reflexivity]). Qed.

(** "A panic leaves the vector valid" is false when the caller's own code panics inside [mutate_self_as_vec] after [Vec] has
    moved to a new buffer (vector.rs:296-312): the fields still point to the freed buffer, and dropping the vector while
    the panic unwinds is undefined behaviour. *)
Definition callback_panic_is_safe : Prop :=
  forall asan lens ops st rs v s ys ch w' s' out,
    Model.run (fun x : nat => x) asan lens init ops = Ok (st, rs) -> In (v, OVector s) (st_objs st) ->
    mutate_self_as_vec asan lens (st_world st) s (vec_extend_then_panic ys ch) = Ok (w', s', out) ->
    drop asan w' s' <> Ub.

Theorem C69_callback_panic_refuted : ~ callback_panic_is_safe.
Proof.
  intros H.
  eapply (H false true [ONew 1; OCall 1 (Push 7) (Some (10, 1))] _ _ 1 _ [8] (Some (20, 2)));
    [vm_compute; reflexivity | left; reflexivity | vm_compute; reflexivity | vm_compute; reflexivity].
Qed.

(** When the buffer did not move the vector keeps its elements and can be dropped; the elements pushed before the panic are
    lost (leaked: their destructors never run).  Missing for the full claim: the case above. *)
Theorem C69_callback_panic_partial {E : Type} (clone : E -> E) asan lens ops st rs v s ys w' s' out :
  Model.run clone asan lens init ops = Ok (st, rs) -> In (v, OVector s) (st_objs st) ->
  mutate_self_as_vec asan lens (st_world st) s (vec_extend_then_panic ys None) = Ok (w', s', out) ->
  out = Panicked /\ s' = s /\
  exists xs, cpp_vector lens (st_world st) s xs (begin_ s) (capacity s) /\ cpp_vector lens w' s xs (begin_ s) (capacity s) /\
             dropped w' = dropped (st_world st) /\
             exists w2, drop asan w' s = Ok w2 /\ dropped w2 = dropped (st_world st) ++ xs.
Proof.
  intros H I M. pose proof (run_ok clone asan lens ops true init sinit (R_init asan lens)) as RO. rewrite H in RO.
  destruct RO as (ss & g & b & RS & HR).
  destruct (in_perm_spec asan lens _ _ _ _ _ HR I) as (xs & IL & SH & gs & G).
  pose proof (callback_panic_ok asan lens _ _ s xs gs ys SH G) as CO. rewrite M in CO. destruct CO as (-> & -> & G2 & D2).
  split; [reflexivity|]. split; [reflexivity|]. exists xs.
  split; [eapply vown_cpp_vector; [exact SH | exact G]|].
  split; [eapply vown_cpp_vector; [exact SH | exact G2]|]. split; [exact D2|].
  destruct (drop_ok asan lens _ _ s xs gs SH G2) as (w2 & E2 & _ & D3). exists w2. split; [exact E2|]. congruence.
Qed.

Example callback_panic_in_place : forall asan lens,
  match Model.run (fun x : nat => x) asan lens init [ONew 1; OCall 1 (Push 7) (Some (10, 4))] with
  | Ok (st, _) => match st_objs st with
                  | [(1, OVector s)] => exists w2, mutate_self_as_vec asan lens (st_world st) s (vec_extend_then_panic [8] None) = Ok (w2, s, Panicked)
                                        /\ mem w2 11 = Some 8
                  | _ => False end
  | _ => False end.
Proof. intros [|] [|]; vm_compute; eexists; split; reflexivity. Qed.

(** After a panic the tail stays unpoisoned: the annotation is not restored while unwinding. *)
Definition tail_poisoned_after_panic : Prop :=
  forall lens ops st rs v s a,
    Model.run (fun x : nat => x) true lens init ops = Ok (st, rs) -> In (v, OVector s) (st_objs st) ->
    end_ s <= a < capacity_end s -> poisoned (st_world st) a = true.

Theorem C70_after_panic_refuted : ~ tail_poisoned_after_panic.
Proof.
  intros H.
  specialize (H true [ONew 1; OCall 1 (Push 7) (Some (10, 4)); OCall 1 (Remove 3) None] _ _ 1 _ 12 eq_refl (or_introl eq_refl)).
  cbn in H. discriminate H. lia.
Qed.

Print Assumptions C67_vector_histories.
Print Assumptions C68_ownership.
Print Assumptions C68_no_leaks.
Print Assumptions C67_methods_go_through.
Print Assumptions C67_reserve.
Print Assumptions C70_tail_poisoned.
Print Assumptions C69_callback_panic_refuted.
Print Assumptions C69_callback_panic_partial.
Print Assumptions C70_after_panic_refuted.
