(** Property theorems C06-C10 about memoized queries. *)
From Coq Require Import List Arith Bool Lia.
From Verif.Memoized Require Import Model Spec Proofs.
Import ListNotations.

Lemma reachable_inv {K V} eq_dec body cd (s : @state K V) :
  reachable eq_dec body cd s -> inv s.
Proof.
  induction 1 as [|fuel s k v s' _ IH E|s k _ IH Em Ea].
  - apply inv_top. constructor.
  - pose proof (call_good eq_dec body cd fuel k IH) as G. rewrite E in G. apply G.
  - eapply inv_push; eauto.
Qed.

Section Statements.
  Context {K V : Type}.
  Variable eq_dec : forall x y : K, {x = y} + {x <> y}.
  Variable body : K -> prog K V.
  Variable cycle_default : K -> option V.
  Notation call := (call eq_dec body cycle_default).
  Notation calls := (calls eq_dec body cycle_default).

  (** ** C06.  After any history of top-level calls (which may themselves involve
      cyclic queries), a query whose plain evaluation terminates with [v] returns [v]. *)
  Theorem C06_memoization_transparent :
    forall fuel0 history s, calls fuel0 new_db history = Some s ->
    forall k v, query_value body k v ->
      exists fuel s', forall fuel', fuel <= fuel' -> call fuel' s k = RVal v s'.
  Proof.
    intros fuel0 ks s E k v Hq.
    assert (Hnew : inv (@new_db K V)) by (apply inv_top; constructor).
    destruct (@calls_inv K V eq_dec body cycle_default fuel0 ks new_db s Hnew eq_refl) as (Hi & Ha & Hm);
      [intros ? ? []|exact E|].
    apply (proj1 (evals_evalsN body _ _)) in Hq. destruct Hq as [n Hq].
    assert (Hok : stack_ok body s k) by (intros j Hj; rewrite Ha in Hj; destruct Hj).
    pose proof (@call_term K V eq_dec body cycle_default n (S n) s k v Hq (le_n _) Hi Hm Hok) as Ht.
    pose proof (@call_sound K V eq_dec body cycle_default (S n) s k Hi Hm Hok) as C.
    destruct (call (S n) s k) as [v1 s1| | | |] eqn:Ec; cbn in C; try contradiction;
      [|exfalso; eapply C; exact Hq].
    destruct C as [_ C]. rewrite (C _ _ Hq) in Ec. exists (S n), s1. intros f' Hf'.
    rewrite (call_mono eq_dec body cycle_default s k Hf'); [exact Ec|rewrite Ec; discriminate].
  Qed.

  (** ** C07.  Whatever is in the cache after a call (at any nesting depth) and was
      not there before is the answer of a fresh top-level call, started with an
      empty stack of active queries on a cache that holds at least the old entries and
      ending in one that holds at most the new ones. *)
  Theorem C07_cached_values_are_fresh_answers :
    forall s, reachable eq_dec body cycle_default s ->
    forall fuel k v s', call fuel s k = RVal v s' ->
    forall k' v', In (k', v') (memo s') -> ~ In (k', v') (memo s) ->
      exists fuel' M M', incl (memo s) M /\ incl M' (memo s') /\
        call fuel' (St M [] 0) k' = RVal v' (St M' [] 0).
  Proof.
    intros s Hr fuel k v s' E k' v' Hin Hout.
    pose proof (call_entries eq_dec body cycle_default fuel k (reachable_inv _ _ _ _ Hr)) as H.
    rewrite E in H. destruct (H k' v' Hin) as [|(f & M & M' & H1 & H2 & _ & H3)]; [contradiction|].
    exists f, M, M'. auto.
  Qed.

  (** The cache has one entry per key and is only ever extended. *)
  Theorem C07_cache_monotone :
    forall s, reachable eq_dec body cycle_default s -> NoDup (map fst (memo s)) /\
    forall fuel k v s', call fuel s k = RVal v s' -> incl (memo s) (memo s').
  Proof.
    intros s Hr. apply reachable_inv in Hr. split; [apply Hr|]. intros fuel k v s' E.
    pose proof (call_good eq_dec body cycle_default fuel k Hr) as G. rewrite E in G. apply G.
  Qed.

  (** ** C08 *)
  Theorem C08_cycle_bookkeeping_exact :
    forall s, reachable eq_dec body cycle_default s ->
      unwinding s = on_cycle (active s) /\
      forall fuel k,
        call fuel s k <> RExpectPanic /\ call fuel s k <> RUnderflow /\
        forall v s', call fuel s k = RVal v s' ->
          map fst (active s') = map fst (active s) /\
          (active s = [] -> s' = St (memo s') [] 0 /\ lookup eq_dec (memo s') k = Some v).
  Proof.
    intros s Hr. apply reachable_inv in Hr. split; [apply (I_cnt Hr)|]. intros fuel k.
    pose proof (call_good eq_dec body cycle_default fuel k Hr) as G.
    split; [intro E; rewrite E in G; exact G|]. split; [intro E; rewrite E in G; exact G|].
    intros v s' E. rewrite E in G. destruct G as (G1 & G2 & G3).
    apply flag_le_fst in G2 as G2'. split; [now symmetry|]. intro Ha. rewrite Ha in G2.
    assert (Ha' : [] = active s') by now inversion G2. pose proof (top_state G1 (eq_sym Ha')) as Es.
    split; [exact Es|]. apply (@In_lookup K V eq_dec body cycle_default V); [apply (I_memo G1)|].
    eapply (@call_caches K V eq_dec body cycle_default fuel s k v s' Hr); [|exact E|].
    - rewrite Ha. reflexivity.
    - rewrite Es. reflexivity.
  Qed.

  (** Consequently a repeated top-level call runs no body at all (fuel 0 suffices)
      and gives the same value. *)
  Theorem C08_repeat_call_is_cached :
    forall fuel0 history s, calls fuel0 new_db history = Some s ->
    forall fuel k v s', call fuel s k = RVal v s' -> forall fuel', call fuel' s' k = RVal v s'.
  Proof.
    intros fuel0 ks s E fuel k v s' Ek fuel'.
    assert (Hgen : forall ks s0, reachable eq_dec body cycle_default s0 -> active s0 = [] ->
              calls fuel0 s0 ks = Some s -> reachable eq_dec body cycle_default s /\ active s = []).
    { clear. induction ks as [|k ks IH]; cbn; intros s0 Hr Ha E; [injection E as <-; auto|].
      destruct (call fuel0 s0 k) as [v s1| | | |] eqn:Ec; try discriminate.
      destruct (C08_cycle_bookkeeping_exact s0 Hr) as [_ H]. specialize (H fuel0 k).
      destruct H as (_ & _ & H). destruct (H v s1 Ec) as [_ H']. destruct (H' Ha) as [H1 _].
      eapply IH; [eapply R_call; eauto| |exact E]. rewrite H1. reflexivity. }
    destruct (Hgen ks new_db (R_new _ _ _) eq_refl E) as [Hr Ha].
    destruct (C08_cycle_bookkeeping_exact s Hr) as [_ H]. specialize (H fuel k).
    destruct H as (_ & _ & H). destruct (H v s' Ek) as [_ H']. destruct (H' Ha) as [_ H1].
    destruct fuel'; cbn; rewrite H1; reflexivity.
  Qed.
End Statements.

(** ** C10.  Independence of the order of earlier queries: true for queries whose
    plain evaluation terminates, false for cyclic ones. *)
Theorem C10_order_independent_partial :
  forall (K V : Type) eq_dec (body : K -> prog K V) cd fuel1 fuel2 h1 h2 s1 s2,
    calls eq_dec body cd fuel1 new_db h1 = Some s1 ->
    calls eq_dec body cd fuel2 new_db h2 = Some s2 ->
    forall k v, query_value body k v ->
    exists fuel s1' s2', call eq_dec body cd fuel s1 k = RVal v s1' /\ call eq_dec body cd fuel s2 k = RVal v s2'.
Proof.
  intros K V eq_dec body cd f1 f2 h1 h2 s1 s2 E1 E2 k v Hq.
  destruct (C06_memoization_transparent eq_dec body cd f1 h1 s1 E1 k v Hq) as (n1 & s1' & H1).
  destruct (C06_memoization_transparent eq_dec body cd f2 h2 s2 E2 k v Hq) as (n2 & s2' & H2).
  exists (max n1 n2), s1', s2'. split; [apply H1|apply H2]; lia.
Qed.

(** Two queries that ask each other and add one; default 0 on a cycle. *)
Definition cyc_body (k : bool) : prog bool nat := Ask (negb k) (fun v => Ret (S v)).
Theorem C10_order_independence_refuted :
  ~ (forall (K V : Type) eq_dec (body : K -> prog K V) cd fuel h1 h2 s1 s2,
       calls eq_dec body cd fuel new_db h1 = Some s1 ->
       calls eq_dec body cd fuel new_db h2 = Some s2 ->
       forall k v1 v2 s1' s2',
         call eq_dec body cd fuel s1 k = RVal v1 s1' -> call eq_dec body cd fuel s2 k = RVal v2 s2' ->
         v1 = v2).
Proof.
  intro H.
  specialize (H bool nat bool_dec cyc_body (fun _ => Some 0) 5 [] [true] _ _ eq_refl eq_refl
                false 2 3 _ _ eq_refl eq_refl). discriminate.
Qed.

(** ** C09 *)
Section C09.
  Context {I A R : Type}.
  Variable eq_dec : forall x y : A, {x = y} + {x <> y}.
  Variable f : I -> A -> R.
  (** Missing part: histories that create more than 256 databases, where the claim
      is false (next theorem). *)
  Theorem C09_memoized_tables_separate_partial :
    forall history, databases_created history <= 256 ->
    forall d a x, let w := run eq_dec f world0 history in
      nth_error (dbs w) d = Some x ->
      snd (step eq_dec f w (CallOn d a)) = Some (f (db_input x) a).
  Proof.
    intros h Hn d a x w Hx.
    assert (Hn' : news h <= 256).
    { unfold databases_created in Hn. unfold news.
      erewrite filter_ext; [exact Hn|]. intros []; reflexivity. }
    pose proof (@run_inv I A R eq_dec f h 0 world0 (winv0 eq_dec f) Hn') as Hw. fold w in Hw.
    eapply (@step_inv I A R eq_dec f (0 + news h) w (CallOn d a) Hw); [|reflexivity|exact Hx].
    unfold news. cbn. fold (news h). lia.
  Qed.
End C09.

Theorem C09_memoized_tables_separate_refuted :
  ~ (forall (I A R : Type) eq_dec (f : I -> A -> R) history d a x,
       let w := run eq_dec f world0 history in
       nth_error (dbs w) d = Some x ->
       snd (step eq_dec f w (CallOn d a)) = Some (f (db_input x) a)).
Proof.
  intro H.
  (* database 0 with input 0, a call on it, 255 more databases, then one with input 1 *)
  specialize (H nat nat nat Nat.eq_dec (fun i _ => i)
                (NewDb 0 :: CallOn 0 7 :: repeat NewDbElsewhere 255 ++ [NewDb 1]) 1 7
                (Db 0 1)).
  assert (E : nth_error (dbs (run Nat.eq_dec (fun i _ => i) (@world0 nat nat nat)
                (NewDb 0 :: CallOn 0 7 :: repeat NewDbElsewhere 255 ++ [NewDb 1]))) 1 = Some (Db 0 1))
    by (vm_compute; reflexivity).
  specialize (H E). vm_compute in H. discriminate.
Qed.

(** ** Non-vacuity.  Fibonacci-like queries over [nat] plus a cyclic pair: keys
    [inl n] (acyclic) and [inr b] (cyclic, default 0). *)
Definition ex_body (k : nat + bool) : prog (nat + bool) nat :=
  match k with
  | inl 0 => Ret 1
  | inl 1 => Ret 1
  | inl (S (S n)) => Ask (inl (S n)) (fun a => Ask (inl n) (fun b => Ret (a + b)))
  | inr b => Ask (inl 3) (fun x => Ask (inr (negb b)) (fun v => Ret (x + v)))
  end.
Definition ex_eq : forall x y : nat + bool, {x = y} + {x <> y}.
Proof. decide equality; [apply Nat.eq_dec|apply bool_dec]. Defined.
Example ex_history :
  match calls ex_eq ex_body (fun _ => Some 0) 20 new_db [inr true; inl 5; inr false] with
  | Some s => (memo s, active s, unwinding s)
  | None => ([], [], 1)
  end = ([(inr false, 9); (inl 5, 8); (inl 4, 5); (inr true, 6); (inl 3, 3); (inl 2, 2); (inl 0, 1); (inl 1, 1)], [], 0).
Proof. vm_compute. reflexivity. Qed.
Example ex_value : query_value ex_body (inl 5) 8.
Proof.
  unfold query_value. cbn. repeat (econstructor; cbn).
Qed.
Example ex_cycle_panics :
  call ex_eq ex_body (fun _ => None) 20 new_db (inr true) = RCyclePanic (inr true).
Proof. reflexivity. Qed.
Example ex_nested_reachable :
  reachable ex_eq ex_body (fun _ => Some 0) (St [] [(inr true, false)] 0).
Proof. apply (R_enter ex_eq ex_body (fun _ => Some 0) new_db (inr true)); constructor. Qed.
(** Inside [inr true], the call of [inr false] flags it and is not cached. *)
Example ex_nested_call :
  call ex_eq ex_body (fun _ => Some 0) 20 (St [(inl 3, 3)] [(inr true, false)] 0) (inr false)
  = RVal 3 (St [(inl 3, 3)] [(inr true, true)] 1).
Proof. reflexivity. Qed.
Example ex_256_dbs :
  databases_created (NewDb 0 :: CallOn 0 7 :: repeat (@NewDbElsewhere nat nat) 254 ++ [NewDb 1]) = 256.
Proof. reflexivity. Qed.

Print Assumptions C06_memoization_transparent.
Print Assumptions C07_cached_values_are_fresh_answers.
Print Assumptions C07_cache_monotone.
Print Assumptions C08_cycle_bookkeeping_exact.
Print Assumptions C08_repeat_call_is_cached.
Print Assumptions C10_order_independent_partial.
Print Assumptions C10_order_independence_refuted.
Print Assumptions C09_memoized_tables_separate_partial.
Print Assumptions C09_memoized_tables_separate_refuted.
