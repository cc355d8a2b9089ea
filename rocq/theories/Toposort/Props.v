(** Property theorems C01-C05 about [toposort].

    [pop], [it1], [it2] range over every binary-heap layout and every hash-map
    iteration order; [cmp] over every comparator (lawful where stated). *)
From Coq Require Import List Arith Bool Lia Permutation Relations.
From Verif.Toposort Require Import Model Spec Proofs.
Import ListNotations.

Section Statements.
  Context {A : Type}.
  Variable eq_dec : forall x y : A, {x = y} + {x <> y}.

  Definition deps_known (nodes : list A) (deps : list (A * A)) : Prop :=
    forall p s, In (p, s) deps -> In p nodes /\ In s nodes.

  (** ** C01 *)
  Theorem C01_toposort_partition :
    forall cmp pop it1 it2, heap_contract pop -> iter_contract it1 -> iter_contract it2 ->
    forall nodes deps,
      (deps_known nodes deps ->
         exists ordered failed,
           toposort eq_dec cmp pop it1 it2 nodes deps = Done (ordered, failed) /\
           NoDup (ordered ++ failed) /\
           (forall x, In x (ordered ++ failed) <-> In x nodes)) /\
      (~ deps_known nodes deps ->
         toposort eq_dec cmp pop it1 it2 nodes deps = Panicked BadSuccessor \/
         toposort eq_dec cmp pop it1 it2 nodes deps = Panicked BadPredecessor).
  Proof.
    intros cmp pop it1 it2 Hp H1 H2 nodes deps. split; intro Hd.
    - destruct (@toposort_char A eq_dec cmp pop Hp nodes deps Hd it1 it2 H1 H2)
        as (out & fl & E & Hno & Hnf & Hfl & Hout & _).
      exists out, fl. split; [exact E|]. split.
      + clear -Hno Hnf Hfl. induction out as [|x out IH] using rev_ind; [exact Hnf|].
        revert Hno Hfl. generalize (out ++ [x]). intros l Hno Hfl.
        induction l as [|y l IHl]; [exact Hnf|]. cbn. inversion Hno; subst. constructor.
        * rewrite in_app_iff. intros [H|H]; [auto|]. apply Hfl in H. destruct H as [_ H]. apply H. now left.
        * clear IHl. assert (Hdisj : forall z, In z fl -> ~ In z l).
          { intros z Hz Hl. apply Hfl in Hz. apply Hz. now right. }
          clear Hfl Hno. match goal with H : NoDup l |- _ => rename H into Hl end.
          clear -Hl Hnf Hdisj. induction l as [|z l IH]; [exact Hnf|]. inversion Hl; subst. cbn. constructor.
          -- rewrite in_app_iff. intros [H|H]; [auto|]. apply (Hdisj z H). now left.
          -- apply IH; [assumption|]. intros w Hw Hwl. apply (Hdisj w Hw). now right.
      + intro x. rewrite in_app_iff, Hfl. split; [intros [H|[H _]]; auto|].
        intro Hx. destruct (in_dec eq_dec x out); auto.
    - unfold toposort.
      destruct (@add_deps_bad A eq_dec nodes deps [] _ (build_inv eq_dec nodes) Hd) as [E|E];
        rewrite E; cbn; auto.
  Qed.

  (** ** C02 *)
  Theorem C02_toposort_respects_deps :
    forall cmp pop it1 it2, heap_contract pop -> iter_contract it1 -> iter_contract it2 ->
    forall nodes deps ordered failed,
      toposort eq_dec cmp pop it1 it2 nodes deps = Done (ordered, failed) ->
      forall p s, In (p, s) deps -> In s ordered -> p <> s /\ before ordered p s /\ ~ before ordered s p.
  Proof.
    intros cmp pop it1 it2 Hp H1 H2 nodes deps out fl E p s Hps Hs.
    destruct (Classical_free_deps_known eq_dec nodes deps) as [Hd|Hd].
    - destruct (@toposort_char A eq_dec cmp pop Hp nodes deps Hd it1 it2 H1 H2)
        as (out' & fl' & E' & Hno & _ & _ & _ & Hord & _).
      rewrite E in E'. injection E' as <- <-.
      assert (Hb : before out p s).
      { eapply before_edges; eauto. now apply t_step. }
      split; [|split; [exact Hb|]].
      + intros ->. eapply before_irrefl; eauto.
      + intro Hb'. eapply before_asym; eauto.
    - destruct (proj2 (C01_toposort_partition cmp pop it1 it2 Hp H1 H2 nodes deps) Hd); congruence.
  Qed.

  (** ** C03 *)
  Theorem C03_toposort_failed_iff_behind_cycle :
    forall cmp pop it1 it2, heap_contract pop -> iter_contract it1 -> iter_contract it2 ->
    forall nodes deps ordered failed,
      toposort eq_dec cmp pop it1 it2 nodes deps = Done (ordered, failed) ->
      forall x, In x failed <-> In x nodes /\ stuck_behind_cycle deps x.
  Proof.
    intros cmp pop it1 it2 Hp H1 H2 nodes deps out fl E.
    destruct (Classical_free_deps_known eq_dec nodes deps) as [Hd|Hd].
    - destruct (@toposort_char A eq_dec cmp pop Hp nodes deps Hd it1 it2 H1 H2)
        as (out' & fl' & E' & Hno & _ & Hfl & _ & Hord & Hav & _).
      rewrite E in E'. injection E' as <- <-.
      eapply failed_iff_stuck; eauto.
    - destruct (proj2 (C01_toposort_partition cmp pop it1 it2 Hp H1 H2 nodes deps) Hd); congruence.
  Qed.

  (** ** C04 *)
  Theorem C04_toposort_greedy :
    forall cmp pop it1 it2, heap_contract pop -> iter_contract it1 -> iter_contract it2 ->
    lawful cmp -> heap_max_contract cmp pop ->
    forall nodes deps ordered failed,
      toposort eq_dec cmp pop it1 it2 nodes deps = Done (ordered, failed) ->
      greedy cmp nodes deps ordered.
  Proof.
    intros cmp pop it1 it2 Hp H1 H2 Hl Hm nodes deps out fl E.
    destruct (Classical_free_deps_known eq_dec nodes deps) as [Hd|Hd].
    - destruct (@toposort_char A eq_dec cmp pop Hp nodes deps Hd it1 it2 H1 H2)
        as (out' & fl' & E' & Hno & _ & Hfl & _ & Hord & Hav & Hg & _).
      rewrite E in E'. injection E' as <- <-.
      split; [apply Hg; split; assumption|exact Hav].
    - destruct (proj2 (C01_toposort_partition cmp pop it1 it2 Hp H1 H2 nodes deps) Hd); congruence.
  Qed.

  (** The ordered part is the same for every heap layout and every hash order. *)
  Theorem C04_toposort_deterministic :
    forall cmp pop it1 it2 pop' it1' it2',
    heap_contract pop -> iter_contract it1 -> iter_contract it2 -> heap_max_contract cmp pop ->
    heap_contract pop' -> iter_contract it1' -> iter_contract it2' -> heap_max_contract cmp pop' ->
    lawful cmp ->
    forall nodes deps ordered failed ordered' failed',
      toposort eq_dec cmp pop it1 it2 nodes deps = Done (ordered, failed) ->
      toposort eq_dec cmp pop' it1' it2' nodes deps = Done (ordered', failed') ->
      ordered = ordered'.
  Proof.
    intros cmp pop it1 it2 pop' it1' it2' Hp H1 H2 Hm Hp' H1' H2' Hm' Hl nodes deps o f o' f' E E'.
    apply (@greedy_unique A cmp nodes deps Hl).
    - exact (C04_toposort_greedy cmp pop it1 it2 Hp H1 H2 Hl Hm nodes deps o f E).
    - exact (C04_toposort_greedy cmp pop' it1' it2' Hp' H1' H2' Hl Hm' nodes deps o' f' E').
  Qed.

  (** If some arrangement of all the nodes is sorted by preference and already
      respects the dependencies, it is the output. *)
  Theorem C04_toposort_keeps_preferred :
    forall cmp pop it1 it2, heap_contract pop -> iter_contract it1 -> iter_contract it2 ->
    lawful cmp -> heap_max_contract cmp pop ->
    forall nodes deps l,
      NoDup l -> (forall x, In x l <-> In x nodes) ->
      (forall x y, before l x y -> preferred cmp nodes x y) ->
      (forall p s, In (p, s) deps -> before l p s) ->
      toposort eq_dec cmp pop it1 it2 nodes deps = Done (l, []).
  Proof.
    intros cmp pop it1 it2 Hp H1 H2 Hl Hm nodes deps l Hnd Hin Hpref Hdep.
    assert (Hd : deps_known nodes deps).
    { intros p s H. destruct (Hdep p s H) as (a & b & c & ->).
      split; apply Hin; rewrite ?in_app_iff; cbn; rewrite ?in_app_iff; cbn; auto. }
    destruct (@toposort_char A eq_dec cmp pop Hp nodes deps Hd it1 it2 H1 H2)
        as (out & fl & E & Hno & _ & Hfl & _ & Hord & Hav & Hg & _).
    assert (Hgr : greedy cmp nodes deps l).
    { apply sorted_topological_greedy; auto. intros l1 x l2 -> p Hpx.
      destruct (Hdep p x Hpx) as (a & b & c & E').
      assert (Hx : l1 = a ++ p :: b).
      { replace (a ++ p :: b ++ x :: c) with ((a ++ p :: b) ++ x :: c) in E'
          by (rewrite <- app_assoc; reflexivity).
        eapply split_unique; [exact Hnd|exact E']. }
      rewrite Hx. apply in_app_iff. right. now left. }
    assert (out = l).
    { eapply (@greedy_unique A cmp nodes deps); [assumption| |exact Hgr].
      eapply C04_toposort_greedy; eauto. }
    subst out. rewrite E. f_equal. f_equal. destruct fl as [|z fl]; [reflexivity|].
    exfalso. destruct (proj1 (Hfl z) (or_introl eq_refl)) as [Hz1 Hz2]. now apply Hz2, Hin.
  Qed.

  (** ** C05 *)
  Theorem C05_toposort_failed_sorted :
    forall cmp pop it1 it2, heap_contract pop -> iter_contract it1 -> iter_contract it2 ->
    lawful cmp ->
    forall nodes deps ordered failed,
      toposort eq_dec cmp pop it1 it2 nodes deps = Done (ordered, failed) ->
      sorted_by cmp failed.
  Proof.
    intros cmp pop it1 it2 Hp H1 H2 Hl nodes deps out fl E.
    destruct (Classical_free_deps_known eq_dec nodes deps) as [Hd|Hd].
    - destruct (@toposort_char A eq_dec cmp pop Hp nodes deps Hd it1 it2 H1 H2)
        as (out' & fl' & E' & _ & _ & _ & _ & _ & _ & _ & Hs & _).
      rewrite E in E'. injection E' as <- <-. now apply ssorted_sorted_by, Hs.
    - destruct (proj2 (C01_toposort_partition cmp pop it1 it2 Hp H1 H2 nodes deps) Hd); congruence.
  Qed.

  Theorem C05_toposort_failed_deterministic :
    forall cmp pop it1 it2 pop' it1' it2',
    heap_contract pop -> iter_contract it1 -> iter_contract it2 ->
    heap_contract pop' -> iter_contract it1' -> iter_contract it2' ->
    lawful cmp ->
    forall nodes deps ordered failed ordered' failed',
      (forall x y, In x nodes -> In y nodes -> cmp x y = Eq -> x = y) ->
      toposort eq_dec cmp pop it1 it2 nodes deps = Done (ordered, failed) ->
      toposort eq_dec cmp pop' it1' it2' nodes deps = Done (ordered', failed') ->
      failed = failed'.
  Proof.
    intros cmp pop it1 it2 pop' it1' it2' Hp H1 H2 Hp' H1' H2' Hl nodes deps o f o' f' Hne E E'.
    pose proof (@C03_toposort_failed_iff_behind_cycle cmp pop it1 it2 Hp H1 H2 _ _ _ _ E) as HF.
    pose proof (@C03_toposort_failed_iff_behind_cycle cmp pop' it1' it2' Hp' H1' H2' _ _ _ _ E') as HF'.
    destruct (Classical_free_deps_known eq_dec nodes deps) as [Hd|Hd].
    - destruct (@toposort_char A eq_dec cmp pop Hp nodes deps Hd it1 it2 H1 H2)
        as (? & ? & E1 & _ & Hn & _ & _ & _ & _ & _ & Hs & _).
      rewrite E in E1. injection E1 as <- <-.
      destruct (@toposort_char A eq_dec cmp pop' Hp' nodes deps Hd it1' it2' H1' H2')
        as (? & ? & E1 & _ & Hn' & _ & _ & _ & _ & _ & Hs' & _).
      rewrite E' in E1. injection E1 as <- <-.
      eapply sorted_unique; [|now apply Hs|now apply Hs'|].
      + apply NoDup_Permutation; auto. intro x. now rewrite HF, HF'.
      + intros x y Hx Hy Hxy Hyx. apply Hne; [now apply HF in Hx|now apply HF in Hy|].
        destruct Hl as [Hopp _]. rewrite (Hopp x y) in Hyx. destruct (cmp x y); cbn in *; congruence.
    - destruct (proj2 (C01_toposort_partition cmp pop it1 it2 Hp H1 H2 nodes deps) Hd); congruence.
  Qed.
End Statements.

(** With ties in the comparator the order of [failed] depends on the hash-map
    iteration order: the unconditional determinism claim is false. *)
Theorem C05_toposort_failed_ties_refuted :
  ~ (forall (cmp : nat -> nat -> comparison) pop it1 it2 it2',
       lawful cmp -> heap_contract pop -> heap_max_contract cmp pop ->
       iter_contract it1 -> iter_contract it2 -> iter_contract it2' ->
       forall nodes deps r r',
         toposort Nat.eq_dec cmp pop it1 it2 nodes deps = Done r ->
         toposort Nat.eq_dec cmp pop it1 it2' nodes deps = Done r' ->
         snd r = snd r').
Proof.
  intro H.
  set (cmp := fun _ _ : nat => Eq).
  assert (Hl : lawful cmp) by (split; [reflexivity|intros; discriminate]).
  specialize (H cmp (scan_pop cmp) (fun g => g) (fun l => l) (@rev nat) Hl
                (scan_pop_contract cmp) (scan_pop_max Hl)
                (fun l => Permutation_refl l) (fun l => Permutation_refl l)
                (fun l => Permutation_rev l)
                [1; 2] [(1, 2); (2, 1)] ([], [1; 2]) ([], [2; 1]) eq_refl eq_refl).
  discriminate.
Qed.

(** ** Non-vacuity: a concrete graph with a diamond, a duplicate node, a cycle
    3 -> 4 -> 3 and a node 5 behind it.  All hypotheses above are met. *)
Definition ex_nodes := [7; 1; 2; 0; 3; 4; 5; 1].
Definition ex_deps := [(0, 1); (0, 2); (1, 7); (2, 7); (3, 4); (4, 3); (4, 5); (1, 5)].

Lemma nat_compare_lawful : lawful Nat.compare.
Proof.
  split; [intros; apply Nat.compare_antisym|].
  intros x y z. rewrite !Nat.compare_gt_iff. lia.
Qed.
Example ex_run :
  toposort Nat.eq_dec Nat.compare (scan_pop Nat.compare) (@rev _) (@rev _) ex_nodes ex_deps
  = Done ([0; 1; 2; 7], [3; 4; 5]).
Proof. reflexivity. Qed.
Example ex_contracts :
  heap_contract (scan_pop Nat.compare) /\ heap_max_contract Nat.compare (scan_pop Nat.compare) /\
  iter_contract (@rev (nat * @gnode nat)) /\ iter_contract (@rev nat) /\ lawful Nat.compare /\
  deps_known ex_nodes ex_deps.
Proof.
  split; [apply scan_pop_contract|]. split; [apply scan_pop_max, nat_compare_lawful|].
  split; [intro l; apply Permutation_rev|]. split; [intro l; apply Permutation_rev|].
  split; [apply nat_compare_lawful|].
  intros p s H. cbn in H. repeat (destruct H as [[= <- <-]|H]; [cbn; tauto|]). destruct H.
Qed.
Example ex_panics :
  toposort Nat.eq_dec Nat.compare (scan_pop Nat.compare) (fun g => g) (fun l => l) [1; 2] [(3, 2)]
  = Panicked BadPredecessor.
Proof. reflexivity. Qed.
Example ex_keeps :
  toposort Nat.eq_dec Nat.compare (scan_pop Nat.compare) (fun g => g) (fun l => l)
    [4; 2; 3; 1] [(2, 3)] = Done ([1; 2; 3; 4], []).
Proof. reflexivity. Qed.

Print Assumptions C01_toposort_partition.
Print Assumptions C02_toposort_respects_deps.
Print Assumptions C03_toposort_failed_iff_behind_cycle.
Print Assumptions C04_toposort_greedy.
Print Assumptions C04_toposort_deterministic.
Print Assumptions C04_toposort_keeps_preferred.
Print Assumptions C05_toposort_failed_sorted.
Print Assumptions C05_toposort_failed_deterministic.
Print Assumptions C05_toposort_failed_ties_refuted.
