(** No step is undefined, calls in progress can always go on, and they end. *)
From Coq Require Import List Arith ZArith Lia Bool Permutation.
Import ListNotations.
From Verif.CcShared Require Import Model Spec Counts Pointers.

Lemma advance_ok s t : counted s -> In t (tasks s) -> exists e, advance (mem s) t = Ok e.
Proof.
  intros (N & H & F) I. rewrite Forall_forall in F. specialize (F t I).
  assert (G : forall c, (about_to_unref c t <> 0 \/ t_weak c t <> 0 \/ t_destroy c t <> 0 \/ t_delete c t <> 0) ->
              exists b, get (mem s) c = Some b /\ (t_destroy c t <> 0 -> value b <> None)).
  { intros c Q. specialize (H c). unfold cell_ok, owners, wcount in H.
    pose proof (sum_in (about_to_unref c) _ t I). pose proof (sum_in (t_weak c) _ t I).
    pose proof (sum_in (t_destroy c) _ t I). pose proof (sum_in (t_delete c) _ t I).
    destruct (get (mem s) c) as [b|] eqn:G; [|lia]. exists b. split; [reflexivity|]. intros D V.
    unfold block_ok in H. rewrite V in H. lia. }
  destruct t as [c|c|c|c|c|h c|h c x]; cbn [advance]; unfold deleter, at_block;
    (destruct (G c) as (b & Gb & V);
       [cbn [about_to_unref t_weak t_destroy t_delete task_ok] in *;
        try match goal with
        | T : cntrl h = Some c /\ _ |- _ => rewrite (refers_some c h c (proj1 T))
        | T : cntrl h = Some c |- _ => rewrite (refers_some c h c T)
        end; rewrite Nat.eqb_refl; lia | rewrite Gb]); try (eexists; reflexivity).
  - destruct (value b) as [ow|]; [eexists; reflexivity|]. exfalso. apply V; [|reflexivity]. cbn. rewrite Nat.eqb_refl. lia.
  - destruct (strong b =? x)%Z; eexists; reflexivity.
Qed.

Lemma take_many_no_ub is : forall v, take_many is v <> Ub.
Proof.
  induction is as [|i is IH]; intros v T; cbn in T; [discriminate|].
  unfold take_res in T; destruct (take i v) as [[? v']|]; cbn in T; try discriminate.
  destruct (take_many is v') as [[? ?]| |] eqn:E; cbn in T; try discriminate. exact (IH v' E).
Qed.

Lemma step_no_ub s l : counted s -> pointers s -> (forall a p, l <> LFromPtrAndDeleter a p true) -> step s l <> Ub.
Proof.
  intros CO PO NN ST. destruct s as [m vs rs ws ts lo ev now].
  destruct l; cbn [step] in ST;
    repeat match type of ST with
           | context [take_many ?a ?b] => destruct (take_many a b) as [[? ?]| |] eqn:?; cbn [bind] in ST; try discriminate
           | context [take_res ?a ?b] => destruct (take_res a b) as [[? ?]| |] eqn:?; cbn [bind] in ST; try discriminate
           end.
  all: try (match goal with T : take_res _ _ = Ub |- _ => unfold take_res in T; destruct (take _ _) as [[? ?]|]; discriminate end).
  all: try (match goal with T : take_many _ _ = Ub |- _ => exact (take_many_no_ub _ _ T) end).
  all: repeat match goal with
           | T : take_many _ _ = _ |- _ => apply take_many_ok in T
           | T : take_res _ _ = _ |- _ => apply take_res_ok in T
           end.
  all: try (assert (IH : In h (strongs (State m vs rs ws ts lo ev now)));
            [unfold strongs; cbn; apply in_app_iff; left; match goal with T : Permutation ?v _ |- In _ ?v => rewrite T end; now left|]).
  all: try (assert (IW : In h (weakly (State m vs rs ws ts lo ev now)));
            [unfold weakly; cbn; apply in_app_iff; left; match goal with T : Permutation ?v _ |- In _ ?v => rewrite T end; now left|]).
  all: try discriminate.
  - unfold new in ST. destruct (get m a); discriminate.
  - unfold from_box, new in ST. destruct (get m a) eqn:G; [discriminate|]. cbn in ST. unfold at_block in ST. cbn in ST.
    rewrite Nat.eqb_refl in ST. cbn in ST. discriminate.
  - unfold from_ptr_and_deleter, new in ST. destruct (get m a) eqn:G; [discriminate|]. cbn in ST. unfold at_block in ST. cbn in ST.
    rewrite Nat.eqb_refl in ST. cbn in ST. destruct is_null; [now apply (NN a p)|]. cbn in ST. unfold at_block in ST. cbn in ST.
    rewrite Nat.eqb_refl in ST. discriminate.
  - unfold clone, shared_ptr_ref, at_block in ST. destruct (cntrl h) as [c|] eqn:CH; [|discriminate].
    destruct (owned_alive _ c CO (strongs_owned _ _ IH c CH)) as (b & ow & G & V). cbn in G. rewrite G in ST. discriminate.
  - pose proof (project_ok _ h f CO PO (proj1 PO h IH) (strongs_owned _ h IH)) as OK. cbn [mem] in OK.
    destruct (project m h f); cbn [bind] in ST; try discriminate. exact OK.
  - pose proof (handle_valid _ h CO (proj1 PO h IH) (strongs_owned _ h IH)) as OK. cbn [mem] in OK.
    destruct (ptr h) as [|x|]; [discriminate| |]; rewrite OK in ST by discriminate; discriminate.
  - pose proof (handle_valid _ h CO (proj1 PO h IH) (strongs_owned _ h IH)) as OK. cbn [mem] in OK. unfold try_as_ref in ST.
    destruct (ptr h) as [|x|]; [discriminate| |]; rewrite OK in ST by discriminate; discriminate.
  - unfold shared_ptr_use_count, at_block in ST. destruct (cntrl h) as [c|] eqn:CH; [|discriminate].
    destruct (owned_alive _ c CO (strongs_owned _ _ IH c CH)) as (b & ow & G & V). cbn in G. rewrite G in ST. discriminate.
  - unfold add_weak, at_block in ST. destruct (cntrl h) as [c|] eqn:CH; [|discriminate].
    destruct (owned_alive _ c CO (strongs_owned _ _ IH c CH)) as (b & ow & G & V). cbn in G. rewrite G in ST. discriminate.
  - unfold add_weak, at_block in ST. destruct (cntrl h) as [c|] eqn:CH; [|discriminate].
    pose proof (wref_some _ c CO (weakly_wcount _ _ _ IW CH)) as G. cbn in G. destruct (get m c); [discriminate | congruence].
  - destruct (cntrl h); discriminate.
  - destruct (advance_ok (State m vs rs ws ts lo ev now) t CO) as [e AD].
    { cbn. rewrite Heqr. now left. }
    cbn [mem] in AD. rewrite AD in ST. discriminate.
Qed.

(** ** All executions *)

Lemma run_inv ls : forall s s' rs, counted s -> pointers s -> run s ls = Ok (s', rs) -> counted s' /\ pointers s'.
Proof.
  induction ls as [|l ls IH]; intros s s' rs CO PO R; cbn in R.
  - injection R as <- _. auto.
  - destruct (step s l) as [[s1 r]| |] eqn:ST; try discriminate. cbn in R.
    destruct (run s1 ls) as [[s2 rs2]| |] eqn:R2; try discriminate. cbn in R. injection R as <- _.
    eapply IH; [| |exact R2]; [eapply counted_step; eauto | eapply pointers_step; eauto].
Qed.

Lemma run_no_ub ls : forall s, counted s -> pointers s -> no_null_deleter ls -> run s ls <> Ub.
Proof.
  induction ls as [|l ls IH]; intros s CO PO NN R; cbn in R; [discriminate|].
  destruct (step s l) as [[s1 r]| |] eqn:ST; cbn in R; try discriminate.
  - destruct (run s1 ls) as [[s2 rs2]| |] eqn:R2; try discriminate. apply (IH s1); auto.
    + eapply counted_step; eauto.
    + eapply pointers_step; eauto.
    + intros a p I. apply (NN a p). now right.
  - apply (step_no_ub s l CO PO); [|exact ST]. intros a p ->. apply (NN a p). now left.
Qed.

Lemma run_app ls1 : forall ls2 s, run s (ls1 ++ ls2) = ('(s1, r1) <- run s ls1; '(s2, r2) <- run s1 ls2; Ok (s2, r1 ++ r2)).
Proof.
  induction ls1 as [|l ls1 IH]; intros ls2 s; cbn.
  - destruct (run s ls2) as [[? ?]| |]; reflexivity.
  - destruct (step s l) as [[s1 r]| |]; cbn; try reflexivity. rewrite IH.
    destruct (run s1 ls1) as [[s2 r2]| |]; cbn; try reflexivity. destruct (run s2 ls2) as [[? ?]| |]; reflexivity.
Qed.

(** ** Termination *)

Definition weight (t : task) : nat :=
  match t with
  | TUnref _ => 6 | TDestroy _ => 5 | TWeakLoad _ => 3 | TWeakDec _ => 2 | TDelete _ => 1
  | TLockLoad _ _ => 2 | TLockCas _ _ _ => 1
  end.
Definition held_weight (e : nat * block) : nat := match value (snd e) with Some ow => 7 * length ow | None => 0 end.
Definition work (s : state) : nat := sum weight (tasks s) + sum held_weight (mem s).
Definition is_lock (t : task) : nat := match t with TLockLoad _ _ | TLockCas _ _ _ => 1 | _ => 0 end.
Definition is_stale (m : heap) (t : task) : nat :=
  match t with TLockCas _ c x => match get m c with Some b => if (strong b =? x)%Z then 0 else 1 | None => 1 end | _ => 0 end.
Definition locks (s : state) : nat := sum is_lock (tasks s).
Definition stale (s : state) : nat := sum (is_stale (mem s)) (tasks s).

Lemma sum_le {A} (f g : A -> nat) l : (forall x, f x <= g x) -> sum f l <= sum g l.
Proof. intros H. induction l as [|x l IH]; cbn; [lia|]. specialize (H x). lia. Qed.

Lemma stale_le s : stale s <= locks s.
Proof. apply sum_le. intros []; cbn; try lia. destruct (get (mem s) c) as [b|]; [destruct (strong b =? expected)%Z|]; lia. Qed.

Lemma weight_unrefs l : sum weight (flat_map (fun h => shared_ptr_unref (cntrl h)) l) <= 6 * length l.
Proof.
  induction l as [|h l IH]; [cbn; lia|]. cbn [flat_map length]. rewrite sum_app.
  assert (sum weight (shared_ptr_unref (cntrl h)) <= 6) by (destruct (cntrl h); cbn; lia). lia.
Qed.
Lemma lock_unrefs l : sum is_lock (flat_map (fun h => shared_ptr_unref (cntrl h)) l) = 0.
Proof. apply sum_unref_other. reflexivity. Qed.

Lemma task_measure s i s' r : step s (LTask i) = Ok (s', r) ->
  locks s' <= locks s /\ (work s' < work s \/ (work s' = work s /\ stale s' < stale s)).
Proof.
  intros ST. destruct s as [m vs rs ws ts lo ev now]. cbn [step] in ST.
  destruct (take_res i ts) as [[t ts1]| |] eqn:T; cbn [bind] in ST; try discriminate. apply take_res_ok in T.
  destruct (advance m t) as [e| |] eqn:AD; cbn [bind] in ST; try discriminate. injection ST as <- <-.
  unfold work, locks, stale; cbn [tasks mem]. rewrite !sum_app, !(sum_perm _ _ _ T). cbn [sum].
  destruct t as [c|c|c|c|c|h c|h c x]; cbn [advance] in AD; unfold deleter, at_block in AD;
    (destruct (get m c) as [b|] eqn:G; [|discriminate]).
  - injection AD as <-. cbn [e_mem e_tasks].
    pose proof (sum_set held_weight m c b (Block (strong b - 1) (weak b) (value b) (pid b) (born b)) G) as SS.
    change (held_weight (c, Block (strong b - 1) (weak b) (value b) (pid b) (born b))) with (held_weight (c, b)) in SS.
    destruct (strong b - 1 =? -1)%Z; cbn [sum weight is_lock]; lia.
  - destruct (value b) as [ow|] eqn:V; [|discriminate]. injection AD as <-. cbn [e_mem e_tasks].
    pose proof (sum_set held_weight m c b (Block (strong b) (weak b) None (pid b) (born b)) G) as SS.
    replace (held_weight (c, b)) with (7 * length ow) in SS by (unfold held_weight; cbn [snd]; now rewrite V).
    change (held_weight (c, Block (strong b) (weak b) None (pid b) (born b))) with 0 in SS.
    rewrite !sum_app, lock_unrefs. pose proof (weight_unrefs ow). cbn [sum weight is_lock]. lia.
  - injection AD as <-. cbn [e_mem e_tasks]. destruct (weak b =? 0)%Z; cbn [sum weight is_lock]; lia.
  - injection AD as <-. cbn [e_mem e_tasks].
    pose proof (sum_set held_weight m c b (Block (strong b) (weak b - 1) (value b) (pid b) (born b)) G) as SS.
    change (held_weight (c, Block (strong b) (weak b - 1) (value b) (pid b) (born b))) with (held_weight (c, b)) in SS.
    destruct (weak b - 1 =? -1)%Z; cbn [sum weight is_lock]; lia.
  - cbn [bind] in AD. injection AD as <-. cbn [e_mem e_tasks]. pose proof (sum_remove held_weight m c b G).
    cbn [sum weight is_lock]. lia.
  - injection AD as <-. unfold lock_try. destruct (strong b =? -1)%Z; cbn [e_mem e_tasks sum weight is_lock]; lia.
  - destruct (strong b =? x)%Z eqn:SX; injection AD as <-.
    + cbn [e_mem e_tasks].
      pose proof (sum_set held_weight m c b (Block (x + 1) (weak b) (value b) (pid b) (born b)) G) as SS.
      change (held_weight (c, Block (x + 1) (weak b) (value b) (pid b) (born b))) with (held_weight (c, b)) in SS.
      cbn [sum weight is_lock]; lia.
    + unfold lock_try. destruct (strong b =? -1)%Z; cbn [e_mem e_tasks sum weight is_lock is_stale]; [lia|].
      rewrite G, SX, Z.eqb_refl. split; [lia|]. right. split; lia.
Qed.

Definition is_task (l : label) : Prop := exists i, l = LTask i.

Lemma tasks_bounded K : forall ls s s' rs, locks s <= K -> Forall is_task ls -> run s ls = Ok (s', rs) ->
  length ls <= work s * (K + 1) + stale s.
Proof.
  induction ls as [|l ls IH]; intros s s' rs L F R; [cbn; lia|].
  inversion F as [|? ? [i ->] F2]; subst. cbn [run] in R. destruct (step s (LTask i)) as [[s1 r]| |] eqn:ST; try discriminate.
  cbn [bind] in R. destruct (run s1 ls) as [[s2 rs2]| |] eqn:R2; try discriminate.
  destruct (task_measure _ _ _ _ ST) as [L1 D]. specialize (IH s1 s2 rs2 ltac:(lia) F2 R2).
  pose proof (stale_le s1). cbn [length]. destruct D as [D|[D1 D2]]; nia.
Qed.

Lemma task_can_step s : counted s -> tasks s <> [] -> exists s' r, step s (LTask 0) = Ok (s', r).
Proof.
  intros CO N. destruct s as [m vs rs ws ts lo ev now]. cbn in N. destruct ts as [|t ts]; [congruence|].
  destruct (advance_ok _ t CO) as [e AD]; [now left|]. cbn [mem] in AD. cbn [step]. unfold take_res. cbn [take bind]. rewrite AD. cbn [bind]. eauto.
Qed.
