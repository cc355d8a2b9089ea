(** Each value is destroyed once, each block freed once after that, and nothing stays behind without a holder. *)
From Coq Require Import List Arith ZArith Lia Bool Permutation.
Import ListNotations.
From Verif.CcShared Require Import Model Spec Counts Pointers Progress.

(** ** Values only own older values *)

Definition elder (s : state) : Prop :=
  (forall c b, get (mem s) c = Some b -> born b < clock s) /\
  (forall c b ow h c' b', get (mem s) c = Some b -> value b = Some ow -> In h ow -> cntrl h = Some c' ->
     get (mem s) c' = Some b' -> born b' < born b).

Definition live1 (e : nat * block) : list nat := match value (snd e) with Some _ => [pid (snd e)] | None => [] end.
Definition dead1 (e : nat * block) : list nat := match value (snd e) with Some _ => [] | None => [pid (snd e)] end.
Definition all1 (e : nat * block) : list nat := [pid (snd e)].

Definition log_ok (cr : list nat) (s : state) : Prop :=
  Permutation cr (flat_map live1 (mem s) ++ destroyed_in (log s)) /\
  Permutation (destroyed_in (log s)) (flat_map dead1 (mem s) ++ freed_in (log s)) /\
  (forall l1 p l2, log s = l1 ++ Freed p :: l2 -> In (Destroyed p) l1).

(** How a step may change memory. *)
Inductive change (s s' : state) (cr : list nat) : Prop :=
| ch_none : mem s' = mem s -> log s' = log s -> clock s' = clock s -> cr = [] -> change s s' cr
| ch_set c b b' : get (mem s) c = Some b -> mem s' = set (mem s) c b' -> value b' = value b -> pid b' = pid b -> born b' = born b ->
    log s' = log s -> clock s' = clock s -> cr = [] -> change s s' cr
| ch_new a p ow : get (mem s) a = None -> mem s' = (a, Block 0 0 (Some ow) p (clock s)) :: mem s -> log s' = log s ->
    clock s' = S (clock s) -> (forall h, In h ow -> In h (vars s)) -> cr = [p] -> change s s' cr
| ch_destroy c b b' : get (mem s) c = Some b -> value b <> None -> mem s' = set (mem s) c b' -> value b' = None ->
    pid b' = pid b -> born b' = born b -> log s' = log s ++ [Destroyed (pid b)] -> clock s' = clock s -> cr = [] -> change s s' cr
| ch_free c b : get (mem s) c = Some b -> value b = None -> mem s' = remove (mem s) c ->
    log s' = log s ++ [Freed (pid b)] -> clock s' = clock s -> cr = [] -> change s s' cr.

Lemma step_change s l s' r : counted s -> step s l = Ok (s', r) -> change s s' (created1 l).
Proof.
  intros CO ST. destruct s as [m vs rs ws ts lo ev now]. pose proof CO as (N & H & F).
  destruct l; cbn [step created1] in *;
    repeat match type of ST with
           | context [take_many ?a ?b] => destruct (take_many a b) as [[? ?]| |] eqn:?; cbn [bind] in ST; try discriminate
           | context [take_res ?a ?b] => destruct (take_res a b) as [[? ?]| |] eqn:?; cbn [bind] in ST; try discriminate
           end;
    repeat match goal with
           | T : take_many _ _ = _ |- _ => apply take_many_ok in T
           | T : take_res _ _ = _ |- _ => apply take_res_ok in T
           end;
    try (injection ST as <- <-; now apply ch_none).
  - unfold new in ST. destruct (get m a) eqn:G; cbn [bind] in ST; [discriminate|]. injection ST as <- <-.
    eapply ch_new; try reflexivity; [exact G|]. intros h I. cbn. rewrite Heqr0. apply in_app_iff. now left.
  - unfold from_box, new in ST. destruct (get m a) eqn:G; cbn [bind] in ST; [discriminate|].
    destruct (project _ _ (Some [])); cbn [bind] in ST; try discriminate. injection ST as <- <-.
    eapply ch_new; try reflexivity; [exact G|]. intros h I. cbn. rewrite Heqr0. apply in_app_iff. now left.
  - unfold from_ptr_and_deleter, new in ST. destruct (get m a) eqn:G; cbn [bind] in ST; [discriminate|].
    destruct (valid _ (ptr _)); cbn [bind] in ST; try discriminate.
    destruct (valid _ _); cbn [bind] in ST; try discriminate. injection ST as <- <-.
    eapply ch_new; try reflexivity; [exact G|]. intros h [].
  - unfold clone, shared_ptr_ref, at_block in ST. destruct (cntrl h) as [c|]; [destruct (get m c) as [b|] eqn:G|]; cbn [bind] in ST;
      try discriminate; injection ST as <- <-; [|now apply ch_none]. eapply ch_set; [exact G | reflexivity | | | | | |]; reflexivity.
  - destruct (project m h f); cbn [bind] in ST; try discriminate. injection ST as <- <-. now apply ch_none.
  - destruct (ptr h); try discriminate; destruct (valid m _); cbn [bind] in ST; try discriminate; injection ST as <- <-; now apply ch_none.
  - destruct (try_as_ref m h); cbn [bind] in ST; try discriminate. injection ST as <- <-. now apply ch_none.
  - destruct (shared_ptr_use_count m (cntrl h)); cbn [bind] in ST; try discriminate. injection ST as <- <-. now apply ch_none.
  - unfold add_weak, at_block in ST. destruct (cntrl h) as [c|]; [destruct (get m c) as [b|] eqn:G|]; cbn [bind] in ST;
      try discriminate; injection ST as <- <-; [|now apply ch_none]. eapply ch_set; [exact G | reflexivity | | | | | |]; reflexivity.
  - unfold add_weak, at_block in ST. destruct (cntrl h) as [c|]; [destruct (get m c) as [b|] eqn:G|]; cbn [bind] in ST;
      try discriminate; injection ST as <- <-; [|now apply ch_none]. eapply ch_set; [exact G | reflexivity | | | | | |]; reflexivity.
  - destruct (cntrl h); injection ST as <- <-; now apply ch_none.
  - destruct (advance m t) as [e| |] eqn:AD; cbn [bind] in ST; try discriminate. injection ST as <- <-.
    destruct t as [c|c|c|c|c|h c|h c x]; cbn [advance] in AD; unfold deleter, at_block in AD;
      (destruct (get m c) as [b|] eqn:G; [|discriminate]).
    + injection AD as <-. cbn [e_mem e_events]. eapply ch_set; [exact G | reflexivity | | | | cbn; now rewrite app_nil_r | |]; reflexivity.
    + destruct (value b) as [ow|] eqn:V; [|discriminate]. injection AD as <-. cbn [e_mem e_events].
      eapply ch_destroy; [exact G | congruence | reflexivity | | | | | |]; reflexivity.
    + injection AD as <-. cbn [e_mem e_events]. apply ch_none; cbn; now rewrite ?app_nil_r.
    + injection AD as <-. cbn [e_mem e_events]. eapply ch_set; [exact G | reflexivity | | | | cbn; now rewrite app_nil_r | |]; reflexivity.
    + cbn [bind] in AD. injection AD as <-. cbn [e_mem e_events]. eapply ch_free; [exact G | | | | |]; try reflexivity.
      specialize (H c). unfold cell_ok in H. cbn [mem] in H. rewrite G in H. unfold block_ok in H.
      destruct (value b); [|reflexivity]. cbn [tasks] in H. rewrite (sum_perm (t_delete c) _ _ Heqr0) in H. cbn in H.
      rewrite Nat.eqb_refl in H. lia.
    + injection AD as <-. unfold lock_try. destruct (strong b =? -1)%Z; apply ch_none; cbn; now rewrite ?app_nil_r.
    + destruct (strong b =? x)%Z eqn:SX; injection AD as <-.
      * cbn [e_mem e_events]. eapply ch_set; [exact G | reflexivity | | | | cbn; now rewrite app_nil_r | |]; reflexivity.
      * unfold lock_try. destruct (strong b =? -1)%Z; apply ch_none; cbn; now rewrite ?app_nil_r.
Qed.

Lemma get_set_case m c b b' k d : get m c = Some b -> get (set m c b') k = Some d -> (k = c /\ d = b') \/ (k <> c /\ get m k = Some d).
Proof.
  intros G E. destruct (Nat.eq_dec k c) as [->|NE].
  - rewrite (get_set_same _ _ _ _ G) in E. injection E as <-. auto.
  - rewrite get_set_other in E by exact NE. auto.
Qed.

Lemma elder_step s s' cr : counted s -> elder s -> change s s' cr -> elder s'.
Proof.
  intros CO [E1 E2] CH. destruct CH as [M L C _|c b b' G M V P B L C _|a p ow G M L C I _|c b b' G V M V' P B L C _|c b G V M L C _];
    unfold elder; rewrite M, C.
  - auto.
  - split.
    + intros k d Gd. destruct (get_set_case _ _ _ _ _ _ G Gd) as [[-> ->]|[_ Gd']]; [rewrite B|]; eauto.
    + intros k d ow h k' d' Gd Vd I E Gd'.
      assert (X : exists d0, get (mem s) k = Some d0 /\ value d0 = Some ow /\ born d0 = born d).
      { destruct (get_set_case _ _ _ _ _ _ G Gd) as [[-> ->]|[_ Gd0]]; [exists b | exists d]; repeat split; congruence. }
      assert (X' : exists d0, get (mem s) k' = Some d0 /\ born d0 = born d').
      { destruct (get_set_case _ _ _ _ _ _ G Gd') as [[-> ->]|[_ Gd0]]; [exists b | exists d']; split; congruence. }
      destruct X as (d0 & A1 & A2 & A3), X' as (d1 & B1 & B2). rewrite <- A3, <- B2. eauto.
  - split.
    + intros k d Gd. cbn in Gd. destruct (Nat.eqb k a); [injection Gd as <-; cbn; lia|]. specialize (E1 k d Gd). lia.
    + intros k d w h k' d' Gd Vd Ih E Gd'. cbn in Gd, Gd'.
      assert (OLD : forall k1 d1 w1, get (mem s) k1 = Some d1 -> value d1 = Some w1 -> In h w1 -> k' <> a).
      { intros k1 d1 w1 Gk Vk Ik ->. assert (O : owners a s <> 0).
        { apply (value_owned s k1 w1 h); [unfold val; now rewrite Gk | exact Ik | exact E]. }
        destruct (owned_alive s a CO O) as (? & ? & G' & _). congruence. }
      destruct (Nat.eqb k a) eqn:Qk.
      * injection Gd as <-. cbn in Vd. injection Vd as <-. cbn [born].
        destruct (Nat.eqb k' a) eqn:Qk'; [|eauto].
        exfalso. apply Nat.eqb_eq in Qk'. subst k'. assert (O : owners a s <> 0).
        { apply (strongs_owned s h); [|exact E]. unfold strongs. apply in_app_iff. left. auto. }
        destruct (owned_alive s a CO O) as (? & ? & G' & _). congruence.
      * destruct (Nat.eqb k' a) eqn:Qk'; [|eauto]. apply Nat.eqb_eq in Qk'. exfalso. eapply OLD; eauto.
  - split.
    + intros k d Gd. destruct (get_set_case _ _ _ _ _ _ G Gd) as [[-> ->]|[_ Gd']]; [rewrite B|]; eauto.
    + intros k d ow h k' d' Gd Vd I E Gd'.
      destruct (get_set_case _ _ _ _ _ _ G Gd) as [[-> ->]|[_ Gd0]]; [congruence|].
      assert (X' : exists d0, get (mem s) k' = Some d0 /\ born d0 = born d').
      { destruct (get_set_case _ _ _ _ _ _ G Gd') as [[-> ->]|[_ Gd1]]; [exists b | exists d']; split; congruence. }
      destruct X' as (d1 & B1 & B2). rewrite <- B2. eauto.
  - assert (R : forall k d, get (remove (mem s) c) k = Some d -> get (mem s) k = Some d).
    { intros k d E. destruct (Nat.eq_dec k c) as [->|NE]; [|now rewrite get_remove_other in E].
      destruct CO as [N _]. now rewrite (get_remove_same _ _ N) in E. }
    split; [|intros]; eauto.
Qed.

Lemma elder_init : elder init.
Proof. split; cbn; discriminate. Qed.

(** ** The log *)

Lemma flat_map_set {B} (f : nat * block -> list B) m c b b' : get m c = Some b ->
  Permutation (f (c, b) ++ flat_map f (set m c b')) (f (c, b') ++ flat_map f m).
Proof.
  intros G. rewrite (Permutation_flat_map f (set_perm m c b b' G)). rewrite (Permutation_flat_map f (remove_perm m c b G)). cbn.
  rewrite !app_assoc. apply Permutation_app_tail. apply Permutation_app_comm.
Qed.

Lemma log_step s s' cr0 cr : log_ok cr0 s -> change s s' cr -> log_ok (cr0 ++ cr) s'.
Proof.
  intros (A & B & D) CH.
  destruct CH as [M L C ->|c b b' G M V P B' L C ->|a p ow G M L C I ->|c b b' G V M V' P B' L C ->|c b G V M L C ->];
    unfold log_ok; rewrite M, L, ?app_nil_r.
  - auto.
  - pose proof (flat_map_set live1 _ c b b' G) as S1. pose proof (flat_map_set dead1 _ c b b' G) as S2.
    replace (live1 (c, b')) with (live1 (c, b)) in S1 by (unfold live1; cbn [snd]; now rewrite V, P).
    replace (dead1 (c, b')) with (dead1 (c, b)) in S2 by (unfold dead1; cbn [snd]; now rewrite V, P).
    apply Permutation_app_inv_l in S1. apply Permutation_app_inv_l in S2.
    split; [now rewrite S1|]. split; [now rewrite S2 | exact D].
  - split; [|split].
    + cbn. rewrite (Permutation_app_comm cr0). cbn. now constructor.
    + exact B.
    + exact D.
  - pose proof (flat_map_set live1 _ c b b' G) as S1. pose proof (flat_map_set dead1 _ c b b' G) as S2.
    assert (X : live1 (c, b') = [] /\ live1 (c, b) = [pid b] /\ dead1 (c, b') = [pid b] /\ dead1 (c, b) = []).
    { unfold live1, dead1. cbn [snd]. rewrite V', P. destruct (value b); [auto | congruence]. }
    destruct X as (X1 & X2 & X3 & X4). rewrite X1, X2 in S1. rewrite X3, X4 in S2. cbn [app] in S1, S2.
    unfold destroyed_in, freed_in in *. rewrite !flat_map_app. cbn. rewrite ?app_nil_r.
    split; [|split].
    + rewrite A, <- S1. cbn. rewrite app_assoc. apply Permutation_cons_append.
    + rewrite S2. cbn. rewrite <- Permutation_cons_append. now constructor.
    + intros l1 q l2 E. destruct l2 as [|x l2] using rev_ind.
      * apply (app_inj_tail (log s) l1) in E. destruct E as [_ E]. discriminate.
      * rewrite app_comm_cons, app_assoc in E. apply app_inj_tail in E. destruct E as [E _]. eauto.
  - unfold destroyed_in, freed_in in *. rewrite !flat_map_app. cbn. rewrite ?app_nil_r.
    pose proof (Permutation_flat_map live1 (remove_perm _ c b G)) as S1. pose proof (Permutation_flat_map dead1 (remove_perm _ c b G)) as S2.
    assert (X : live1 (c, b) = [] /\ dead1 (c, b) = [pid b]) by (unfold live1, dead1; cbn [snd]; now rewrite V).
    destruct X as [X1 X2]. cbn [flat_map] in S1, S2. rewrite X1 in S1. rewrite X2 in S2. cbn [app] in S1, S2.
    split; [|split].
    + now rewrite <- S1.
    + rewrite B, S2. cbn. rewrite app_assoc. apply Permutation_cons_append.
    + intros l1 q l2 E. destruct l2 as [|x l2] using rev_ind.
      * apply (app_inj_tail (log s) l1) in E. destruct E as [<- E]. injection E as <-.
        assert (I : In (pid b) (flat_map (fun e => match e with Destroyed p => [p] | _ => [] end) (log s))).
        { rewrite B, S2. now left. }
        apply in_flat_map in I. destruct I as (e & I & Ie). destruct e; cbn in Ie; [|destruct Ie]. now destruct Ie as [->|[]].
      * rewrite app_comm_cons, app_assoc in E. apply app_inj_tail in E. destruct E as [E _]. eauto.
Qed.

Lemma run_account ls : forall cr s s' rs, counted s -> elder s -> log_ok cr s -> run s ls = Ok (s', rs) ->
  elder s' /\ log_ok (cr ++ created ls) s'.
Proof.
  induction ls as [|l ls IH]; intros cr s s' rs CO E L R; cbn in R.
  - injection R as <- _. cbn. rewrite app_nil_r. auto.
  - destruct (step s l) as [[s1 r]| |] eqn:ST; try discriminate. cbn in R.
    destruct (run s1 ls) as [[s2 rs2]| |] eqn:R2; try discriminate. cbn in R. injection R as <- _.
    pose proof (step_change _ _ _ _ CO ST) as CH. unfold created. cbn [flat_map]. rewrite app_assoc.
    eapply IH; [| | |exact R2]; [eapply counted_step; eauto | eapply elder_step; eauto | eapply log_step; eauto].
Qed.

Lemma log_init : log_ok [] init.
Proof. split; [|split]; cbn; auto. intros [|? ?] p l2 E; discriminate. Qed.

(** ** No garbage *)

Lemma no_garbage s : counted s -> elder s -> quiet s -> forall c b, get (mem s) c = Some b ->
  (exists h c0, In h (strongs s) /\ cntrl h = Some c0 /\ keeps (mem s) c0 c) \/
  (value b = None /\ exists h, In h (weaks s) /\ cntrl h = Some c).
Proof.
  intros CO [E1 E2] Q. unfold quiet in Q.
  enough (G : forall n c b, clock s - born b <= n -> get (mem s) c = Some b ->
                 (exists h c0, In h (strongs s) /\ cntrl h = Some c0 /\ keeps (mem s) c0 c) \/
                 (value b = None /\ exists h, In h (weaks s) /\ cntrl h = Some c)) by (intros; eapply G; eauto).
  assert (POS : forall c l, sum (refers c) l <> 0 -> exists h, In h l /\ cntrl h = Some c).
  { intros c l. induction l as [|h l IH]; cbn; [congruence|]. intros S. destruct (refers c h) eqn:R.
    - destruct IH as (h' & I & C); [lia|]. eauto.
    - exists h. split; [now left|]. unfold refers in R. destruct (cntrl h) as [c'|]; [|discriminate].
      destruct (Nat.eqb c c') eqn:E; [|discriminate]. apply Nat.eqb_eq in E. now subst. }
  induction n as [|n IH]; intros c b LE G.
  - specialize (E1 c b G). lia.
  - pose proof CO as (N & H & _). specialize (H c). unfold cell_ok in H. rewrite G in H. unfold block_ok, wcount, weak_refs in H. rewrite Q in H. cbn [sum] in H.
    destruct (value b) as [ow|] eqn:V.
    + left. assert (O : owners c s <> 0) by lia. unfold owners in O. rewrite Q in O. cbn [sum] in O.
      destruct (Nat.eq_dec (sum (refers c) (strongs s)) 0) as [Z|NZ].
      * unfold strongs in Z. rewrite !sum_app in Z. assert (HV : sum (held_by_value c) (mem s) <> 0) by lia.
        assert (X : exists k d w h, get (mem s) k = Some d /\ value d = Some w /\ In h w /\ cntrl h = Some c).
        { assert (Y : exists e, In e (mem s) /\ held_by_value c e <> 0).
          { clear - HV. induction (mem s) as [|e l IHl]; cbn in HV; [congruence|]. destruct (held_by_value c e) eqn:R.
            - destruct IHl as (e' & ? & ?); [lia|]. exists e'. split; [now right | auto].
            - exists e. split; [now left | lia]. }
          destruct Y as ([k d] & I & HN). unfold held_by_value in HN. cbn in HN. destruct (value d) as [w|] eqn:Vd; [|congruence].
          destruct (POS c w HN) as (h & Ih & Ch). exists k, d, w, h. split; [now apply in_get | auto]. }
        destruct X as (k & d & w & h & Gk & Vk & Ih & Ch). pose proof (E2 k d w h c b Gk Vk Ih Ch G) as LT.
        pose proof (E1 k d Gk). destruct (IH k d ltac:(lia) Gk) as [(h0 & c0 & A & B & K)|[VN _]]; [|congruence].
        exists h0, c0. split; [exact A|]. split; [exact B|]. eapply keeps_trans; [exact K|].
        eapply keeps_step; [unfold val; rewrite Gk; exact Vk | exact Ih | exact Ch | constructor].
      * destruct (POS c _ NZ) as (h & I & C). exists h, c. split; [exact I|]. split; [exact C | constructor].
    + right. split; [reflexivity|]. apply POS. lia.
Qed.

Lemma all_freed s : counted s -> elder s -> all_gone s -> mem s = [].
Proof.
  intros CO E (V & R & W & T & L). destruct (mem s) as [|[c b] m] eqn:M; [reflexivity|]. exfalso.
  assert (G : get (mem s) c = Some b) by (rewrite M; cbn; now rewrite Nat.eqb_refl).
  destruct (no_garbage s CO E T c b G) as [(h & c0 & I & _)|[_ (h & I & _)]].
  - unfold strongs in I. rewrite V, R, L in I. destruct I.
  - rewrite W in I. destruct I.
Qed.
