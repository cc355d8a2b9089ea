(** The counts stored in a control block are the numbers of references. *)
From Coq Require Import List Arith ZArith Lia Bool Permutation.
Import ListNotations.
From Verif.CcShared Require Import Model Spec.

Lemma sum_app {A} (f : A -> nat) l1 l2 : sum f (l1 ++ l2) = sum f l1 + sum f l2.
Proof. induction l1; cbn; lia. Qed.

Lemma sum_perm {A} (f : A -> nat) l l' : Permutation l l' -> sum f l = sum f l'.
Proof. induction 1; cbn; lia. Qed.

Lemma sum_zero {A} (f : A -> nat) l : sum f l = 0 -> forall x, In x l -> f x = 0.
Proof. induction l as [|y l IH]; cbn; intros H x I; [destruct I|]. destruct I as [->|I]; [lia|]. apply IH; [lia | exact I]. Qed.

Lemma sum_in {A} (f : A -> nat) l x : In x l -> f x <= sum f l.
Proof. induction l as [|y l IH]; cbn; intros I; [destruct I|]. destruct I as [->|I]; [lia|]. specialize (IH I). lia. Qed.

Lemma take_perm {A} n : forall (l : list A) x r, take n l = Some (x, r) -> Permutation l (x :: r).
Proof.
  induction n as [|n IH]; intros [|y l] x r H; cbn in H; try discriminate.
  - injection H as -> ->. reflexivity.
  - destruct (take n l) as [[z r']|] eqn:T; [|discriminate]. injection H as -> <-.
    rewrite (IH _ _ _ T). apply perm_swap.
Qed.

Lemma take_res_ok {A} n (l : list A) x r : take_res n l = Ok (x, r) -> Permutation l (x :: r).
Proof. unfold take_res. destruct (take n l) as [[y r']|] eqn:T; [|discriminate]. intros H. injection H as -> ->. eapply take_perm; eauto. Qed.

Lemma take_many_ok is : forall l hs r, take_many is l = Ok (hs, r) -> Permutation l (hs ++ r).
Proof.
  induction is as [|i is IH]; intros l hs r H; cbn in H.
  - injection H as <- <-. reflexivity.
  - destruct (take_res i l) as [[h l1]| |] eqn:T; try discriminate. cbn in H.
    destruct (take_many is l1) as [[hs' l2]| |] eqn:M; try discriminate. cbn in H. injection H as <- <-.
    apply take_res_ok in T. rewrite T. cbn. constructor. now apply IH.
Qed.

(** ** The heap *)

Lemma get_set_same m c b b' : get m c = Some b -> get (set m c b') c = Some b'.
Proof.
  induction m as [|[k d] m IH]; cbn; [discriminate|]. destruct (Nat.eqb c k) eqn:Q; cbn; rewrite Q; auto.
Qed.
Lemma get_set_other m c c' b' : c' <> c -> get (set m c b') c' = get m c'.
Proof.
  intros N. induction m as [|[k d] m IH]; cbn; [reflexivity|]. destruct (Nat.eqb c k) eqn:Q; cbn.
  - apply Nat.eqb_eq in Q. subst k. replace (Nat.eqb c' c) with false by (symmetry; now apply Nat.eqb_neq). reflexivity.
  - destruct (Nat.eqb c' k); auto.
Qed.
Lemma get_remove_other m c c' : c' <> c -> get (remove m c) c' = get m c'.
Proof.
  intros N. induction m as [|[k d] m IH]; cbn; [reflexivity|]. destruct (Nat.eqb c k) eqn:Q; cbn.
  - apply Nat.eqb_eq in Q. subst k. replace (Nat.eqb c' c) with false by (symmetry; now apply Nat.eqb_neq). reflexivity.
  - destruct (Nat.eqb c' k); auto.
Qed.
Lemma get_none m c : get m c = None <-> ~ In c (map fst m).
Proof.
  induction m as [|[k d] m IH]; cbn; [tauto|]. destruct (Nat.eqb c k) eqn:Q.
  - apply Nat.eqb_eq in Q. subst. split; [discriminate | tauto].
  - apply Nat.eqb_neq in Q. rewrite IH. intuition.
Qed.
Lemma set_keys m c b : map fst (set m c b) = map fst m.
Proof. induction m as [|[k d] m IH]; cbn; [reflexivity|]. destruct (Nat.eqb c k); cbn; congruence. Qed.
Lemma remove_perm m c b : get m c = Some b -> Permutation m ((c, b) :: remove m c).
Proof.
  induction m as [|[k d] m IH]; cbn; [discriminate|]. destruct (Nat.eqb c k) eqn:Q.
  - apply Nat.eqb_eq in Q. subst. intros H. injection H as ->. reflexivity.
  - intros H. rewrite (IH H) at 1. apply perm_swap.
Qed.
Lemma set_perm m c b b' : get m c = Some b -> Permutation (set m c b') ((c, b') :: remove m c).
Proof.
  induction m as [|[k d] m IH]; cbn; [discriminate|]. destruct (Nat.eqb c k) eqn:Q.
  - apply Nat.eqb_eq in Q. subst. reflexivity.
  - intros H. rewrite (IH H) at 1. apply perm_swap.
Qed.
Lemma sum_set f m c b b' : get m c = Some b -> sum f (set m c b') + f (c, b) = sum f m + f (c, b').
Proof. intros H. rewrite (sum_perm f _ _ (set_perm m c b b' H)), (sum_perm f _ _ (remove_perm m c b H)). cbn. lia. Qed.
Lemma sum_remove f m c b : get m c = Some b -> sum f m = f (c, b) + sum f (remove m c).
Proof. intros H. rewrite (sum_perm f _ _ (remove_perm m c b H)). reflexivity. Qed.
Lemma get_remove_same m c : NoDup (map fst m) -> get (remove m c) c = None.
Proof.
  induction m as [|[k d] m IH]; cbn; intros N; [reflexivity|]. inversion N as [|? ? N1 N2]; subst.
  destruct (Nat.eqb c k) eqn:Q.
  - apply Nat.eqb_eq in Q. subst. now apply get_none.
  - cbn. rewrite Q. auto.
Qed.
Lemma remove_nodup m c : NoDup (map fst m) -> NoDup (map fst (remove m c)).
Proof.
  induction m as [|[k d] m IH]; cbn; intros N; [constructor|]. inversion N as [|? ? N1 N2]; subst.
  destruct (Nat.eqb c k) eqn:Q; [exact N2|]. cbn. constructor; [|auto].
  intros I. apply N1. clear - I. induction m as [|[k' d'] m IH]; cbn in *; [tauto|].
  destruct (Nat.eqb c k'); cbn in *; tauto.
Qed.
Lemma get_in m c b : get m c = Some b -> In (c, b) m.
Proof.
  induction m as [|[k d] m IH]; cbn; [discriminate|]. destruct (Nat.eqb c k) eqn:Q; [|auto].
  apply Nat.eqb_eq in Q. subst. intros H. injection H as ->. now left.
Qed.
Lemma in_get m c b : NoDup (map fst m) -> In (c, b) m -> get m c = Some b.
Proof.
  induction m as [|[k d] m IH]; cbn; intros N I; [destruct I|]. inversion N as [|? ? N1 N2]; subst. destruct I as [H|I].
  - injection H as -> ->. now rewrite Nat.eqb_refl.
  - destruct (Nat.eqb c k) eqn:Q; [|auto]. apply Nat.eqb_eq in Q. subst. exfalso. apply N1.
    apply in_map_iff. exists (k, b). auto.
Qed.

(** ** The invariant *)

Definition t_weak (c : nat) (t : task) : nat :=
  match t with
  | TWeakLoad c' | TWeakDec c' => if Nat.eqb c c' then 1 else 0
  | TLockLoad h _ | TLockCas h _ _ => refers c h
  | _ => 0
  end.
Definition t_destroy (c : nat) (t : task) : nat := match t with TDestroy c' => if Nat.eqb c c' then 1 else 0 | _ => 0 end.
Definition t_delete (c : nat) (t : task) : nat := match t with TDelete c' => if Nat.eqb c c' then 1 else 0 | _ => 0 end.

Definition wcount (c : nat) (s : state) : nat := weak_refs c s + sum (t_weak c) (tasks s).

Definition block_ok (b : block) (o w d1 d2 : nat) : Prop :=
  (strong b + 1 = Z.of_nat o)%Z /\
  match value b with
  | Some _ => d2 = 0 /\ weak b = Z.of_nat w /\ (o = 0 -> d1 = 1) /\ (o <> 0 -> d1 = 0)
  | None => o = 0 /\ d1 = 0 /\ ((d2 = 0 /\ (weak b + 1 = Z.of_nat w)%Z /\ w <> 0) \/ (d2 = 1 /\ w = 0))
  end.

Definition cell_ok (s : state) (c : nat) : Prop :=
  match get (mem s) c with
  | Some b => block_ok b (owners c s) (wcount c s) (sum (t_destroy c) (tasks s)) (sum (t_delete c) (tasks s))
  | None => owners c s = 0 /\ wcount c s = 0 /\ sum (t_destroy c) (tasks s) = 0 /\ sum (t_delete c) (tasks s) = 0
  end.

Definition task_ok (t : task) : Prop :=
  match t with TLockLoad h c => cntrl h = Some c | TLockCas h c e => cntrl h = Some c /\ e <> (-1)%Z | _ => True end.

Definition counted (s : state) : Prop :=
  NoDup (map fst (mem s)) /\ (forall c, cell_ok s c) /\ Forall task_ok (tasks s).

Lemma counted_init : counted init.
Proof. split; [constructor|]. split; [|constructor]. intros c. cbn. auto. Qed.

Lemma sum_unref c l : sum (about_to_unref c) (flat_map (fun h => shared_ptr_unref (cntrl h)) l) = sum (refers c) l.
Proof.
  induction l as [|h l IH]; cbn; [reflexivity|]. rewrite sum_app, IH. f_equal.
  unfold refers, shared_ptr_unref. destruct (cntrl h); cbn; lia.
Qed.
Lemma sum_unref_other f l : (forall c, f (TUnref c) = 0) -> sum f (flat_map (fun h => shared_ptr_unref (cntrl h)) l) = 0.
Proof.
  intros F. induction l as [|h l IH]; cbn; [reflexivity|]. rewrite sum_app, IH.
  unfold shared_ptr_unref. destruct (cntrl h); cbn; rewrite ?F; lia.
Qed.


Ltac open_cell := unfold cell_ok, owners, wcount, weak_refs in *; cbn [mem vars raws weaks tasks lost log clock] in *;
  rewrite ?sum_app in *; cbn [sum] in *.

Lemma refers_some c h c' : cntrl h = Some c -> refers c' h = if Nat.eqb c' c then 1 else 0.
Proof. unfold refers. now intros ->. Qed.
Lemma refers_none h c' : cntrl h = None -> refers c' h = 0.
Proof. unfold refers. now intros ->. Qed.

Lemma refers_mk c' p c : refers c' (Handle p (Some c)) = if Nat.eqb c' c then 1 else 0.
Proof. reflexivity. Qed.
Lemma held_some c k s w l p b : held_by_value c (k, Block s w (Some l) p b) = sum (refers c) l.
Proof. reflexivity. Qed.
Lemma held_none c k s w p b : held_by_value c (k, Block s w None p b) = 0.
Proof. reflexivity. Qed.
Lemma held_same c k s w p b B : value B = value (Block s w (value B) p b) -> held_by_value c (k, Block s w (value B) p b) = held_by_value c (k, B).
Proof. reflexivity. Qed.

(** Same memory, same numbers. *)
Lemma cell_same s s' c :
  get (mem s') c = get (mem s) c -> owners c s' = owners c s -> wcount c s' = wcount c s ->
  sum (t_destroy c) (tasks s') = sum (t_destroy c) (tasks s) -> sum (t_delete c) (tasks s') = sum (t_delete c) (tasks s) ->
  cell_ok s c -> cell_ok s' c.
Proof. unfold cell_ok. intros -> -> -> -> ->. auto. Qed.

Lemma eqb_cases c c' : (c' = c /\ Nat.eqb c' c = true) \/ (c' <> c /\ Nat.eqb c' c = false).
Proof. destruct (Nat.eqb c' c) eqn:Q; [left; apply Nat.eqb_eq in Q | right; apply Nat.eqb_neq in Q]; auto. Qed.

Lemma new_counted m a p now owned m1 h vs rs ws ts lo ev hs ev' now' :
  counted (State m hs rs ws ts lo ev now) -> Permutation hs (owned ++ vs) -> new m a p now owned = Ok (m1, h) ->
  cntrl h = Some a /\ counted (State m1 (h :: vs) rs ws ts lo ev' now').
Proof.
  intros (N & H & F) P Q. unfold new in Q. destruct (get m a) eqn:G; [discriminate|]. injection Q as <- <-.
  split; [reflexivity|]. split; [|split; [|exact F]].
  - cbn. constructor; [now apply get_none | exact N].
  - intros c. specialize (H c). open_cell. rewrite (sum_perm (refers c) _ _ P), sum_app in H.
    cbn [get]. destruct (eqb_cases a c) as [[-> Q]|[NE Q]]; rewrite Q in *.
    + rewrite G in H. unfold block_ok; cbn [strong weak value].
      rewrite refers_mk, Nat.eqb_refl, held_some.
      destruct H as (H1 & H2 & H3 & H4).
      split; [|split; [|split; [|split]]]; lia.
    + rewrite refers_mk, Q, held_some.
      replace (0 + sum (refers c) vs + sum (refers c) rs + sum (refers c) lo +
               (sum (refers c) owned + sum (held_by_value c) m) + sum (about_to_unref c) ts)
        with (sum (refers c) owned + sum (refers c) vs + sum (refers c) rs + sum (refers c) lo +
              sum (held_by_value c) m + sum (about_to_unref c) ts) by lia.
      exact H.
Qed.

Lemma project_cntrl m h f h1 : project m h f = Ok h1 -> cntrl h1 = cntrl h.
Proof.
  unfold project, release. destruct (ptr h) eqn:P; intros H.
  - injection H as <-. reflexivity.
  - destruct (valid m (Into c)); cbn in H; try discriminate. destruct f.
    + destruct (follow m (Into c) l); cbn in H; try discriminate. injection H as <-. reflexivity.
    + injection H as <-. reflexivity.
  - cbn in H. destruct f.
    + destruct (follow m Static l); cbn in H; try discriminate. injection H as <-. reflexivity.
    + injection H as <-. reflexivity.
Qed.

Lemma refers_same c h h' : cntrl h = cntrl h' -> refers c h = refers c h'.
Proof. unfold refers. now intros ->. Qed.

(** A move between the variables of a program. *)
Lemma move_counted m vs rs ws ts lo ev now vs' rs' ts' lo' ev' now' :
  counted (State m vs rs ws ts lo ev now) ->
  (forall c, sum (refers c) vs' + sum (refers c) rs' + sum (refers c) lo' + sum (about_to_unref c) ts' =
             sum (refers c) vs + sum (refers c) rs + sum (refers c) lo + sum (about_to_unref c) ts) ->
  (forall c, sum (t_weak c) ts' = sum (t_weak c) ts) ->
  (forall c, sum (t_destroy c) ts' = sum (t_destroy c) ts) -> (forall c, sum (t_delete c) ts' = sum (t_delete c) ts) ->
  Forall task_ok ts' ->
  counted (State m vs' rs' ws ts' lo' ev' now').
Proof.
  intros (N & H & F) A B C D F'. split; [exact N|]. split; [|exact F'].
  intros c. apply (cell_same (State m vs rs ws ts lo ev now)); [reflexivity | | | | | exact (H c)]; open_cell; auto.
  - specialize (A c). lia.
Qed.

Lemma weak_counted m vs rs ws ts lo ev now m1 h :
  counted (State m vs rs ws ts lo ev now) -> add_weak m (cntrl h) = Ok m1 ->
  (forall c, cntrl h = Some c -> sum (refers c) vs <> 0 \/ sum (refers c) ws <> 0) ->
  counted (State m1 vs rs (h :: ws) ts lo ev now).
Proof.
  intros CO AW RF. pose proof CO as (N & H & F). cbn in N, F. unfold add_weak in AW. destruct (cntrl h) as [c|] eqn:CH.
  - unfold at_block in AW. destruct (get m c) as [b|] eqn:G; [|discriminate]. injection AW as <-.
    split; [cbn; now rewrite set_keys|]. split; [|exact F]. intros c'. specialize (H c').
    open_cell.
    pose proof (sum_set (held_by_value c') m c b (Block (strong b) (weak b + 1) (value b) (pid b) (born b)) G) as SS.
    rewrite held_same in SS by reflexivity. rewrite (refers_some c h c' CH).
    destruct (eqb_cases c c') as [[-> Q]|[NE Q]]; rewrite Q.
    + rewrite (get_set_same _ _ _ _ G). rewrite G in H. specialize (RF c eq_refl).
      unfold block_ok in *; cbn [strong weak value]. destruct H as [H1 H2]. split; [lia|].
      destruct (value b) as [ow|].
      * destruct H2 as (H2 & H3 & H4 & H5). split; [exact H2|]. split; [lia|]. split; lia.
      * destruct H2 as (H2 & H3 & H4). split; [lia|]. split; [exact H3|]. destruct H4 as [H4|H4]; lia.
    + rewrite (get_set_other _ _ _ _ NE). replace (sum (held_by_value c') (set m c _)) with (sum (held_by_value c') m) by lia.
      exact H.
  - injection AW as <-. split; [exact N|]. split; [|exact F]. intros c.
    apply (cell_same (State m vs rs ws ts lo ev now)); [reflexivity | | | | | exact (H c)]; open_cell; auto.
    rewrite (refers_none h c CH). reflexivity.
Qed.

Lemma lock_counted m vs rs ws h c e ts lo ev now t :
  counted (State m vs rs ws (t :: ts) lo ev now) -> (t = TLockLoad h c \/ exists x, t = TLockCas h c x) ->
  let f := lock_try m h c e in
  counted (State (e_mem f) (e_vars f ++ vs) rs (e_weaks f ++ ws) (e_tasks f ++ ts) lo (ev ++ e_events f) now).
Proof.
  intros (N & H & F) TT f. cbn in N, F. inversion F as [|? ? F1 F2]; subst.
  assert (CH : cntrl h = Some c) by (destruct TT as [->|[x ->]]; cbn in F1; tauto).
  assert (TW : forall c', t_weak c' t = refers c' h) by (destruct TT as [->|[x ->]]; reflexivity).
  assert (T0 : forall c', about_to_unref c' t = 0 /\ t_destroy c' t = 0 /\ t_delete c' t = 0)
    by (destruct TT as [->|[x ->]]; auto).
  unfold f, lock_try. destruct (e =? -1)%Z eqn:Q; cbn [e_mem e_vars e_weaks e_tasks e_events app].
  - split; [exact N|]. split; [|exact F2]. intros c'. specialize (T0 c'). specialize (TW c').
    apply (cell_same (State m vs rs ws (t :: ts) lo ev now)); [reflexivity | | | | | exact (H c')]; open_cell;
      try (change (refers c' null_handle) with 0); lia.
  - split; [exact N|]. split.
    2: { constructor; [|exact F2]. cbn. split; [exact CH|]. now apply Z.eqb_neq in Q. }
    intros c'. specialize (T0 c'). specialize (TW c').
    apply (cell_same (State m vs rs ws (t :: ts) lo ev now)); [reflexivity | | | | | exact (H c')]; open_cell; cbn; lia.
Qed.

Lemma advance_counted m vs rs ws t ts lo ev now e :
  counted (State m vs rs ws (t :: ts) lo ev now) -> advance m t = Ok e ->
  counted (State (e_mem e) (e_vars e ++ vs) rs (e_weaks e ++ ws) (e_tasks e ++ ts) lo (ev ++ e_events e) now).
Proof.
  intros CO AD. pose proof CO as (N & H & F). cbn in N, F. inversion F as [|? ? F1 F2]; subst.
  destruct t as [c|c|c|c|c|h c|h c x]; cbn [advance] in AD; unfold at_block in AD.
  - (* decrement the strong count *)
    destruct (get m c) as [b|] eqn:G; [|discriminate]. injection AD as <-. cbn [e_mem e_vars e_weaks e_tasks e_events app].
    split; [cbn; now rewrite set_keys|]. split.
    2: { cbn [tasks]. apply Forall_app. split; [|exact F2]. destruct (strong b - 1 =? -1)%Z; repeat constructor. }
    intros c'. specialize (H c'). open_cell.
    pose proof (sum_set (held_by_value c') m c b (Block (strong b - 1) (weak b) (value b) (pid b) (born b)) G) as SS.
    rewrite held_same in SS by reflexivity. cbn [about_to_unref t_weak t_destroy t_delete] in H.
    destruct (eqb_cases c c') as [[-> Q]|[NE Q]]; rewrite Q in H.
    + rewrite (get_set_same _ _ _ _ G). rewrite G in H. unfold block_ok in *; cbn [strong weak value].
      destruct H as [H1 H2]. destruct (strong b - 1 =? -1)%Z eqn:Z1; [apply Z.eqb_eq in Z1 | apply Z.eqb_neq in Z1];
        cbn [sum about_to_unref t_weak t_destroy t_delete]; rewrite ?Q; (split; [lia|]);
        (destruct (value b) as [ow|]; [destruct H2 as (H2 & H3 & H4 & H5); split; [lia|]; split; [lia|]; split; lia | lia]).
    + rewrite (get_set_other _ _ _ _ NE). replace (sum (held_by_value c') (set m c _)) with (sum (held_by_value c') m) by lia.
      destruct (strong b - 1 =? -1)%Z; cbn [sum about_to_unref t_weak t_destroy t_delete]; rewrite ?Q; exact H.
  - (* destroy the value *)
    unfold deleter, at_block in AD. destruct (get m c) as [b|] eqn:G; [|discriminate].
    destruct (value b) as [ow|] eqn:V; [|discriminate]. cbn [bind] in AD. injection AD as <-.
    cbn [e_mem e_vars e_weaks e_tasks e_events app].
    split; [cbn; now rewrite set_keys|]. split.
    2: { cbn [tasks]. apply Forall_app. split; [|exact F2]. apply Forall_app. split; [|repeat constructor].
         apply Forall_forall. intros t I. apply in_flat_map in I. destruct I as (h & _ & I).
         unfold shared_ptr_unref in I. destruct (cntrl h); cbn in I; [destruct I as [<-|[]]; exact Logic.I | destruct I]. }
    intros c'. specialize (H c'). open_cell.
    rewrite sum_unref, !sum_unref_other by reflexivity.
    pose proof (sum_set (held_by_value c') m c b (Block (strong b) (weak b) None (pid b) (born b)) G) as SS.
    rewrite held_none in SS. replace (held_by_value c' (c, b)) with (sum (refers c') ow) in SS
      by (unfold held_by_value; cbn; now rewrite V).
    cbn [about_to_unref t_weak t_destroy t_delete] in *.
    destruct (eqb_cases c c') as [[-> Q]|[NE Q]]; rewrite Q in *.
    + rewrite (get_set_same _ _ _ _ G). rewrite G in H. unfold block_ok in *; cbn [strong weak value].
      rewrite V in H. destruct H as (H1 & H2 & H3 & H4 & H5).
      split; [lia|]. split; [lia|]. split; [lia|]. left. split; [lia|]. split; lia.
    + rewrite (get_set_other _ _ _ _ NE).
      replace (sum (refers c') vs + sum (refers c') rs + sum (refers c') lo + sum (held_by_value c') (set m c _) +
               (sum (refers c') ow + (0 + 0) + sum (about_to_unref c') ts))
        with (sum (refers c') vs + sum (refers c') rs + sum (refers c') lo + sum (held_by_value c') m +
              (0 + sum (about_to_unref c') ts)) by lia.
      exact H.
  - (* load the weak count *)
    destruct (get m c) as [b|] eqn:G; [|discriminate]. injection AD as <-. cbn [e_mem e_vars e_weaks e_tasks e_events app].
    split; [exact N|]. split.
    2: { cbn [tasks]. apply Forall_app. split; [|exact F2]. destruct (weak b =? 0)%Z; repeat constructor. }
    intros c'. specialize (H c'). open_cell. cbn [about_to_unref t_weak t_destroy t_delete] in *.
    destruct (eqb_cases c c') as [[-> Q]|[NE Q]]; rewrite Q in *.
    + rewrite G in *. unfold block_ok in *. destruct H as [H1 H2].
      destruct (weak b =? 0)%Z eqn:Z1; [apply Z.eqb_eq in Z1 | apply Z.eqb_neq in Z1];
        cbn [sum about_to_unref t_weak t_destroy t_delete]; rewrite ?Q; (split; [lia|]).
      * destruct (value b) as [ow|]; [lia|]. destruct H2 as (H2 & H3 & H4). split; [lia|]. split; [lia|]. right. lia.
      * destruct (value b) as [ow|]; [lia|]. destruct H2 as (H2 & H3 & H4). split; [lia|]. split; [lia|]. lia.
    + destruct (weak b =? 0)%Z; cbn [sum about_to_unref t_weak t_destroy t_delete]; rewrite ?Q; exact H.
  - (* decrement the weak count *)
    destruct (get m c) as [b|] eqn:G; [|discriminate]. injection AD as <-. cbn [e_mem e_vars e_weaks e_tasks e_events app].
    split; [cbn; now rewrite set_keys|]. split.
    2: { cbn [tasks]. apply Forall_app. split; [|exact F2]. destruct (weak b - 1 =? -1)%Z; repeat constructor. }
    intros c'. specialize (H c'). open_cell.
    pose proof (sum_set (held_by_value c') m c b (Block (strong b) (weak b - 1) (value b) (pid b) (born b)) G) as SS.
    rewrite held_same in SS by reflexivity. cbn [about_to_unref t_weak t_destroy t_delete] in *.
    destruct (eqb_cases c c') as [[-> Q]|[NE Q]]; rewrite Q in *.
    + rewrite (get_set_same _ _ _ _ G). rewrite G in H. unfold block_ok in *; cbn [strong weak value].
      destruct H as [H1 H2]. destruct (weak b - 1 =? -1)%Z eqn:Z1; [apply Z.eqb_eq in Z1 | apply Z.eqb_neq in Z1];
        cbn [sum about_to_unref t_weak t_destroy t_delete]; rewrite ?Q; (split; [lia|]);
        (destruct (value b) as [ow|]; lia).
    + rewrite (get_set_other _ _ _ _ NE). replace (sum (held_by_value c') (set m c _)) with (sum (held_by_value c') m) by lia.
      destruct (weak b - 1 =? -1)%Z; cbn [sum about_to_unref t_weak t_destroy t_delete]; rewrite ?Q; exact H.
  - (* free *)
    unfold deleter, at_block in AD. destruct (get m c) as [b|] eqn:G; [|discriminate]. cbn [bind] in AD. injection AD as <-.
    cbn [e_mem e_vars e_weaks e_tasks e_events app].
    split; [cbn; now apply remove_nodup|]. split; [|exact F2].
    intros c'. specialize (H c') as H0. pose proof (H c) as HC. clear H. open_cell.
    pose proof (sum_remove (held_by_value c') m c b G) as SS.
    cbn [about_to_unref t_weak t_destroy t_delete] in *. rewrite Nat.eqb_refl in HC. rewrite G in HC.
    assert (V : value b = None).
    { unfold block_ok in HC. destruct (value b); [|reflexivity]. lia. }
    assert (HV : held_by_value c' (c, b) = 0) by (unfold held_by_value; cbn; now rewrite V).
    destruct (eqb_cases c c') as [[-> Q]|[NE Q]]; rewrite Q in *.
    + rewrite (get_remove_same _ _ N). unfold block_ok in HC. rewrite V in HC. lia.
    + rewrite (get_remove_other _ _ _ NE). replace (sum (held_by_value c') (remove m c)) with (sum (held_by_value c') m) by lia.
      exact H0.
  - destruct (get m c) as [b|] eqn:G; [|discriminate]. injection AD as <-.
    eapply lock_counted; [exact CO | now left].
  - destruct (get m c) as [b|] eqn:G; [|discriminate]. destruct (strong b =? x)%Z eqn:SX.
    2: { injection AD as <-. eapply lock_counted; [exact CO | right; eauto]. }
    injection AD as <-. apply Z.eqb_eq in SX. cbn in F1. destruct F1 as [CH NX].
    cbn [e_mem e_vars e_weaks e_tasks e_events app].
    split; [cbn; now rewrite set_keys|]. split; [|exact F2].
    intros c'. specialize (H c'). open_cell.
    pose proof (sum_set (held_by_value c') m c b (Block (x + 1) (weak b) (value b) (pid b) (born b)) G) as SS.
    rewrite held_same in SS by reflexivity. cbn [about_to_unref t_weak t_destroy t_delete] in *. rewrite (refers_some c h c' CH) in *.
    destruct (eqb_cases c c') as [[-> Q]|[NE Q]]; rewrite Q in *.
    + rewrite (get_set_same _ _ _ _ G). rewrite G in H. unfold block_ok in *; cbn [strong weak value].
      destruct H as [H1 H2]. split; [lia|]. destruct (value b) as [ow|]; [|lia].
      destruct H2 as (H2 & H3 & H4 & H5). split; [lia|]. split; [lia|]. split; lia.
    + rewrite (get_set_other _ _ _ _ NE). replace (sum (held_by_value c') (set m c _)) with (sum (held_by_value c') m) by lia.
      replace (0 + sum (refers c') ws + sum (t_weak c') ts) with (sum (refers c') ws + (0 + sum (t_weak c') ts)) by lia. exact H.
Qed.

Lemma counted_step s l s' r : counted s -> step s l = Ok (s', r) -> counted s'.
Proof.
  intros CO ST. destruct s as [m vs rs ws ts lo ev now]. pose proof CO as (N & H & F). cbn in F, N.
  destruct l; cbn [step] in ST.
  - (* new *)
    destruct (take_many owned vs) as [[hs vs1]| |] eqn:T; cbn [bind] in ST; try discriminate.
    destruct (new m a p now hs) as [[m1 h]| |] eqn:NW; cbn [bind] in ST; try discriminate. injection ST as <- <-.
    eapply new_counted; [exact CO | eapply take_many_ok; exact T | exact NW].
  - (* from_box *)
    destruct (take_many owned vs) as [[hs vs1]| |] eqn:T; cbn [bind] in ST; try discriminate. unfold from_box in ST.
    destruct (new m a p now hs) as [[m1 h]| |] eqn:NW; cbn [bind] in ST; try discriminate.
    destruct (project m1 h (Some [])) as [h1| |] eqn:PR; cbn [bind] in ST; try discriminate. injection ST as <- <-.
    apply project_cntrl in PR.
    destruct (new_counted _ _ _ _ _ _ _ vs1 rs ws ts lo ev vs ev (S now) CO (take_many_ok _ _ _ _ T) NW) as [CH CO1].
    eapply move_counted; [exact CO1 | | | | |]; auto.
    intros c. cbn. rewrite (refers_same c h1 h PR). lia.
  - (* from_ptr_and_deleter *)
    unfold from_ptr_and_deleter in ST. destruct (new m a p now []) as [[m1 h]| |] eqn:NW; cbn [bind] in ST; try discriminate.
    destruct (valid m1 (ptr h)); cbn [bind] in ST; try discriminate.
    destruct (valid m1 (if is_null then Null else Into a)); cbn [bind] in ST; try discriminate. injection ST as <- <-.
    destruct (new_counted _ _ _ _ [] _ _ vs rs ws ts lo ev vs ev (S now) CO (Permutation_refl _) NW) as [CH CO1].
    eapply move_counted; [exact CO1 | | | | |]; auto.
  - (* default *)
    injection ST as <- <-. eapply move_counted; [exact CO | | | | |]; auto.
  - (* clone *)
    destruct (take_res i vs) as [[h vs1]| |] eqn:T; cbn [bind] in ST; try discriminate.
    apply take_res_ok in T. unfold clone, shared_ptr_ref in ST. destruct (cntrl h) as [c|] eqn:CH.
    + unfold at_block in ST. destruct (get m c) as [b|] eqn:G; cbn [bind] in ST; try discriminate. injection ST as <- <-.
      split; [cbn; now rewrite set_keys|]. split; [|exact F]. intros c'. specialize (H c').
      unfold cell_ok, owners, wcount, weak_refs in *. cbn [mem vars raws weaks tasks lost log clock] in *. cbn [sum].
      pose proof (sum_set (held_by_value c') m c b (Block (strong b + 1) (weak b) (value b) (pid b) (born b)) G) as SS.
      rewrite held_same in SS by reflexivity. rewrite refers_mk.
      destruct (eqb_cases c c') as [[-> Q]|[NE Q]]; rewrite Q.
      * rewrite (get_set_same _ _ _ _ G). rewrite G in H. unfold block_ok in *; cbn [strong weak value].
        assert (OW : 1 <= sum (refers c) vs).
        { rewrite (sum_perm _ _ _ T). cbn. rewrite (refers_some c h c CH), Nat.eqb_refl. lia. }
        destruct H as [H1 H2]. split; [lia|]. destruct (value b) as [ow|]; [|lia].
        destruct H2 as (H2 & H3 & H4 & H5). split; [exact H2|]. split; [exact H3|]. split; lia.
      * rewrite (get_set_other _ _ _ _ NE). replace (sum (held_by_value c') (set m c _)) with (sum (held_by_value c') m) by lia.
        exact H.
    + cbn [bind] in ST. injection ST as <- <-. eapply move_counted; [exact CO | | | | |]; auto.
  - (* drop *)
    destruct (take_res i vs) as [[h vs1]| |] eqn:T; cbn [bind] in ST; try discriminate.
    apply take_res_ok in T. injection ST as <- <-. eapply move_counted; [exact CO | | | | |].
    + intros c. rewrite (sum_perm _ _ _ T). cbn. rewrite sum_app.
      unfold shared_ptr_unref, refers. destruct (cntrl h); cbn; lia.
    + intros c. rewrite sum_app. unfold shared_ptr_unref. destruct (cntrl h); reflexivity.
    + intros c. rewrite sum_app. unfold shared_ptr_unref. destruct (cntrl h); reflexivity.
    + intros c. rewrite sum_app. unfold shared_ptr_unref. destruct (cntrl h); reflexivity.
    + apply Forall_app. split; [|exact F]. unfold shared_ptr_unref. destruct (cntrl h); repeat constructor.
  - (* project *)
    destruct (take_res i vs) as [[h vs1]| |] eqn:T; cbn [bind] in ST; try discriminate.
    apply take_res_ok in T. destruct (project m h f) as [h1| |] eqn:PR; cbn [bind] in ST; try discriminate. injection ST as <- <-.
    apply project_cntrl in PR. eapply move_counted; [exact CO | | | | |]; auto.
    intros c. rewrite (sum_perm _ _ _ T). cbn. rewrite (refers_same c h1 h PR). lia.
  - (* project panics *)
    destruct (take_res i vs) as [[h vs1]| |] eqn:T; cbn [bind] in ST; try discriminate. apply take_res_ok in T.
    destruct (ptr h) as [|c0|] eqn:PH; try discriminate.
    + destruct (valid m (Into c0)); cbn [bind] in ST; try discriminate. unfold release in ST. injection ST as <- <-.
      eapply move_counted; [exact CO | | | | |]; auto. intros c. rewrite (sum_perm _ _ _ T). cbn. lia.
    + cbn [bind valid] in ST. unfold release in ST. injection ST as <- <-.
      eapply move_counted; [exact CO | | | | |]; auto. intros c. rewrite (sum_perm _ _ _ T). cbn. lia.
  - (* release *)
    destruct (take_res i vs) as [[h vs1]| |] eqn:T; cbn [bind] in ST; try discriminate. apply take_res_ok in T.
    unfold release in ST. injection ST as <- <-.
    eapply move_counted; [exact CO | | | | |]; auto. intros c. rewrite (sum_perm _ _ _ T). cbn. lia.
  - (* from_raw_parts *)
    destruct (take_res i rs) as [[h rs1]| |] eqn:T; cbn [bind] in ST; try discriminate. apply take_res_ok in T.
    injection ST as <- <-. eapply move_counted; [exact CO | | | | |]; auto. intros c. rewrite (sum_perm _ _ _ T). cbn. lia.
  - destruct (take_res i vs) as [[h vs1]| |]; cbn [bind] in ST; try discriminate.
    destruct (try_as_ref m h); cbn [bind] in ST; try discriminate. injection ST as <- <-. exact CO.
  - destruct (take_res i vs) as [[h vs1]| |]; cbn [bind] in ST; try discriminate.
    destruct (shared_ptr_use_count m (cntrl h)); cbn [bind] in ST; try discriminate. injection ST as <- <-. exact CO.
  - destruct (take_res i vs) as [[h vs1]| |]; cbn [bind] in ST; try discriminate.
    destruct (take_res j vs) as [[h' vs2]| |]; cbn [bind] in ST; try discriminate. injection ST as <- <-. exact CO.
  - (* weak_ptr from a shared_ptr *)
    destruct (take_res i vs) as [[h vs1]| |] eqn:T; cbn [bind] in ST; try discriminate.
    apply take_res_ok in T. destruct (add_weak m (cntrl h)) as [m1| |] eqn:AW; cbn [bind] in ST; try discriminate.
    injection ST as <- <-. eapply weak_counted; [exact CO | exact AW |].
    intros c CH. left. rewrite (sum_perm _ _ _ T). cbn. rewrite (refers_some c h c CH), Nat.eqb_refl. lia.
  - (* copy of a weak_ptr *)
    destruct (take_res i ws) as [[h ws1]| |] eqn:T; cbn [bind] in ST; try discriminate.
    apply take_res_ok in T. destruct (add_weak m (cntrl h)) as [m1| |] eqn:AW; cbn [bind] in ST; try discriminate.
    injection ST as <- <-. eapply weak_counted; [exact CO | exact AW |].
    intros c CH. right. rewrite (sum_perm _ _ _ T). cbn. rewrite (refers_some c h c CH), Nat.eqb_refl. lia.
  - (* drop of a weak_ptr *)
    destruct (take_res i ws) as [[h ws1]| |] eqn:T; cbn [bind] in ST; try discriminate.
    apply take_res_ok in T. injection ST as <- <-. split; [exact N|]. split.
    + intros c. apply (cell_same (State m vs rs ws ts lo ev now)); [reflexivity | | | | | exact (H c)]; open_cell; unfold release_weak;
        try rewrite (sum_perm _ _ _ T); unfold refers; cbn [sum]; destruct (cntrl h); cbn; lia.
    + apply Forall_app. split; [|exact F]. unfold release_weak. destruct (cntrl h); repeat constructor.
  - (* lock *)
    destruct (take_res i ws) as [[h ws1]| |] eqn:T; cbn [bind] in ST; try discriminate.
    apply take_res_ok in T. destruct (cntrl h) as [c0|] eqn:CH.
    + injection ST as <- <-. split; [exact N|]. split.
      * intros c. apply (cell_same (State m vs rs ws ts lo ev now)); [reflexivity | | | | | exact (H c)]; open_cell;
          try rewrite (sum_perm _ _ _ T); cbn; lia.
      * constructor; [exact CH | exact F].
    + injection ST as <- <-. eapply move_counted; [exact CO | | | | |]; auto.
  - (* a task *)
    destruct (take_res i ts) as [[t ts1]| |] eqn:T; cbn [bind] in ST; try discriminate.
    apply take_res_ok in T. destruct (advance m t) as [e| |] eqn:AD; cbn [bind] in ST; try discriminate. injection ST as <- <-.
    eapply advance_counted; [|exact AD].
    split; [exact N|]. split; [|eapply Permutation_Forall; [exact T | exact F]].
    intros c. apply (cell_same (State m vs rs ws ts lo ev now)); [reflexivity | | | | | exact (H c)]; open_cell;
      rewrite ?(sum_perm _ _ _ T); cbn; lia.
Qed.
