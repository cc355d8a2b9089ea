(** Termination, and equality of objects. *)
From Coq Require Import List Arith ZArith Bool Lia.
From Verif.Lifetimes Require Model.
From Verif.PointsTo Require Import Model Spec Proofs.
From Verif.PtTransfer Require Import Model Spec Proofs Proofs3.
Import ListNotations.
Local Open Scope Z_scope.

Section Repo.
Variable R : repo.
Notation cs := Lifetimes.Model.constraints.

Lemma recursive_S fuel m ps ns t inv c seen : recursive R (Datatypes.S fuel) m ps ns t inv c seen =
  let seen1 := see_all ps ns seen in
  if Nat.eqb (length seen) (length seen1) then Done (c, seen1) else
  match pointee_of t with
  | None => Done (c, seen1)
  | Some (is_const, pointee) =>
      visits R fuel m [Visit pointee (get_many m ps) ns] (negb is_const) (non_recursive R (get_many m ps) ns inv c) seen1
  end.
Proof. reflexivity. Qed.
Lemma visits_S fuel m calls inv c seen : visits R (Datatypes.S fuel) m calls inv c seen =
  match calls with
  | [] => Done (c, seen)
  | Visit t o n :: calls =>
      match t with
      | TIncomplete => visits R fuel m calls inv c seen
      | TRec r =>
          do fs <- field_visits R (fields R r) o n;
          do bs <- base_visits R (bases R r) o n;
          visits R fuel m (rev (fs ++ bs) ++ calls) inv c seen
      | _ =>
          do (c, seen) <- recursive R fuel m o (get_many m n) t inv c seen;
          visits R fuel m calls inv c seen
      end
  end.
Proof. reflexivity. Qed.

Lemma more_fuel m : forall fuel,
  (forall ps ns t inv c seen r, recursive R fuel m ps ns t inv c seen = r -> r <> Fuel -> recursive R (Datatypes.S fuel) m ps ns t inv c seen = r) /\
  (forall calls inv c seen r, visits R fuel m calls inv c seen = r -> r <> Fuel -> visits R (Datatypes.S fuel) m calls inv c seen = r).
Proof.
  induction fuel as [|fuel [IHr IHv]].
  - split; intros; cbn in *; congruence.
  - split.
    + intros ps ns t inv c seen r E N. rewrite recursive_S in E |- *. cbv zeta in *.
      destruct (Nat.eqb (length seen) (length (see_all ps ns seen))); [exact E|]. destruct (pointee_of t) as [[k t']|]; [|exact E]. apply IHv; assumption.
    + intros calls inv c seen r E N. rewrite visits_S in E |- *. destruct calls as [|[t o n] calls]; [exact E|].
      destruct t; try (apply IHv; assumption);
        try (destruct (recursive R fuel m o (get_many m n) _ inv c seen) as [| |[c1 s1]] eqn:E1; [cbn [bind] in E; congruence| |];
             rewrite (IHr _ _ _ _ _ _ _ E1); try discriminate; cbn [bind] in *; [exact E|apply IHv; assumption]).
      destruct (field_visits R (fields R r0) o n); cbn [bind] in *; try exact E.
      destruct (base_visits R (bases R r0) o n); cbn [bind] in *; try exact E. apply IHv; assumption.
Qed.
Lemma rec_fuel m a b ps ns t inv c seen : (a <= b)%nat -> recursive R a m ps ns t inv c seen <> Fuel ->
  recursive R b m ps ns t inv c seen = recursive R a m ps ns t inv c seen.
Proof. intros L N. induction L as [|b L IH]; [reflexivity|]. apply (proj1 (more_fuel m b)); [exact IH|exact N]. Qed.
Lemma vis_fuel m a b calls inv c seen : (a <= b)%nat -> visits R a m calls inv c seen <> Fuel ->
  visits R b m calls inv c seen = visits R a m calls inv c seen.
Proof. intros L N. induction L as [|b L IH]; [reflexivity|]. apply (proj2 (more_fuel m b)); [exact IH|exact N]. Qed.

Lemma seen_grows m : forall fuel,
  (forall ps ns t inv c seen c' seen', recursive R fuel m ps ns t inv c seen = Done (c', seen') -> incl seen seen') /\
  (forall calls inv c seen c' seen', visits R fuel m calls inv c seen = Done (c', seen') -> incl seen seen').
Proof.
  induction fuel as [|fuel [IHr IHv]]; [split; intros; discriminate|]. split.
  - intros ps ns t inv c seen c' seen' E. rewrite recursive_S in E. cbv zeta in E. destruct (see_all_spec ns ps seen) as (l & _ & Hs).
    assert (I : incl seen (see_all ps ns seen)) by (intros x H; apply Hs; auto).
    destruct (Nat.eqb _ _); [injection E as <- <-; exact I|]. destruct (pointee_of t) as [[k t']|]; [|injection E as <- <-; exact I].
    apply IHv in E. eapply incl_tran; eauto.
  - intros calls inv c seen c' seen' E. rewrite visits_S in E. destruct calls as [|[t o n] calls]; [injection E as <- <-; apply incl_refl|].
    destruct t; try (apply IHv in E; exact E);
      try (apply bind_done in E; destruct E as ([c1 s1] & E1 & E); apply IHr in E1; apply IHv in E; eapply incl_tran; eauto).
    apply bind_done in E. destruct E as (fs & _ & E). apply bind_done in E. destruct E as (bs & _ & E). apply IHv in E. exact E.
Qed.

Section Finite.
Variables (m : pmap) (U : list object) (rank : Z -> nat).
Hypothesis HU : finite_objects R m U.
Hypothesis rank_field : forall r f r', In (f, TRec r') (fields R r) -> (rank r' < rank r)%nat.
Hypothesis rank_base : forall r b, In b (bases R r) -> (rank b < rank r)%nat.
Definition unseen (seen : list (object * object)) : nat :=
  length (filter (fun x => negb (pair_seen seen (fst x) (snd x))) (list_prod U U)).
Lemma filter_le {A} (f g : A -> bool) l : (forall x, In x l -> g x = true -> f x = true) -> (length (filter g l) <= length (filter f l))%nat.
Proof.
  induction l as [|x l IH]; intros H; cbn [filter]; [lia|]. assert (IH' : (length (filter g l) <= length (filter f l))%nat) by (apply IH; intros y I; apply H; right; exact I).
  destruct (g x) eqn:Eg; [rewrite (H x (or_introl eq_refl) Eg); cbn [length]; lia|]. destruct (f x); cbn [length]; lia.
Qed.
Lemma filter_lt {A} (f g : A -> bool) l y : (forall x, In x l -> g x = true -> f x = true) -> In y l -> f y = true -> g y = false -> (length (filter g l) < length (filter f l))%nat.
Proof.
  induction l as [|x l IH]; intros H I Fy Gy; [destruct I|]. cbn [filter].
  assert (Hl : forall z, In z l -> g z = true -> f z = true) by (intros z Iz; apply H; right; exact Iz). pose proof (filter_le f g l Hl) as L.
  destruct I as [->|I]; [rewrite Fy, Gy; cbn [length]; lia|]. specialize (IH Hl I Fy Gy).
  destruct (g x) eqn:Eg; [rewrite (H x (or_introl eq_refl) Eg); cbn [length]; lia|]. destruct (f x); cbn [length]; lia.
Qed.
Lemma unseen_mono s s' : incl s s' -> (unseen s' <= unseen s)%nat.
Proof.
  intros I. unfold unseen. apply filter_le. intros [p n] _ H. cbn [fst snd] in *. apply negb_true_iff in H. apply negb_true_iff.
  destruct (pair_seen s p n) eqn:E; [|reflexivity]. apply pair_seen_spec in E. apply I in E. apply pair_seen_spec in E. congruence.
Qed.
Lemma unseen_drop ps ns seen : incl ps U -> incl ns U -> length seen <> length (see_all ps ns seen) -> (unseen (see_all ps ns seen) < unseen seen)%nat.
Proof.
  intros Ip In_ N. destruct (see_all_spec ns ps seen) as (l & E & Hs).
  assert (X : exists p n, In p ps /\ In n ns /\ ~ In (p, n) seen).
  { destruct (list_eq_dec (fun x y : object * object => ltac:(decide equality; apply Z.eq_dec) : {x = y} + {x <> y}) l []) as [->|Nl]; [rewrite E in N; cbn in N; congruence|].
    clear Nl. (* a new pair exists, otherwise nothing is inserted *)
    destruct (existsb (fun p => existsb (fun n => negb (pair_seen seen p n)) ns) ps) eqn:Ex.
    - apply existsb_exists in Ex. destruct Ex as (p & Hp & Ex). apply existsb_exists in Ex. destruct Ex as (n & Hn & Ex). exists p, n. split; [exact Hp|]. split; [exact Hn|].
      intros I. apply pair_seen_spec in I. rewrite I in Ex. discriminate.
    - exfalso. apply N. f_equal. symmetry.
      assert (All : forall p n, In p ps -> In n ns -> pair_seen seen p n = true).
      { intros p n Hp Hn. destruct (pair_seen seen p n) eqn:Epn; [reflexivity|]. exfalso.
        assert (T : existsb (fun p => existsb (fun n => negb (pair_seen seen p n)) ns) ps = true).
        { apply existsb_exists. exists p. split; [exact Hp|]. apply existsb_exists. exists n. split; [exact Hn|]. rewrite Epn. reflexivity. }
        congruence. }
      clear - All. unfold see_all. induction ps as [|p ps IH]; cbn [fold_left]; [reflexivity|].
      assert (Row : fold_left (fun seen n => see seen p n) ns seen = seen).
      { assert (A2 : forall n, In n ns -> pair_seen seen p n = true) by (intros n Hn; apply All; [left; reflexivity|exact Hn]).
        clear All IH. induction ns as [|n ns IHn]; cbn [fold_left]; [reflexivity|]. unfold see at 2. rewrite (A2 n (or_introl eq_refl)). apply IHn. intros k Hk. apply A2. right. exact Hk. }
      rewrite Row. apply IH. intros q n Hq Hn. apply All; [right; exact Hq|exact Hn]. }
  destruct X as (p & n & Hp & Hn & Nn). unfold unseen.
  apply (filter_lt _ _ _ (p, n)).
  - intros [a b] _ H. cbn [fst snd] in *. apply negb_true_iff in H. apply negb_true_iff. destruct (pair_seen seen a b) eqn:Eab; [|reflexivity].
    apply pair_seen_spec in Eab. assert (I : In (a, b) (see_all ps ns seen)) by (apply Hs; auto). apply pair_seen_spec in I. congruence.
  - apply in_prod; [apply Ip; exact Hp|apply In_; exact Hn].
  - cbn [fst snd]. apply negb_true_iff. destruct (pair_seen seen p n) eqn:Epn; [|reflexivity]. apply pair_seen_spec in Epn. contradiction.
  - cbn [fst snd]. apply negb_false_iff. apply pair_seen_spec. apply Hs. right. eauto.
Qed.
Definition in_U (v : visit_info) : Prop := incl (v_old v) U /\ incl (v_new v) U.
Lemma map_objects_U f s r : (forall o x, f o = Some x -> In x U) -> map_objects f s [] = Done r -> incl r U.
Proof. intros H E x I. apply (map_objects_in _ _ _ _ E) in I. destruct I as [[]|(y & _ & Ey)]. eapply H; eauto. Qed.
Definition weight (t : ty) : nat := match t with TRec r => Datatypes.S (rank r) | _ => 0%nat end.
Lemma pushed_U r o n fs bs v : field_visits R (fields R r) o n = Done fs -> base_visits R (bases R r) o n = Done bs -> In v (rev (fs ++ bs)) ->
  in_U v /\ (weight (v_type v) < Datatypes.S (rank r))%nat.
Proof.
  destruct HU as (_ & Uf & Ub). intros Ef Eb I. apply in_rev in I. apply in_app_or in I. destruct I as [I|I].
  - apply (field_visits_in _ _ _ _ _ Ef) in I. destruct I as (f & t & o' & n' & I & Eo & En & ->). split.
    + split; cbn [v_old v_new]; [apply (map_objects_U _ _ _ (fun o x => Uf o f x) Eo)|apply (map_objects_U _ _ _ (fun o x => Uf o f x) En)].
    + cbn [v_type]. destruct t; cbn [weight]; try lia. specialize (rank_field _ _ _ I). lia.
  - apply (base_visits_in _ _ _ _ _ Eb) in I. destruct I as (f & o' & n' & I & Eo & En & ->). split.
    + split; cbn [v_old v_new]; [apply (map_objects_U _ _ _ (fun o x => Ub o f x) Eo)|apply (map_objects_U _ _ _ (fun o x => Ub o f x) En)].
    + cbn [v_type weight]. specialize (rank_base _ _ I). lia.
Qed.
Lemma get_many_U s : incl (get_many m s) U.
Proof. intros x I. apply get_many_in in I. destruct I as (p & _ & H). eapply (proj1 HU); eauto. Qed.
Definition halts_r (k : nat) : Prop := forall ps ns t inv c seen, incl ps U -> incl ns U -> (unseen seen <= k)%nat -> exists N, recursive R N m ps ns t inv c seen <> Fuel.
Definition halts_v (k : nat) (calls : list visit_info) : Prop := forall inv c seen, (unseen seen <= k)%nat -> exists N, visits R N m calls inv c seen <> Fuel.
Lemma halts_calls k : halts_r k -> forall d call rest, (weight (v_type call) <= d)%nat -> in_U call -> halts_v k rest -> halts_v k (call :: rest).
Proof.
  intros Hr. induction d as [d IH] using lt_wf_ind. intros [t o n] rest Hw [Uo Un] Hrest inv c seen Hs. cbn [v_type v_old v_new] in *.
  assert (Plain : (exists N, (do (c, seen) <- recursive R N m o (get_many m n) t inv c seen; visits R N m rest inv c seen) <> Fuel)).
  { destruct (Hr o (get_many m n) t inv c seen Uo (get_many_U n) Hs) as (N1 & H1).
    destruct (recursive R N1 m o (get_many m n) t inv c seen) as [| |[c1 s1]] eqn:E1; [congruence| |].
    - exists N1. rewrite E1. discriminate.
    - assert (L1 : (unseen s1 <= k)%nat) by (pose proof (unseen_mono _ _ (proj1 (seen_grows m N1) _ _ _ _ _ _ _ _ E1)); lia).
      destruct (Hrest inv c1 s1 L1) as (N2 & H2). exists (N1 + N2)%nat.
      rewrite (rec_fuel m N1 (N1 + N2)) by (try lia; rewrite E1; discriminate). rewrite E1. cbn [bind]. rewrite (vis_fuel m N2 (N1 + N2)) by (try lia; exact H2). exact H2. }
  destruct t; try (destruct Plain as (N & HN); exists (Datatypes.S N); rewrite visits_S; exact HN).
  - destruct (field_visits R (fields R r) o n) as [| |fs] eqn:Ef; [exfalso|exists 1%nat; rewrite visits_S, Ef; discriminate|].
    { revert Ef. clear. induction (fields R r) as [|[f t] l IH]; cbn [field_visits]; [discriminate|]. 
      assert (X : forall f s acc, map_objects f s acc <> Fuel) by (clear; intros f s; induction s as [|x s IHs]; intros acc; cbn [map_objects]; [discriminate|]; destruct (f x); cbn [found bind]; [apply IHs|discriminate]).
      unfold field_objects. destruct (map_objects _ o []) eqn:E1; cbn [bind]; try discriminate; [intros _; exact (X _ _ _ E1)|].
      destruct (map_objects _ n []) eqn:E2; cbn [bind]; try discriminate; [intros _; exact (X _ _ _ E2)|].
      destruct (field_visits R l o n); cbn [bind]; try discriminate. exact IH. }
    destruct (base_visits R (bases R r) o n) as [| |bs] eqn:Eb; [exfalso|exists 1%nat; rewrite visits_S, Ef; cbn [bind]; rewrite Eb; discriminate|].
    { revert Eb. clear. induction (bases R r) as [|f l IH]; cbn [base_visits]; [discriminate|]. 
      assert (X : forall f s acc, map_objects f s acc <> Fuel) by (clear; intros f s; induction s as [|x s IHs]; intros acc; cbn [map_objects]; [discriminate|]; destruct (f x); cbn [found bind]; [apply IHs|discriminate]).
      unfold base_objects. destruct (map_objects _ o []) eqn:E1; cbn [bind]; try discriminate; [intros _; exact (X _ _ _ E1)|].
      destruct (map_objects _ n []) eqn:E2; cbn [bind]; try discriminate; [intros _; exact (X _ _ _ E2)|].
      destruct (base_visits R l o n); cbn [bind]; try discriminate. exact IH. }
    assert (Hp : halts_v k (rev (fs ++ bs) ++ rest)).
    { cbn [weight] in Hw. pose proof (fun v => pushed_U r o n fs bs v Ef Eb) as HP.
      revert HP. generalize (rev (fs ++ bs)). intros l HP. induction l as [|v l IHl]; [exact Hrest|]. cbn [app].
      destruct (HP v (or_introl eq_refl)) as [Uv Wv]. apply (IH (weight (v_type v))); [lia|lia|exact Uv|]. apply IHl. intros w Iw. apply HP. right. exact Iw. }
    destruct (Hp inv c seen Hs) as (N & HN). exists (Datatypes.S N). rewrite visits_S, Ef. cbn [bind]. rewrite Eb. cbn [bind]. exact HN.
  - destruct (Hrest inv c seen Hs) as (N & HN). exists (Datatypes.S N). rewrite visits_S. exact HN.
Qed.
Lemma halts_all k : halts_r k.
Proof.
  induction k as [|k IH]; intros ps ns t inv c seen Up Un Hs.
  - exists 1%nat. rewrite recursive_S. cbv zeta. destruct (Nat.eqb (length seen) (length (see_all ps ns seen))) eqn:El; [discriminate|].
    apply Nat.eqb_neq in El. pose proof (unseen_drop ps ns seen Up Un El). lia.
  - destruct (Nat.eqb (length seen) (length (see_all ps ns seen))) eqn:El.
    + exists 1%nat. rewrite recursive_S. cbv zeta. rewrite El. discriminate.
    + destruct (pointee_of t) as [[b t']|] eqn:Et; [|exists 1%nat; rewrite recursive_S; cbv zeta; rewrite El, Et; discriminate].
      pose proof El as El'. apply Nat.eqb_neq in El'. pose proof (unseen_drop ps ns seen Up Un El') as Hd.
      assert (Hn : halts_v k []) by (intros i' c' s' _; exists 1%nat; discriminate).
      assert (Hv : halts_v k [Visit t' (get_many m ps) ns]) by (apply (halts_calls k IH (weight t')); [cbn; lia|split; [apply get_many_U|exact Un]|exact Hn]).
      destruct (Hv (negb b) (non_recursive R (get_many m ps) ns inv c) (see_all ps ns seen)) as (N & HN); [lia|].
      exists (Datatypes.S N). rewrite recursive_S. cbv zeta. rewrite El, Et. exact HN.
Qed.
End Finite.

Theorem assignment_terminates m ps ns t c : (exists U, finite_objects R m U) -> no_self_containment R ->
  exists N, forall fuel, (N <= fuel)%nat -> for_assignment R fuel m ps ns t c <> Fuel /\ for_assignment R fuel m ps ns t c = for_assignment R N m ps ns t c.
Proof.
  intros (U0 & Hm & Hf & Hb) (rank & Rf & Rb). set (U := ps ++ ns ++ U0).
  assert (HU : finite_objects R m U).
  { split; [|split]; intros; unfold U; apply in_or_app; right; apply in_or_app; right; eauto. }
  destruct (halts_all m U rank HU Rf Rb (unseen U []) ps ns t false c []) as (N & HN).
  - intros x I. unfold U. apply in_or_app. auto.
  - intros x I. unfold U. apply in_or_app. right. apply in_or_app. auto.
  - lia.
  - exists N. intros fuel L. unfold for_assignment. rewrite (rec_fuel m N fuel _ _ _ _ _ _ L HN).
    split; [|reflexivity]. destruct (recursive R N m ps ns t false c []) as [| |[c' s']]; [congruence|discriminate|discriminate].
Qed.

(** * Equality *)
Fixpoint eq_fields (fuel : nat) (m : pmap) (a b : oset) (l : list (Z * ty)) (c : cs) : res cs :=
  match l with
  | [] => Done c
  | (f, ft) :: l' => do a' <- field_objects R a f; do b' <- field_objects R b f; do c <- equality R fuel m a' b' ft c; eq_fields fuel m a b l' c
  end.
Fixpoint eq_bases (fuel : nat) (m : pmap) (a b : oset) (l : list Z) (c : cs) : res cs :=
  match l with
  | [] => Done c
  | f :: l' => do a' <- base_objects R a f; do b' <- base_objects R b f; do c <- equality R fuel m a' b' (TRec f) c; eq_bases fuel m a b l' c
  end.
Lemma equality_S fuel m a b t c : equality R (Datatypes.S fuel) m a b t c =
  let c := non_recursive R a b true c in
  match t with
  | TRec r => do c <- eq_fields fuel m a b (fields R r) c; eq_bases fuel m a b (bases R r) c
  | _ => match pointee_of t with
         | Some (_, t') => equality R fuel m (get_many m a) (get_many m b) t' c
         | None => Done c
         end
  end.
Proof.
  cbn [equality]. cbv zeta. destruct t; try reflexivity.
  assert (X : forall l c, (fix over_bases (l : list Z) c := match l with [] => Done c | base :: l' => do a' <- base_objects R a base; do b' <- base_objects R b base; do c <- equality R fuel m a' b' (TRec base) c; over_bases l' c end) l c = eq_bases fuel m a b l c).
  { induction l as [|f l IH]; intros c1; [reflexivity|]. cbn [eq_bases]. destruct (base_objects R a f); cbn [bind]; try reflexivity. destruct (base_objects R b f); cbn [bind]; try reflexivity.
    destruct (equality R fuel m a0 a1 (TRec f) c1); cbn [bind]; try reflexivity. apply IH. }
  assert (Y : forall l c, (fix over_fields (l : list (Z * ty)) c := match l with [] => Done c | (f, ft) :: l' => do a' <- field_objects R a f; do b' <- field_objects R b f; do c <- equality R fuel m a' b' ft c; over_fields l' c end) l c = eq_fields fuel m a b l c).
  { induction l as [|[f ft] l IH]; intros c1; [reflexivity|]. cbn [eq_fields]. destruct (field_objects R a f); cbn [bind]; try reflexivity. destruct (field_objects R b f); cbn [bind]; try reflexivity.
    destruct (equality R fuel m a0 a1 ft c1); cbn [bind]; try reflexivity. apply IH. }
  rewrite Y. destruct (eq_fields fuel m a b (fields R r) (non_recursive R a b true c)); cbn [bind]; try reflexivity. apply X.
Qed.
Definition both (x y : object) (q : Z * Z) : Prop := replaces R x y q \/ replaces R y x q.
Lemma matched_rec m r a b x y : matched R m (TRec r) a b x y ->
  (x = a /\ y = b) \/
  (exists f t a' b', In (f, t) (fields R r) /\ field_object R a f = Some a' /\ field_object R b f = Some b' /\ matched R m t a' b' x y) \/
  (exists base a' b', In base (bases R r) /\ base_object R a base = Some a' /\ base_object R b base = Some b' /\ matched R m (TRec base) a' b' x y).
Proof.
  intros H. inversion H; subst.
  - left. auto.
  - right. left. do 4 eexists. eauto.
  - right. right. do 3 eexists. eauto.
  - exfalso. match goal with K : _ \/ _ |- _ => destruct K; discriminate end.
Qed.
Lemma matched_other m t a b x y : (forall r, t <> TRec r) -> matched R m t a b x y ->
  (x = a /\ y = b) \/ exists c t' a' b', (t = TPtr c t' \/ t = TRef c t') /\ points m (Pointer a) a' /\ points m (Pointer b) b' /\ matched R m t' a' b' x y.
Proof.
  intros N H. inversion H; subst.
  - left. auto.
  - exfalso. eapply N; reflexivity.
  - exfalso. eapply N; reflexivity.
  - right. do 4 eexists. eauto.
Qed.
Definition eq_result (m : pmap) (t : ty) (a b : oset) (c c' : cs) : Prop :=
  forall q, In q c' <-> In q c \/ exists o1 o2 x y, In o1 a /\ In o2 b /\ matched R m t o1 o2 x y /\ both x y q.
Lemma equality_exact m fuel : forall a b t c c', equality R fuel m a b t c = Done c' -> eq_result m t a b c c'.
Proof.
  induction fuel as [|fuel IH]; intros a b t c c' E; [discriminate|]. rewrite equality_S in E. cbv zeta in E.
  pose proof (fun q => non_recursive_in R a b true c q) as H0. set (c1 := non_recursive R a b true c) in *. clearbody c1.
  assert (Ff : forall l c c', eq_fields fuel m a b l c = Done c' -> forall q, In q c' <-> In q c \/
     exists f t o1 o2 a' b' x y, In (f, t) l /\ In o1 a /\ In o2 b /\ field_object R o1 f = Some a' /\ field_object R o2 f = Some b' /\ matched R m t a' b' x y /\ both x y q).
  { clear - IH. induction l as [|[f ft] l IHl]; intros c c' E q; cbn [eq_fields] in E.
    - injection E as <-. split; [auto|intros [H|(f & t & o1 & o2 & a' & b' & x & y & [] & _)]; exact H].
    - apply bind_done in E. destruct E as (a1 & Ea & E). apply bind_done in E. destruct E as (b1 & Eb & E). apply bind_done in E. destruct E as (c1 & Ec & E).
      rewrite (IHl _ _ E q), (IH _ _ _ _ _ Ec q). split.
      + intros [[H|(p1 & p2 & x & y & I1 & I2 & Hm & Hb)]|(f' & t & o1 & o2 & a' & b' & x & y & I & H)]; [auto| |right; exists f', t, o1, o2, a', b', x, y; split; [right; exact I|exact H]].
        apply (map_objects_in _ _ _ _ Ea) in I1. destruct I1 as [[]|(o1 & J1 & K1)]. apply (map_objects_in _ _ _ _ Eb) in I2. destruct I2 as [[]|(o2 & J2 & K2)].
        right. exists f, ft, o1, o2, p1, p2, x, y. split; [left; reflexivity|auto 8].
      + intros [H|(f' & t & o1 & o2 & a' & b' & x & y & [[= <- <-]|I] & J1 & J2 & K1 & K2 & Hm & Hb)]; [auto| |right; exists f', t, o1, o2, a', b', x, y; auto 8].
        left. right. exists a', b', x, y. split; [apply (map_objects_in _ _ _ _ Ea); eauto|]. split; [apply (map_objects_in _ _ _ _ Eb); eauto|auto]. }
  assert (Fb : forall l c c', eq_bases fuel m a b l c = Done c' -> forall q, In q c' <-> In q c \/
     exists f o1 o2 a' b' x y, In f l /\ In o1 a /\ In o2 b /\ base_object R o1 f = Some a' /\ base_object R o2 f = Some b' /\ matched R m (TRec f) a' b' x y /\ both x y q).
  { clear - IH. induction l as [|f l IHl]; intros c c' E q; cbn [eq_bases] in E.
    - injection E as <-. split; [auto|intros [H|(f & o1 & o2 & a' & b' & x & y & [] & _)]; exact H].
    - apply bind_done in E. destruct E as (a1 & Ea & E). apply bind_done in E. destruct E as (b1 & Eb & E). apply bind_done in E. destruct E as (c1 & Ec & E).
      rewrite (IHl _ _ E q), (IH _ _ _ _ _ Ec q). split.
      + intros [[H|(p1 & p2 & x & y & I1 & I2 & Hm & Hb)]|(f' & o1 & o2 & a' & b' & x & y & I & H)]; [auto| |right; exists f', o1, o2, a', b', x, y; split; [right; exact I|exact H]].
        apply (map_objects_in _ _ _ _ Ea) in I1. destruct I1 as [[]|(o1 & J1 & K1)]. apply (map_objects_in _ _ _ _ Eb) in I2. destruct I2 as [[]|(o2 & J2 & K2)].
        right. exists f, o1, o2, p1, p2, x, y. split; [left; reflexivity|auto 8].
      + intros [H|(f' & o1 & o2 & a' & b' & x & y & [<-|I] & J1 & J2 & K1 & K2 & Hm & Hb)]; [auto| |right; exists f', o1, o2, a', b', x, y; auto 8].
        left. right. exists a', b', x, y. split; [apply (map_objects_in _ _ _ _ Ea); eauto|]. split; [apply (map_objects_in _ _ _ _ Eb); eauto|auto]. }
  assert (H1 : forall q, In q c1 <-> In q c \/ exists o1 o2, In o1 a /\ In o2 b /\ both o1 o2 q).
  { intros q. rewrite H0. unfold both. split.
    - intros [H|[(o1 & o2 & I1 & I2 & H)|(_ & o1 & o2 & I1 & I2 & H)]]; [auto|right; exists o1, o2; auto|right; exists o1, o2; auto].
    - intros [H|(o1 & o2 & I1 & I2 & [H|H])]; [auto|right; left; eauto|right; right; split; [reflexivity|eauto]]. }
  intros q.
  assert (Plain : (forall r, t <> TRec r) -> (match pointee_of t with Some (_, t') => equality R fuel m (get_many m a) (get_many m b) t' c1 | None => Done c1 end) = Done c' ->
     (In q c' <-> In q c \/ exists o1 o2 x y, In o1 a /\ In o2 b /\ matched R m t o1 o2 x y /\ both x y q)).
  { intros Nr E'. destruct (pointee_of t) as [[k t']|] eqn:Et.
    - apply pointee_of_spec in Et. rewrite (IH _ _ _ _ _ E' q), H1. split.
      + intros [[H|(o1 & o2 & I1 & I2 & H)]|(p1 & p2 & x & y & I1 & I2 & Hm & Hb)]; [auto|right; exists o1, o2, o1, o2; split; [exact I1|]; split; [exact I2|]; split; [apply MSelf|exact H]|].
        apply get_many_in in I1. destruct I1 as (o1 & J1 & K1). apply get_many_in in I2. destruct I2 as (o2 & J2 & K2).
        right. exists o1, o2, x, y. split; [exact J1|]. split; [exact J2|]. split; [eapply MPointee; eauto|exact Hb].
      + intros [H|(o1 & o2 & x & y & I1 & I2 & Hm & Hb)]; [auto|]. apply matched_other in Hm; [|exact Nr]. destruct Hm as [[-> ->]|(k' & t'' & a' & b' & Ht & Ka & Kb & Hm)]; [left; right; eauto|].
        assert (t'' = t') by (destruct Et as [-> | ->]; destruct Ht as [E1|E1]; congruence). subst t''.
        right. exists a', b', x, y. split; [apply get_many_in; eauto|]. split; [apply get_many_in; eauto|auto].
    - injection E' as <-. rewrite H1. split.
      + intros [H|(o1 & o2 & I1 & I2 & H)]; [auto|right; exists o1, o2, o1, o2; split; [exact I1|]; split; [exact I2|]; split; [apply MSelf|exact H]].
      + intros [H|(o1 & o2 & x & y & I1 & I2 & Hm & Hb)]; [auto|]. apply matched_other in Hm; [|exact Nr]. destruct Hm as [[-> ->]|(k' & t'' & a' & b' & Ht & _)]; [right; eauto|].
        apply pointee_of_spec in Ht. congruence. }
  destruct t; try (apply Plain; [congruence|exact E]). clear Plain.
  apply bind_done in E. destruct E as (c2 & E1 & E). rewrite (Fb _ _ _ E q), (Ff _ _ _ E1 q), H1. split.
  - intros [[[H|(o1 & o2 & I1 & I2 & H)]|(f & t & o1 & o2 & a' & b' & x & y & I & J1 & J2 & K1 & K2 & Hm & Hb)]|(f & o1 & o2 & a' & b' & x & y & I & J1 & J2 & K1 & K2 & Hm & Hb)].
    + auto.
    + right; exists o1, o2, o1, o2; split; [exact I1|]; split; [exact I2|]; split; [apply MSelf|exact H].
    + right. exists o1, o2, x, y. split; [exact J1|]. split; [exact J2|]. split; [eapply MField; eauto|exact Hb].
    + right. exists o1, o2, x, y. split; [exact J1|]. split; [exact J2|]. split; [eapply MBase; eauto|exact Hb].
  - intros [H|(o1 & o2 & x & y & I1 & I2 & Hm & Hb)]; [auto|]. apply matched_rec in Hm.
    destruct Hm as [[-> ->]|[(f & t & a' & b' & I & K1 & K2 & Hm)|(f & a' & b' & I & K1 & K2 & Hm)]].
    + left. left. right. eauto.
    + left. right. exists f, t, o1, o2, a', b', x, y. auto 8.
    + right. exists f, o1, o2, a', b', x, y. auto 8.
Qed.

Lemma map_objects_fuel f s : forall acc, map_objects f s acc <> Fuel.
Proof. induction s as [|x s IHs]; intros acc; cbn [map_objects]; [discriminate|]; destruct (f x); cbn [found bind]; [apply IHs|discriminate]. Qed.
Lemma eq_more m : forall fuel a b t c, equality R fuel m a b t c <> Fuel -> equality R (Datatypes.S fuel) m a b t c = equality R fuel m a b t c.
Proof.
  induction fuel as [|fuel IH]; intros a b t c H; [cbn in H; congruence|]. rewrite equality_S in H |- *. rewrite (equality_S fuel). cbv zeta in *.
  generalize dependent (non_recursive R a b true c). intros c1 H.
  assert (Ff : forall l c, eq_fields fuel m a b l c <> Fuel -> eq_fields (Datatypes.S fuel) m a b l c = eq_fields fuel m a b l c).
  { induction l as [|[f ft] l IHl]; intros c2 H2; cbn [eq_fields] in *; [reflexivity|]. destruct (field_objects R a f) as [| |a']; cbn [bind] in *; try reflexivity.
    destruct (field_objects R b f) as [| |b']; cbn [bind] in *; try reflexivity.
    rewrite IH by (intros E; rewrite E in H2; cbn [bind] in H2; congruence). destruct (equality R fuel m a' b' ft c2); cbn [bind] in *; try reflexivity. apply IHl. exact H2. }
  assert (Fb : forall l c, eq_bases fuel m a b l c <> Fuel -> eq_bases (Datatypes.S fuel) m a b l c = eq_bases fuel m a b l c).
  { induction l as [|f l IHl]; intros c2 H2; cbn [eq_bases] in *; [reflexivity|]. destruct (base_objects R a f) as [| |a']; cbn [bind] in *; try reflexivity.
    destruct (base_objects R b f) as [| |b']; cbn [bind] in *; try reflexivity.
    rewrite IH by (intros E; rewrite E in H2; cbn [bind] in H2; congruence). destruct (equality R fuel m a' b' (TRec f) c2); cbn [bind] in *; try reflexivity. apply IHl. exact H2. }
  destruct t; cbn [pointee_of] in *; try reflexivity; try (apply IH; exact H).
  rewrite Ff by (intros E; rewrite E in H; cbn [bind] in H; congruence). destruct (eq_fields fuel m a b (fields R r) c1); cbn [bind] in *; try reflexivity. apply Fb. exact H.
Qed.
Lemma eq_fuel m N fuel a b t c : (N <= fuel)%nat -> equality R N m a b t c <> Fuel -> equality R fuel m a b t c = equality R N m a b t c.
Proof. intros L H. induction L as [|k L IH]; [reflexivity|]. rewrite eq_more; [exact IH|]. rewrite IH. exact H. Qed.
Definition eq_halts (N : nat) (t : ty) : Prop := forall m a b c, equality R N m a b t c <> Fuel.
Lemma eq_halts_le N M t : (N <= M)%nat -> eq_halts N t -> eq_halts M t.
Proof. intros L H m a b c. rewrite (eq_fuel m N M) by (auto; apply H). apply H. Qed.
Theorem equality_terminates t : no_self_reference R -> exists N, forall fuel m a b c, (N <= fuel)%nat ->
  equality R fuel m a b t c <> Fuel /\ equality R fuel m a b t c = equality R N m a b t c.
Proof.
  intros (rank & Rf & Rb).
  assert (Main : forall k t, (forall r, names t r -> (rank r < k)%nat) -> exists N, eq_halts N t).
  { induction k as [|k IHk].
    - induction t0 as [|k' t0 IHt|k' t0 IHt|r|t0 IHt|]; intros H; try (exists 1%nat; intros m a b c; rewrite equality_S; discriminate);
        try (destruct IHt as (N & HN); [exact H|]; exists (Datatypes.S N); intros m a b c; rewrite equality_S; apply HN).
      specialize (H r eq_refl). lia.
    - induction t0 as [|k' t0 IHt|k' t0 IHt|r|t0 IHt|]; intros H; try (exists 1%nat; intros m a b c; rewrite equality_S; discriminate);
        try (destruct IHt as (N & HN); [exact H|]; exists (Datatypes.S N); intros m a b c; rewrite equality_S; apply HN).
      specialize (H r eq_refl).
      assert (F : exists N, forall f t, In (f, t) (fields R r) -> eq_halts N t).
      { assert (P : forall f t, In (f, t) (fields R r) -> exists N, eq_halts N t) by (intros f t1 I; apply IHk; intros r' Hr; specialize (Rf _ _ _ _ I Hr); lia).
        revert P. generalize (fields R r). induction l as [|[f t1] l IHl]; intros P; [exists 0%nat; intros f t1 []|].
        destruct IHl as (N1 & H1); [intros g t2 I; apply (P g); right; exact I|]. destruct (P f t1 (or_introl eq_refl)) as (N2 & H2).
        exists (N1 + N2)%nat. intros g t2 [[= <- <-]|I]; [apply (eq_halts_le N2); [lia|exact H2]|apply (eq_halts_le N1); [lia|apply (H1 _ _ I)]]. }
      assert (B : exists N, forall f, In f (bases R r) -> eq_halts N (TRec f)).
      { assert (P : forall f, In f (bases R r) -> exists N, eq_halts N (TRec f)) by (intros f I; apply IHk; intros r' Hr; cbn in Hr; subst r'; specialize (Rb _ _ I); lia).
        revert P. generalize (bases R r). induction l as [|f l IHl]; intros P; [exists 0%nat; intros f []|].
        destruct IHl as (N1 & H1); [intros g I; apply (P g); right; exact I|]. destruct (P f (or_introl eq_refl)) as (N2 & H2).
        exists (N1 + N2)%nat. intros g [<-|I]; [apply (eq_halts_le N2); [lia|exact H2]|apply (eq_halts_le N1); [lia|apply (H1 _ I)]]. }
      destruct F as (N1 & F). destruct B as (N2 & B). exists (Datatypes.S (N1 + N2)). intros m a b c. rewrite equality_S. cbv zeta.
      generalize (non_recursive R a b true c). intros c1.
      assert (Ff : forall l c, incl l (fields R r) -> eq_fields (N1 + N2) m a b l c <> Fuel).
      { induction l as [|[f ft] l IHl]; intros c2 I; cbn [eq_fields]; [discriminate|]. destruct (field_objects R a f) as [| |a'] eqn:E1; cbn [bind]; [exfalso; apply (map_objects_fuel _ _ _ E1)|discriminate|].
        destruct (field_objects R b f) as [| |b'] eqn:E2; cbn [bind]; [exfalso; apply (map_objects_fuel _ _ _ E2)|discriminate|].
        pose proof (eq_halts_le N1 (N1 + N2) ft ltac:(lia) (F _ _ (I _ (or_introl eq_refl))) m a' b' c2) as X.
        destruct (equality R (N1 + N2) m a' b' ft c2); cbn [bind]; [congruence|discriminate|]. apply IHl. intros y Iy. apply I. right. exact Iy. }
      assert (Fb : forall l c, incl l (bases R r) -> eq_bases (N1 + N2) m a b l c <> Fuel).
      { induction l as [|f l IHl]; intros c2 I; cbn [eq_bases]; [discriminate|]. destruct (base_objects R a f) as [| |a'] eqn:E1; cbn [bind]; [exfalso; apply (map_objects_fuel _ _ _ E1)|discriminate|].
        destruct (base_objects R b f) as [| |b'] eqn:E2; cbn [bind]; [exfalso; apply (map_objects_fuel _ _ _ E2)|discriminate|].
        pose proof (eq_halts_le N2 (N1 + N2) (TRec f) ltac:(lia) (B _ (I _ (or_introl eq_refl))) m a' b' c2) as X.
        destruct (equality R (N1 + N2) m a' b' (TRec f) c2); cbn [bind]; [congruence|discriminate|]. apply IHl. intros y Iy. apply I. right. exact Iy. }
      pose proof (Ff (fields R r) c1 (incl_refl _)) as X. destruct (eq_fields (N1 + N2) m a b (fields R r) c1); cbn [bind]; [congruence|discriminate|]. apply Fb. apply incl_refl. }
  assert (K : exists k, forall r, names t r -> (rank r < k)%nat).
  { clear. induction t; try solve [exists 0%nat; intros r' []]; try assumption. exists (Datatypes.S (rank r)). intros r' ->. lia. }
  destruct K as (k & Hk). destruct (Main k t Hk) as (N & HN). exists N. intros fuel m a b c L. rewrite (eq_fuel m N fuel) by (auto; apply HN). split; [apply HN|reflexivity].
Qed.
(** A record that points to itself: no fuel suffices. *)
Theorem equality_diverges m r f k rest : fields R r = (f, TPtr k (TRec r)) :: rest -> (forall o, field_object R o f <> None) ->
  forall fuel a b c, equality R fuel m a b (TRec r) c = Fuel.
Proof.
  intros Ef Hf fuel.
  assert (T : forall s acc, exists r', map_objects (fun o => field_object R o f) s acc = Done r').
  { induction s as [|x s IHs]; intros acc; cbn [map_objects]; [eauto|]. destruct (field_object R x f) eqn:E; [|exfalso; apply (Hf x E)]. cbn [found bind]. apply IHs. }
  induction fuel as [fuel IH] using lt_wf_ind. intros a b c. destruct fuel as [|fuel]; [reflexivity|]. rewrite equality_S. cbv zeta. rewrite Ef. cbn [eq_fields].
  unfold field_objects. destruct (T a []) as (a' & ->). destruct (T b []) as (b' & ->). cbn [bind].
  destruct fuel as [|fuel]; [reflexivity|]. rewrite equality_S. cbn [pointee_of]. rewrite IH by lia. reflexivity.
Qed.
End Repo.
