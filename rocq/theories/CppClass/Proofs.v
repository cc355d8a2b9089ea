(** The ownership invariant, by induction on programs. *)
From Coq Require Import List Arith ZArith Bool Lia.
Import ListNotations.
From Verif.CppClass Require Import Model Spec.

Lemma upd_same {A} (f : nat -> A) x a : upd f x a x = a.
Proof. unfold upd; now rewrite Nat.eqb_refl. Qed.
Lemma upd_other {A} (f : nat -> A) x y a : y <> x -> upd f x a y = f y.
Proof. intros; unfold upd; destruct (Nat.eqb_spec y x); congruence. Qed.

Lemma holds_val st x i d : alive st x = true -> mem st x = Val i d -> holds st x i.
Proof. intros A M; split; [exact A | now exists d]. Qed.

(** Creating an object. *)
Lemma own_new st x d : ownership st -> alive st x = false ->
  ownership (State (upd (mem st) x (Val (next st) d)) (upd (alive st) x true) (rust st) (dropped st) (S (next st)) (ub st)).
Proof.
  intros O A.
  assert (H : forall z i, holds (State (upd (mem st) x (Val (next st) d)) (upd (alive st) x true) (rust st) (dropped st) (S (next st)) (ub st)) z i
     <-> (z = x /\ i = next st) \/ (z <> x /\ holds st z i)).
  { intros z i; unfold holds; cbn [alive mem]; destruct (Nat.eq_dec z x) as [->|N].
    - rewrite !upd_same; split.
      + intros [_ [d' E]]; injection E; auto.
      + intros [[_ ->]|[C _]]; [split; eauto | congruence].
    - rewrite !upd_other by auto; split; [now right|]. now intros [[-> _]|[_ H]]. }
  assert (LT : forall z i, holds st z i -> i < next st) by (intros; apply (accounted _ O); eauto).
  assert (LR : forall i, rust_owns st i -> i < next st) by (intros; apply (accounted _ O); eauto).
  assert (LD : forall i, is_dropped st i -> i < next st) by (intros; apply (accounted _ O); eauto).
  destruct O as [U EO OH OO DO HO HD OD AC]; constructor; cbn [ub rust dropped next]; auto.
  - intros z Az; destruct (Nat.eq_dec z x) as [->|N].
    + exists (next st); apply H; auto.
    + cbn [alive] in Az; rewrite upd_other in Az by auto; destruct (EO z Az) as [i Hi]; exists i; apply H; auto.
  - intros y z i Hy Hz; apply H in Hy; apply H in Hz.
    destruct Hy as [[-> ->]|[_ Hy]], Hz as [[-> E]|[_ Hz]]; auto.
    + exfalso; specialize (LT _ _ Hz); lia.
    + subst; exfalso; specialize (LT _ _ Hy); lia.
    + eauto.
  - intros z i Hz R; apply H in Hz; destruct Hz as [[-> ->]|[_ Hz]].
    + specialize (LR _ R); lia.
    + eapply HO; eauto.
  - intros z i Hz R; apply H in Hz; destruct Hz as [[-> ->]|[_ Hz]].
    + specialize (LD _ R); lia.
    + eapply HD; eauto.
  - intros i; split.
    + intros L; destruct (Nat.eq_dec i (next st)) as [->|N].
      * left; exists x; apply H; auto.
      * assert (L' : i < next st) by lia; apply AC in L'; destruct L' as [[z Hz]|[R|D]]; auto.
        left; exists z; apply H; right; split; auto.
        intros ->; destruct Hz as [Az _]; congruence.
    + intros [[z Hz]|[R|D]].
      * apply H in Hz; destruct Hz as [[-> ->]|[_ Hz]]; [lia | specialize (LT _ _ Hz); lia].
      * specialize (LR _ R); lia.
      * specialize (LD _ D); lia.
Qed.

(** Creating a value that Rust owns. *)
Lemma own_new_rust st d : ownership st ->
  ownership (State (mem st) (alive st) ((next st, d) :: rust st) (dropped st) (S (next st)) (ub st)).
Proof.
  intros O.
  assert (LT : forall z i, holds st z i -> i < next st) by (intros; apply (accounted _ O); eauto).
  assert (LR : forall i, rust_owns st i -> i < next st) by (intros; apply (accounted _ O); eauto).
  assert (LD : forall i, is_dropped st i -> i < next st) by (intros; apply (accounted _ O); eauto).
  destruct O as [U EO OH OO DO HO HD OD AC]; constructor; cbn [ub rust dropped next map fst]; auto.
  - constructor; auto. intros I; specialize (LR _ I); lia.
  - intros z i Hz [E|R]; [cbn in E; subst; specialize (LT _ _ Hz); lia | eapply HO; eauto].
  - intros i [E|R] D; [cbn in E; subst; specialize (LD _ D); lia | eapply OD; eauto].
  - intros i; split.
    + intros L; destruct (Nat.eq_dec i (next st)) as [->|N].
      * right; left; left; reflexivity.
      * assert (L' : i < next st) by lia; apply AC in L'; destruct L' as [[z Hz]|[R|D]]; [left; exists z; exact Hz | right; left; right; exact R | right; right; exact D].
    + intros [[z Hz]|[[E|R]|D]].
      * specialize (LT _ _ Hz); lia.
      * cbn in E; lia.
      * specialize (LR _ R); lia.
      * specialize (LD _ D); lia.
Qed.

(** Exchanging the contents of two objects. *)
Lemma own_swap st x y : ownership st -> alive st x = true -> alive st y = true -> x <> y ->
  ownership (State (upd (upd (mem st) y (mem st x)) x (mem st y)) (alive st) (rust st) (dropped st) (next st) (ub st)).
Proof.
  intros O Ax Ay N.
  set (sw := fun z => if z =? x then y else if z =? y then x else z).
  assert (SI : forall a b, sw a = sw b -> a = b).
  { intros a b; unfold sw; destruct (Nat.eqb_spec a x), (Nat.eqb_spec b x), (Nat.eqb_spec a y), (Nat.eqb_spec b y); congruence. }
  assert (SS : forall a, sw (sw a) = a).
  { intros a; unfold sw. destruct (Nat.eqb_spec a x) as [->|]; [destruct (Nat.eqb_spec y x); [congruence|]; rewrite Nat.eqb_refl; auto|].
    destruct (Nat.eqb_spec a y) as [->|]; [now rewrite Nat.eqb_refl|]. destruct (Nat.eqb_spec a x); [congruence|]. destruct (Nat.eqb_spec a y); congruence. }
  assert (H : forall z i, holds (State (upd (upd (mem st) y (mem st x)) x (mem st y)) (alive st) (rust st) (dropped st) (next st) (ub st)) z i <-> holds st (sw z) i).
  { intros z i; unfold holds, sw, upd; cbn [alive mem].
    destruct (Nat.eqb_spec z x) as [->|]; [rewrite Ax, Ay; reflexivity|].
    destruct (Nat.eqb_spec z y) as [->|]; [rewrite Ax, Ay; reflexivity|]. reflexivity. }
  destruct O as [U EO OH OO DO HO HD OD AC]; constructor; cbn [ub rust dropped next]; auto.
  - intros z Az; cbn [alive] in Az. assert (As : alive st (sw z) = true).
    { unfold sw; destruct (Nat.eqb_spec z x); [auto|]; destruct (Nat.eqb_spec z y); auto. }
    destruct (EO _ As) as [i Hi]; exists i; now apply H.
  - intros a b i Ha Hb; apply H in Ha; apply H in Hb; eauto.
  - intros z i Hz R; apply H in Hz; eapply HO; eauto.
  - intros z i Hz R; apply H in Hz; eapply HD; eauto.
  - intros i; rewrite AC; split; (intros [[z Hz]|Z]; [left; exists (sw z) | right; exact Z]).
    + apply (proj2 (H _ _)); now rewrite SS.
    + exact (proj1 (H _ _) Hz).
Qed.

(** Replacing the value in an object by a new one; the old one goes to Rust, or is dropped. *)
Lemma own_replace st x d i0 d0 (to_rust : bool) : ownership st -> alive st x = true -> mem st x = Val i0 d0 ->
  ownership (State (upd (mem st) x (Val (next st) d)) (alive st)
    (if to_rust then (i0, d0) :: rust st else rust st) (if to_rust then dropped st else i0 :: dropped st) (S (next st)) (ub st)).
Proof.
  intros O A M.
  assert (Hx : holds st x i0) by (eapply holds_val; eauto).
  assert (LT : forall z i, holds st z i -> i < next st) by (intros; apply (accounted _ O); eauto).
  assert (LR : forall i, rust_owns st i -> i < next st) by (intros; apply (accounted _ O); eauto).
  assert (LD : forall i, is_dropped st i -> i < next st) by (intros; apply (accounted _ O); eauto).
  match goal with |- ownership ?s => set (st' := s) end.
  assert (H : forall z i, holds st' z i <-> (z = x /\ i = next st) \/ (z <> x /\ holds st z i)).
  { intros z i; unfold holds, st'; cbn [alive mem]; destruct (Nat.eq_dec z x) as [->|N].
    - rewrite !upd_same; split.
      + intros [_ [d' E]]; injection E; auto.
      + intros [[_ ->]|[C _]]; [split; eauto | congruence].
    - rewrite !upd_other by auto; split; [now right|]. now intros [[-> _]|[_ H]]. }
  assert (HR : forall i, rust_owns st' i <-> (to_rust = true /\ i = i0) \/ rust_owns st i).
  { intros i; unfold rust_owns, st'; cbn [rust]; destruct to_rust; cbn [map fst In]; intuition congruence. }
  assert (HDr : forall i, is_dropped st' i <-> (to_rust = false /\ i = i0) \/ is_dropped st i).
  { intros i; unfold is_dropped, st'; cbn [dropped]; destruct to_rust; cbn [In]; intuition congruence. }
  assert (X : forall z i, z <> x -> holds st z i -> i <> i0) by (intros z i Nz Hz ->; apply Nz; eapply (one_holder _ O); eauto).
  pose proof (held_not_owned _ O _ _ Hx) as NR; pose proof (held_not_dropped _ O _ _ Hx) as ND.
  pose proof (LT _ _ Hx) as L0.
  destruct O as [U EO OH OO DO HO HD OD AC]; constructor.
  - exact U.
  - intros z Az; destruct (Nat.eq_dec z x) as [->|N].
    + exists (next st); apply H; auto.
    + destruct (EO z Az) as [i Hi]; exists i; apply H; auto.
  - intros y z i Hy Hz; apply H in Hy; apply H in Hz.
    destruct Hy as [[-> ->]|[_ Hy]], Hz as [[-> E]|[_ Hz]]; auto.
    + exfalso; specialize (LT _ _ Hz); lia.
    + subst; exfalso; specialize (LT _ _ Hy); lia.
    + eauto.
  - unfold st'; cbn [rust]; destruct to_rust; auto. cbn [map fst]; constructor; auto.
  - unfold st'; cbn [dropped]; destruct to_rust; auto. constructor; auto.
  - intros z i Hz R; apply H in Hz; apply HR in R; destruct Hz as [[-> ->]|[Nz Hz]], R as [[_ E]|R].
    + lia.
    + specialize (LR _ R); lia.
    + subst; now apply (X _ _ Nz Hz).
    + eapply HO; eauto.
  - intros z i Hz R; apply H in Hz; apply HDr in R; destruct Hz as [[-> ->]|[Nz Hz]], R as [[_ E]|R].
    + lia.
    + specialize (LD _ R); lia.
    + subst; now apply (X _ _ Nz Hz).
    + eapply HD; eauto.
  - intros i R D; apply HR in R; apply HDr in D; destruct R as [[T E1]|R], D as [[T' E]|D]; subst.
    + congruence.
    + exact (ND D).
    + exact (NR R).
    + exact (OD _ R D).
  - intros i; rewrite HR, HDr; split.
    + intros L; cbn [next] in L; unfold st' in L; cbn [next] in L; destruct (Nat.eq_dec i (next st)) as [->|N].
      * left; exists x; apply H; auto.
      * assert (L' : i < next st) by lia; apply AC in L'; destruct L' as [[z Hz]|[R|D]]; auto.
        destruct (Nat.eq_dec z x) as [->|Nz].
        -- assert (i = i0) by (destruct Hz as [_ [d1 E]]; congruence). destruct to_rust; auto.
        -- left; exists z; apply H; auto.
    + unfold st'; cbn [next]. intros [[z Hz]|[[[_ ->]|R]|[[_ ->]|D]]].
      * apply H in Hz; destruct Hz as [[-> ->]|[_ Hz]]; [lia | specialize (LT _ _ Hz); lia].
      * lia.
      * specialize (LR _ R); lia.
      * lia.
      * specialize (LD _ D); lia.
Qed.

(** Destroying an object. *)
Lemma own_destroy st x i0 d0 : ownership st -> alive st x = true -> mem st x = Val i0 d0 ->
  ownership (State (upd (mem st) x Garbage) (upd (alive st) x false) (rust st) (i0 :: dropped st) (next st) (ub st)).
Proof.
  intros O A M.
  assert (Hx : holds st x i0) by (eapply holds_val; eauto).
  match goal with |- ownership ?s => set (st' := s) end.
  assert (H : forall z i, holds st' z i <-> z <> x /\ holds st z i).
  { intros z i; unfold holds, st'; cbn [alive mem]; destruct (Nat.eq_dec z x) as [->|N].
    - rewrite !upd_same; split; [intros [C _]; congruence | tauto].
    - rewrite !upd_other by auto; tauto. }
  assert (X : forall z i, z <> x -> holds st z i -> i <> i0) by (intros z i Nz Hz ->; apply Nz; eapply (one_holder _ O); eauto).
  pose proof (held_not_owned _ O _ _ Hx) as NR; pose proof (held_not_dropped _ O _ _ Hx) as ND.
  destruct O as [U EO OH OO DO HO HD OD AC]; constructor.
  - exact U.
  - intros z Az; unfold st' in Az; cbn [alive] in Az; destruct (Nat.eq_dec z x) as [->|N].
    + rewrite upd_same in Az; discriminate.
    + rewrite upd_other in Az by auto. destruct (EO z Az) as [i Hi]; exists i; apply H; auto.
  - intros y z i Hy Hz; apply H in Hy; apply H in Hz; destruct Hy, Hz; eauto.
  - exact OO.
  - unfold st'; cbn [dropped]; constructor; auto.
  - intros z i Hz R; apply H in Hz; destruct Hz; eapply HO; eauto.
  - intros z i Hz [E|D]; apply H in Hz; destruct Hz as [Nz Hz].
    + subst; now apply (X _ _ Nz Hz).
    + eapply HD; eauto.
  - intros i R [E|D]; [subst; now apply NR | eapply OD; eauto].
  - intros i; unfold st' at 1; cbn [next]; rewrite AC; split.
    + intros [[z Hz]|[R|D]].
      * destruct (Nat.eq_dec z x) as [->|Nz].
        -- right; right; left. destruct Hz as [_ [d1 E]]; congruence.
        -- left; exists z; apply H; auto.
      * right; left; exact R.
      * right; right; right; exact D.
    + intros [[z Hz]|[R|[->|D]]].
      * apply H in Hz; left; exists z; tauto.
      * right; left; exact R.
      * left; exists x; exact Hx.
      * right; right; exact D.
Qed.

Lemma find_rust_in i l d : find_rust i l = Some d -> In (i, d) l.
Proof.
  unfold find_rust; destruct (find _ l) as [[j d']|] eqn:F; [|discriminate]. cbn; intros E; injection E as <-.
  apply find_some in F; destruct F as [I E]; cbn in E; apply Nat.eqb_eq in E; now subst.
Qed.

Lemma in_remove_rust i j l : In j (map fst (remove_rust i l)) <-> In j (map fst l) /\ j <> i.
Proof.
  unfold remove_rust; rewrite !in_map_iff; split.
  - intros [[k d] [E I]]; apply filter_In in I; destruct I as [I F]; cbn [fst] in *; subst.
    apply negb_true_iff, Nat.eqb_neq in F; split; [now exists (j, d)|auto].
  - intros [[[k d] [E I]] N]; cbn in E; subst. exists (j, d); split; auto. apply filter_In; split; auto.
    cbn; now apply negb_true_iff, Nat.eqb_neq.
Qed.

Lemma nodup_remove_rust i l : NoDup (map fst l) -> NoDup (map fst (remove_rust i l)).
Proof.
  induction l as [|[k d] l IH]; intros H; [exact H|]. cbn [map fst] in H; inversion H as [|? ? N H']; subst.
  unfold remove_rust; cbn [filter fst]; destruct (negb (k =? i)).
  - cbn [map fst]; constructor; [|now apply IH]. intros C; apply N. now apply (in_remove_rust i) in C as [C _].
  - now apply IH.
Qed.

(** A value that Rust owned is handed to a new object, or dropped. *)
Lemma own_give st x i d : ownership st -> alive st x = false -> In (i, d) (rust st) ->
  ownership (State (upd (mem st) x (Val i d)) (upd (alive st) x true) (remove_rust i (rust st)) (dropped st) (next st) (ub st)).
Proof.
  intros O A I.
  assert (Ri : rust_owns st i) by (unfold rust_owns; apply in_map_iff; now exists (i, d)).
  match goal with |- ownership ?s => set (st' := s) end.
  assert (H : forall z j, holds st' z j <-> (z = x /\ j = i) \/ (z <> x /\ holds st z j)).
  { intros z j; unfold holds, st'; cbn [alive mem]; destruct (Nat.eq_dec z x) as [->|N].
    - rewrite !upd_same; split.
      + intros [_ [d' E]]; injection E; auto.
      + intros [[_ ->]|[C _]]; [split; eauto | congruence].
    - rewrite !upd_other by auto; split; [now right|]. now intros [[-> _]|[_ H]]. }
  assert (HR : forall j, rust_owns st' j <-> rust_owns st j /\ j <> i) by (intros j; apply in_remove_rust).
  destruct O as [U EO OH OO DO HO HD OD AC]; constructor.
  - exact U.
  - intros z Az; destruct (Nat.eq_dec z x) as [->|N].
    + exists i; apply H; auto.
    + unfold st' in Az; cbn [alive] in Az; rewrite upd_other in Az by auto; destruct (EO z Az) as [j Hj]; exists j; apply H; auto.
  - intros y z j Hy Hz; apply H in Hy; apply H in Hz.
    destruct Hy as [[-> ->]|[_ Hy]], Hz as [[-> E]|[_ Hz]]; auto.
    + exfalso; eapply HO; eauto.
    + subst; exfalso; eapply HO; eauto.
    + eauto.
  - unfold st'; cbn [rust]; now apply nodup_remove_rust.
  - exact DO.
  - intros z j Hz R; apply H in Hz; apply HR in R; destruct Hz as [[-> ->]|[_ Hz]].
    + tauto.
    + eapply HO; [eauto | tauto].
  - intros z j Hz D; apply H in Hz; destruct Hz as [[-> ->]|[_ Hz]].
    + eapply OD; eauto.
    + eapply HD; eauto.
  - intros j R D; apply HR in R; eapply OD; [apply R | exact D].
  - intros j; unfold st' at 1; cbn [next]; rewrite AC, HR; split.
    + intros [[z Hz]|[R|D]]; auto.
      * left; exists z; apply H; right; split; auto. intros ->; destruct Hz as [Az _]; congruence.
      * destruct (Nat.eq_dec j i) as [->|N]; [left; exists x; apply H; auto | auto].
    + intros [[z Hz]|[[R _]|D]]; auto.
      apply H in Hz; destruct Hz as [[-> ->]|[_ Hz]]; eauto.
Qed.

Lemma own_release st i d : ownership st -> In (i, d) (rust st) ->
  ownership (State (mem st) (alive st) (remove_rust i (rust st)) (i :: dropped st) (next st) (ub st)).
Proof.
  intros O I.
  assert (Ri : rust_owns st i) by (unfold rust_owns; apply in_map_iff; now exists (i, d)).
  match goal with |- ownership ?s => set (st' := s) end.
  assert (HR : forall j, rust_owns st' j <-> rust_owns st j /\ j <> i) by (intros j; apply in_remove_rust).
  destruct O as [U EO OH OO DO HO HD OD AC]; constructor.
  - exact U.
  - exact EO.
  - exact OH.
  - unfold st'; cbn [rust]; now apply nodup_remove_rust.
  - unfold st'; cbn [dropped]; constructor; auto. exact (OD _ Ri).
  - intros z j Hz R; apply HR in R; eapply HO; [exact Hz | tauto].
  - intros z j Hz [<-|D]; [eapply HO; eauto | eapply HD; eauto].
  - intros j R [E|D]; apply HR in R; [subst; tauto | eapply OD; [apply R | exact D]].
  - intros j; unfold st' at 1; cbn [next]; rewrite AC, HR; split.
    + intros [Z|[R|D]]; [left; exact Z | | right; right; right; exact D].
      destruct (Nat.eq_dec j i) as [->|N]; [right; right; left; reflexivity | auto].
    + intros [Z|[[R _]|[<-|D]]]; [left; exact Z | auto | auto | right; right; exact D].
Qed.

Lemma own_set st x i d0 d : ownership st -> alive st x = true -> mem st x = Val i d0 ->
  ownership (State (upd (mem st) x (Val i d)) (alive st) (rust st) (dropped st) (next st) (ub st)).
Proof.
  intros O A M.
  match goal with |- ownership ?s => set (st' := s) end.
  assert (H : forall z j, holds st' z j <-> holds st z j).
  { intros z j; unfold holds, st'; cbn [alive mem]; destruct (Nat.eq_dec z x) as [->|N].
    - rewrite upd_same, M; split; intros [Az [d' E]]; (split; [exact Az|]); injection E as <-; eauto.
    - rewrite upd_other by auto; reflexivity. }
  destruct O as [U EO OH OO DO HO HD OD AC]; constructor; auto.
  - intros z Az; destruct (EO z Az) as [j Hj]; exists j; now apply H.
  - intros y z j Hy Hz; apply H in Hy; apply H in Hz; eauto.
  - intros z j Hz R; apply H in Hz; eapply HO; eauto.
  - intros z j Hz R; apply H in Hz; eapply HD; eauto.
  - intros j; unfold st' at 1; cbn [next]; rewrite AC; split; (intros [[z Hz]|Z]; [left; exists z; now apply H | right; exact Z]).
Qed.

(** Functions that agree pointwise give the same ownership. *)
Lemma own_ext st m : (forall z, m z = mem st z) -> ownership st -> ownership (State m (alive st) (rust st) (dropped st) (next st) (ub st)).
Proof.
  intros E O.
  match goal with |- ownership ?s => set (st' := s) end.
  assert (H : forall z j, holds st' z j <-> holds st z j) by (intros z j; unfold holds, st'; cbn [alive mem]; rewrite E; reflexivity).
  destruct O as [U EO OH OO DO HO HD OD AC]; constructor; auto.
  - intros z Az; destruct (EO z Az) as [j Hj]; exists j; now apply H.
  - intros y z j Hy Hz; apply H in Hy; apply H in Hz; eauto.
  - intros z j Hz R; apply H in Hz; eapply HO; eauto.
  - intros z j Hz R; apply H in Hz; eapply HD; eauto.
  - intros j; unfold st' at 1; cbn [next]; rewrite AC; split; (intros [[z Hz]|Z]; [left; exists z; now apply H | right; exact Z]).
Qed.

Lemma object_value st x : ownership st -> alive st x = true -> exists i d, mem st x = Val i d.
Proof. intros O A; destruct (every_object_holds _ O x A) as [i [_ [d E]]]; eauto. Qed.

Section Class.
Variable t : traits.
Variable dflt : N.
Variable cln : N -> N.
Hypothesis ND : needs_drop t = true.
Hypothesis NV : by_value t = false.
Hypothesis RC : rustc_ok t.

Lemma copy_of_drop : copy_of t = Some CopyClone \/ copy_of t = None.
Proof using ND RC.
  clear NV.
  unfold copy_of, copy_ctor_style; destruct (is_copy t) eqn:C; [|destruct (is_clone t); auto].
  destruct (RC C); congruence.
Qed.

Lemma move_of_drop : (move_of t = Some MoveMemSwap /\ has_default t = true) \/ (move_of t = Some MoveCopy /\ copy_of t = Some CopyClone) \/ move_of t = None.
Proof using ND RC.
  clear NV.
  unfold move_of, move_ctor_style; rewrite ND; cbn [negb]. destruct (has_default t), (is_unpin t); cbn [andb]; auto;
  destruct copy_of_drop as [-> | ->]; auto.
Qed.

Lemma upd_set_same st x : forall z, upd (upd (mem st) x (mem st x)) x (mem st x) z = mem st z.
Proof. intros z; unfold upd; destruct (Nat.eqb_spec z x); subst; auto. Qed.

(** The copy constructor makes a new object from a live one. *)
Lemma copy_assign_own st x y l r st1 : ownership st -> alive st x = true -> alive st y = true ->
  copy_assign t cln (x =? y) (mem st x) (mem st y) st = Some (l, r, st1) -> ownership (set_mem (set_mem st1 y r) x l).
Proof.
  intros O Ax Ay; unfold copy_assign; destruct copy_of_drop as [-> | ->]; [|discriminate].
  destruct (Nat.eqb_spec x y) as [->|N]; cbn zeta.
  - intros E; inversion E; subst; clear E. destruct st1 as [m a ru dr nx u]; cbn [set_mem mem alive rust dropped next ub] in *.
    apply (own_ext (State m a ru dr nx u)); [|exact O]. intros z; exact (upd_set_same (State m a ru dr nx u) y z).
  - destruct (object_value _ _ O Ax) as [i [d Mx]], (object_value _ _ O Ay) as [j [e My]].
    rewrite Mx, My; unfold clone_bytes, fresh, drop_bytes; rewrite ND. intros E; inversion E; subst; clear E.
    unfold set_mem; cbn [mem alive rust dropped next ub].
    pose proof (own_replace st x (cln e) i d false O Ax Mx) as P; cbn iota in P.
    refine (own_ext _ _ _ P).
    intros z; cbn [mem]; unfold upd; destruct (Nat.eqb_spec z x); auto. destruct (Nat.eqb_spec z y); subst; auto.
Qed.

Lemma move_assign_own st x y l r st1 : ownership st -> alive st x = true -> alive st y = true ->
  move_assign t cln (x =? y) (mem st x) (mem st y) st = Some (l, r, st1) -> ownership (set_mem (set_mem st1 y r) x l).
Proof.
  intros O Ax Ay; unfold move_assign; destruct move_of_drop as [[-> _]|[[-> _]| ->]]; [| |discriminate].
  - unfold mem_swap; destruct (Nat.eqb_spec x y) as [->|N]; intros E; inversion E; subst; clear E.
    + destruct st1 as [m a ru dr nx u]; cbn [set_mem mem alive rust dropped next ub] in *.
      apply (own_ext (State m a ru dr nx u)); [|exact O]. intros z; exact (upd_set_same (State m a ru dr nx u) y z).
    + unfold set_mem; cbn [mem alive rust dropped next ub]. now apply own_swap.
  - now apply copy_assign_own.
Qed.

Lemma step_own o st st1 : (forall xs, o <> OTakeArray xs) -> ownership st -> step t dflt cln o st = Some st1 -> ownership st1.
Proof.
  intros NA O; destruct o as [x|x d|x y|x y|x y|x y|x|x d|x i|x|xs|i|x d]; cbn [step].
  - destruct (alive st x) eqn:A; [discriminate|]. unfold default_ctor, ctor_body; destruct (has_default t); [|discriminate].
    cbn [fresh]; rewrite NV; cbn [begin]; intros E; injection E as <-. exact (own_new st x _ O A).
  - destruct (alive st x) eqn:A; [discriminate|]. unfold from_ctor, ctor_body.
    cbn [fresh]; rewrite NV; cbn [begin]; intros E; injection E as <-. exact (own_new st x _ O A).
  - destruct (alive st x) eqn:A; [discriminate|]. destruct (alive st y) eqn:Ay; [|discriminate]. cbn [orb negb].
    unfold copy_ctor; destruct copy_of_drop as [-> | ->]; [|discriminate].
    destruct (object_value _ _ O Ay) as [j [e My]]; rewrite My; cbn [clone_bytes fresh]; unfold ctor_body; rewrite NV; cbn [begin].
    intros E; injection E as <-. exact (own_new st x _ O A).
  - destruct (alive st x) eqn:A; [discriminate|]. destruct (alive st y) eqn:Ay; [|discriminate]. cbn [orb negb].
    assert (N : x <> y) by congruence.
    destruct (object_value _ _ O Ay) as [j [e My]].
    unfold move_ctor; destruct move_of_drop as [[Em Hd]|[[Em Ec]| Em]]; rewrite Em; [| |discriminate].
    + unfold default_ctor; rewrite Hd; cbn [fresh]; unfold ctor_body; rewrite NV. unfold move_assign; rewrite Em; cbn [mem_swap].
      cbn [begin]. intros E; injection E as <-. unfold set_alive, set_mem; cbn [mem alive rust dropped next ub].
      pose proof (own_new st x dflt O A) as P.
      match type of P with ownership ?s => pose proof (own_swap s x y P) as Q end.
      cbn [mem alive rust dropped next ub] in Q. rewrite upd_same in Q. rewrite (upd_other (alive st)) in Q by auto.
      specialize (Q eq_refl Ay N).
      refine (own_ext _ _ _ Q).
      intros z; cbn [mem]. unfold upd. destruct (Nat.eqb_spec z x) as [->|]; [|destruct (Nat.eqb_spec z y) as [->|]].
      * destruct (Nat.eqb_spec y x); congruence.
      * now rewrite Nat.eqb_refl.
      * reflexivity.
    + unfold copy_ctor; rewrite Ec, My; cbn [clone_bytes fresh]; unfold ctor_body; rewrite NV; cbn [begin]. intros E; injection E as <-.
      unfold set_alive, set_mem; cbn [mem alive rust dropped next ub].
      pose proof (own_new st x (cln e) O A) as P.
      refine (own_ext _ _ _ P).
      intros z; cbn [mem]. unfold upd. destruct (Nat.eqb_spec z x); auto. destruct (Nat.eqb_spec z y); subst; auto.
  - destruct (alive st x) eqn:Ax; [|discriminate]. destruct (alive st y) eqn:Ay; [|discriminate]. cbn [andb].
    destruct (copy_assign _ _ _ _ _ _) as [[[l r] s]|] eqn:E; [|discriminate]. intros F; injection F as <-. eapply copy_assign_own; eauto.
  - destruct (alive st x) eqn:Ax; [|discriminate]. destruct (alive st y) eqn:Ay; [|discriminate]. cbn [andb].
    destruct (move_assign _ _ _ _ _ _) as [[[l r] s]|] eqn:E; [|discriminate]. intros F; injection F as <-. eapply move_assign_own; eauto.
  - destruct (alive st x) eqn:A; [|discriminate]. intros E; injection E as <-.
    destruct (object_value _ _ O A) as [i [d M]]; unfold drop_bytes; rewrite ND, M. exact (own_destroy st x i d O A M).
  - destruct (alive st x) eqn:A; [discriminate|]. cbn [fresh return_value begin]. intros E; injection E as <-. exact (own_new st x _ O A).
  - destruct (alive st x) eqn:A; [discriminate|]. destruct (find_rust i (rust st)) as [d|] eqn:F; [|discriminate].
    cbn [return_value begin]. intros E; injection E as <-. exact (own_give st x i d O A (find_rust_in _ _ _ F)).
  - destruct (alive st x) eqn:A; [|discriminate]. unfold take_param; rewrite NV, ND; cbn [negb].
    destruct (object_value _ _ O A) as [i [d M]].
    unfold move_ctor; destruct move_of_drop as [[Em Hd]|[[Em Ec]| Em]]; rewrite Em; [| |discriminate].
    + unfold default_ctor; rewrite Hd; cbn [fresh]; unfold ctor_body; rewrite NV. unfold move_assign; rewrite Em; cbn [mem_swap].
      rewrite M; cbn [own]. intros E; injection E as <-. exact (own_replace st x dflt i d true O A M).
    + unfold copy_ctor; rewrite Ec, M; cbn [clone_bytes fresh]; unfold ctor_body; rewrite NV; cbn [own]. intros E; injection E as <-.
      unfold set_mem; cbn [mem alive rust dropped next ub]. pose proof (own_new_rust st (cln d) O) as P.
      refine (own_ext _ _ _ P).
      intros z; cbn [mem]. unfold upd. destruct (Nat.eqb_spec z x); subst; auto.
  - now elim (NA xs).
  - destruct (find_rust i (rust st)) as [d|] eqn:F; [|discriminate]. intros E; injection E as <-.
    unfold drop_bytes; rewrite ND. exact (own_release st i d O (find_rust_in _ _ _ F)).
  - destruct (alive st x) eqn:A; [|discriminate]. intros E; injection E as <-.
    destruct (object_value _ _ O A) as [i [d0 M]]; rewrite M. exact (own_set st x i d0 d O A M).
Qed.

Lemma run_own ops : forall st st1, no_arrays ops -> ownership st -> run t dflt cln ops st = Some st1 -> ownership st1.
Proof.
  induction ops as [|o ops IH]; intros st st1 NA O; cbn [run].
  - intros E; now injection E as <-.
  - destruct (step _ _ _ o st) as [s|] eqn:S; [|discriminate]. apply IH.
    + intros xs I; apply (NA xs); now right.
    + eapply step_own; [|exact O|exact S]. intros xs ->; apply (NA xs); now left.
Qed.

End Class.

Lemma init_own : ownership init.
Proof.
  constructor; cbn; auto; try (constructor; fail); try discriminate.
  - intros x y i [A _]; discriminate.
  - intros i; split; [lia|]. intros [[x [A _]]|[[]|[]]]; discriminate.
Qed.

(** Whatever the type, if it is not both dropped and passed by value: nothing is read before it was written. *)
Section Usable.
Variable t : traits.
Variable dflt : N.
Variable cln : N -> N.
Hypothesis US : needs_drop t = true -> by_value t = false.

Definition fine (st : state) : Prop := ub st = false /\ forall x, alive st x = true -> exists i d, mem st x = Val i d.

Lemma ctor_body_usable v st : ctor_body t cln v st = Some (v, st).
Proof.
  unfold ctor_body; destruct (by_value t) eqn:B; auto.
  assert (ND : needs_drop t = false) by (destruct (needs_drop t); auto; discriminate (US eq_refl)).
  unfold move_assign, move_of, move_ctor_style, drop_bytes; now rewrite ND.
Qed.

Lemma fine_begin x i d st : fine st -> fine (set_alive (set_mem st x (Val i d)) x true).
Proof.
  intros [U H]; split; [exact U|]. intros z A; cbn [set_alive set_mem alive mem] in *.
  destruct (Nat.eq_dec z x) as [->|N]; [rewrite upd_same; eauto |].
  rewrite upd_other in A by exact N. rewrite upd_other by exact N. exact (H z A).
Qed.
Lemma fine_mem x i d st : fine st -> fine (set_mem st x (Val i d)).
Proof.
  intros [U H]; split; [exact U|]. intros z A; cbn [set_mem alive mem] in *.
  destruct (Nat.eq_dec z x) as [->|N]; [rewrite upd_same; eauto |].
  rewrite upd_other by exact N. exact (H z A).
Qed.
Lemma fine_fresh d st : fine st -> fine (snd (fresh d st)).
Proof. intros [U H]; split; auto. Qed.
Lemma fine_own i d st : fine st -> fine (own (Val i d) st).
Proof. intros [U H]; split; auto. Qed.
Lemma fine_drop i d st : fine st -> fine (drop_bytes t (Val i d) st).
Proof. intros [U H]; unfold drop_bytes; destruct (needs_drop t); split; auto. Qed.
Lemma drop_mem b st : mem (drop_bytes t b st) = mem st /\ alive (drop_bytes t b st) = alive st.
Proof. unfold drop_bytes, go_wrong; destruct (needs_drop t), b; auto. Qed.

Lemma fine_array l : forall st, fine st -> (forall b, In b l -> exists i d, b = Val i d) -> fine (take_array l st).
Proof.
  induction l as [|b l IH]; intros st F H; [exact F|]. cbn [take_array fold_left]. apply IH.
  - destruct (H b (or_introl eq_refl)) as [i [d ->]]. now apply fine_own.
  - intros b' I; apply H; now right.
Qed.

(** What the assignment operators and constructors do with values, as equations. *)
Lemma copy_ctor_val i d st : copy_ctor t cln (Val i d) st =
  match copy_of t with
  | Some CopyTrivial => Some (Val i d, st)
  | Some CopyClone => Some (Val (next st) (cln d), snd (fresh (cln d) st))
  | None => None
  end.
Proof. unfold copy_ctor; destruct (copy_of t) as [[]|]; auto. cbn [clone_bytes fresh]. now rewrite ctor_body_usable. Qed.

Lemma default_ctor_val st : default_ctor t dflt cln st =
  if has_default t then Some (Val (next st) dflt, snd (fresh dflt st)) else None.
Proof. unfold default_ctor; destruct (has_default t); auto. cbn [fresh]. now rewrite ctor_body_usable. Qed.

Lemma move_ctor_val i d st : move_ctor t dflt cln (Val i d) st =
  match move_of t with
  | Some MoveDefault => Some (Val i d, Val i d, st)
  | Some MoveMemSwap => if has_default t then Some (Val i d, Val (next st) dflt, snd (fresh dflt st)) else None
  | Some MoveCopy => match copy_ctor t cln (Val i d) st with Some (b, s) => Some (b, Val i d, s) | None => None end
  | None => None
  end.
Proof.
  unfold move_ctor; destruct (move_of t) as [[]|] eqn:E; auto. rewrite default_ctor_val. destruct (has_default t); auto.
  unfold move_assign; rewrite E. reflexivity.
Qed.

Lemma step_fine o st st1 : fine st -> step t dflt cln o st = Some st1 -> fine st1.
Proof.
  intros F; pose proof F as [U H]; destruct o as [x|x d|x y|x y|x y|x y|x|x d|x i|x|xs|i|x d]; cbn [step].
  - destruct (alive st x) eqn:A; [discriminate|]. rewrite default_ctor_val; destruct (has_default t); [|discriminate].
    cbn [begin]; intros E; injection E as <-. now apply fine_begin, (fine_fresh dflt).
  - destruct (alive st x) eqn:A; [discriminate|]. unfold from_ctor; cbn [fresh]; rewrite ctor_body_usable; cbn [begin]; intros E; injection E as <-.
    now apply fine_begin, (fine_fresh d).
  - destruct (alive st x) eqn:A; [discriminate|]. destruct (alive st y) eqn:Ay; [|discriminate]. cbn [orb negb].
    destruct (H y Ay) as [j [e My]]. rewrite My, copy_ctor_val; destruct (copy_of t) as [[]|]; [| |discriminate].
    + cbn [begin]; intros E; injection E as <-; now apply fine_begin.
    + cbn [begin]; intros E; injection E as <-. now apply fine_begin, (fine_fresh (cln e)).
  - destruct (alive st x) eqn:A; [discriminate|]. destruct (alive st y) eqn:Ay; [|discriminate]. cbn [orb negb].
    destruct (H y Ay) as [j [e My]]. rewrite My, move_ctor_val. destruct (move_of t) as [[]|]; [| | |discriminate].
    + cbn [begin]. intros E; injection E as <-. now apply fine_begin, fine_mem.
    + destruct (has_default t); [|discriminate]. cbn [begin]. intros E; injection E as <-. now apply fine_begin, fine_mem, (fine_fresh dflt).
    + rewrite copy_ctor_val; destruct (copy_of t) as [[]|]; [| |discriminate]; cbn [begin]; intros E; injection E as <-.
      * now apply fine_begin, fine_mem.
      * now apply fine_begin, fine_mem, (fine_fresh (cln e)).
  - destruct (alive st x) eqn:Ax; [|discriminate]. destruct (alive st y) eqn:Ay; [|discriminate]. cbn [andb].
    destruct (H y Ay) as [j [e My]], (H x Ax) as [i [d Mx]]. unfold copy_assign; rewrite Mx, My. destruct (copy_of t) as [[]|]; [| |discriminate].
    + intros E; injection E as <-. now apply fine_mem, fine_mem.
    + destruct (x =? y); [intros E; injection E as <-; now apply fine_mem, fine_mem|].
      cbn [clone_bytes fresh]. intros E; injection E as <-. apply fine_mem, fine_mem, fine_drop. exact (fine_fresh (cln e) st F).
  - destruct (alive st x) eqn:Ax; [|discriminate]. destruct (alive st y) eqn:Ay; [|discriminate]. cbn [andb].
    destruct (H y Ay) as [j [e My]], (H x Ax) as [i [d Mx]]. unfold move_assign; rewrite Mx, My. destruct (move_of t) as [[]|]; [| | |discriminate].
    + intros E; injection E as <-. now apply fine_mem, fine_mem.
    + unfold mem_swap; destruct (x =? y); intros E; injection E as <-; now apply fine_mem, fine_mem.
    + unfold copy_assign; destruct (copy_of t) as [[]|]; [| |discriminate].
      * intros E; injection E as <-. now apply fine_mem, fine_mem.
      * destruct (x =? y); [intros E; injection E as <-; now apply fine_mem, fine_mem|].
        cbn [clone_bytes fresh]. intros E; injection E as <-. apply fine_mem, fine_mem, fine_drop. exact (fine_fresh (cln e) st F).
  - destruct (alive st x) eqn:A; [|discriminate]. destruct (H x A) as [i [d M]]. rewrite M. intros E; injection E as <-.
    destruct (fine_drop i d st F) as [U' H']. split; [exact U'|].
    intros z Az; cbn [set_alive set_mem alive mem] in *. destruct (Nat.eq_dec z x) as [->|N]; [rewrite upd_same in Az; discriminate|].
    rewrite upd_other in Az by exact N. rewrite upd_other by exact N. exact (H' z Az).
  - destruct (alive st x) eqn:A; [discriminate|]. cbn [fresh return_value begin]. intros E; injection E as <-. now apply fine_begin, (fine_fresh d).
  - destruct (alive st x) eqn:A; [discriminate|]. destruct (find_rust i (rust st)); [|discriminate]. cbn [return_value begin].
    intros E; injection E as <-. apply fine_begin. split; auto.
  - destruct (alive st x) eqn:A; [|discriminate]. destruct (H x A) as [i [d M]]. unfold take_param; rewrite M.
    assert (BV : by_value t = true \/ by_value t = false) by (case (by_value t); auto).
    assert (DV : needs_drop t = true \/ needs_drop t = false) by (case (needs_drop t); auto).
    destruct BV as [-> | ->].
    + rewrite copy_ctor_val; destruct (copy_of t) as [[]|]; [| |discriminate].
      * intros E; injection E as <-. apply fine_mem. exact (fine_own i d st F).
      * intros E; injection E as <-. apply fine_mem. exact (fine_own (next st) (cln d) _ (fine_fresh (cln d) st F)).
    + destruct DV as [-> | ->]; cbn [negb]; [|intros E; injection E as <-; apply fine_mem; exact (fine_own i d st F)].
      rewrite move_ctor_val. destruct (move_of t) as [[]|]; [| | |discriminate].
      * intros E; injection E as <-. apply fine_mem. exact (fine_own i d st F).
      * destruct (has_default t); [|discriminate]. intros E; injection E as <-. apply fine_mem. exact (fine_own i d _ (fine_fresh dflt st F)).
      * rewrite copy_ctor_val; destruct (copy_of t) as [[]|]; [| |discriminate]; intros E; injection E as <-; apply fine_mem.
        -- exact (fine_own i d st F).
        -- exact (fine_own (next st) (cln d) _ (fine_fresh (cln d) st F)).
  - destruct (forallb (alive st) xs) eqn:Fa; [|discriminate]. intros E; injection E as <-. apply fine_array; auto.
    intros b I; apply in_map_iff in I; destruct I as [x [<- Ix]]. apply H. rewrite forallb_forall in Fa; auto.
  - destruct (find_rust i (rust st)); [|discriminate]. intros E; injection E as <-. apply fine_drop. split; auto.
  - destruct (alive st x) eqn:A; [|discriminate]. destruct (H x A) as [i [d0 M]]; rewrite M. intros E; injection E as <-. now apply fine_mem.
Qed.

Lemma run_fine ops : forall st st1, fine st -> run t dflt cln ops st = Some st1 -> fine st1.
Proof.
  induction ops as [|o ops IH]; intros st st1 F; cbn [run].
  - intros E; now injection E as <-.
  - destruct (step _ _ _ o st) as [s|] eqn:S; [|discriminate]. apply IH. eapply step_fine; eauto.
Qed.
End Usable.

Lemma init_fine : fine init.
Proof. split; [reflexivity | discriminate]. Qed.
