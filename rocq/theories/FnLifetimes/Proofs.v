(** The constraints collected for two trees of one type are fulfilled exactly when the
    one can be used for the other. *)
From Coq Require Import List ZArith Bool Lia Relations.
From Verif.Lifetimes Require Import Model Spec Reach.
From Verif.FnLifetimes Require Import Model Spec.
Import ListNotations.
Local Open Scope Z_scope.

Scheme vl_mind := Induction for vl Sort Prop
with ovl_mind := Induction for ovl Sort Prop
with args_mind := Induction for args Sort Prop
with fl_mind := Induction for fl Sort Prop.
Combined Scheme tree_ind from vl_mind, ovl_mind, args_mind, fl_mind.

Definition le_rq (rq : requirement) : Prop := rq <> Ge.
Definition ge_rq (rq : requirement) : Prop := rq <> Le.

Lemma in_add_outlives s l c p : In p (add_outlives s l c) <-> p = (s, l) \/ In p c.
Proof. unfold add_outlives. destruct (insert (s, l) c) as [c' b] eqn:E. destruct (insert_spec _ _ _ _ E) as (H & _). cbn [fst]. apply H. Qed.

Lemma in_add_constraint rq l l' c p :
  In p (add_constraint rq l l' c) <-> (le_rq rq /\ p = (l', l)) \/ (ge_rq rq /\ p = (l, l')) \/ In p c.
Proof.
  unfold add_constraint, le_rq, ge_rq. destruct rq; rewrite ?in_add_outlives; intuition congruence.
Qed.

Lemma sat_add r rq l l' c :
  Sat r (add_constraint rq l l' c) <->
  Sat r c /\ (le_rq rq -> no_later (r l') (r l)) /\ (ge_rq rq -> no_later (r l) (r l')).
Proof.
  unfold Sat. split.
  - intro H. split; [|split].
    + intros s t I. apply H. apply in_add_constraint. auto.
    + intro L. apply H. apply in_add_constraint. auto.
    + intro L. apply H. apply in_add_constraint. auto.
  - intros (H & A & B) s t I. apply in_add_constraint in I. destruct I as [(L & E)|[(G & E)|I]].
    + injection E as -> ->. auto.
    + injection E as -> ->. auto.
    + auto.
Qed.

Lemma le_compose_le rq : le_rq (compose Le rq) <-> le_rq rq.
Proof. unfold le_rq. destruct rq; cbn; intuition congruence. Qed.
Lemma ge_compose_le rq : ge_rq (compose Le rq) <-> ge_rq rq.
Proof. unfold ge_rq. destruct rq; cbn; intuition congruence. Qed.
Lemma le_compose_ge rq : le_rq (compose Ge rq) <-> ge_rq rq.
Proof. unfold le_rq, ge_rq. destruct rq; cbn; intuition congruence. Qed.
Lemma ge_compose_ge rq : ge_rq (compose Ge rq) <-> le_rq rq.
Proof. unfold le_rq, ge_rq. destruct rq; cbn; intuition congruence. Qed.
Lemma compose_eq rq : compose Eq rq = Eq.
Proof. destruct rq; reflexivity. Qed.
Lemma le_eq : le_rq Eq. Proof. discriminate. Qed.
Lemma ge_eq : ge_rq Eq. Proof. discriminate. Qed.

Lemma type_const v v' : type_v v = type_v v' -> is_const v = is_const v'.
Proof. destruct v, v'; cbn; congruence. Qed.

(** The loop over the lifetime parameters. *)
Lemma lps_sat r rq : forall lps lps' c, map fst lps = map fst lps' ->
  (Sat r (collect_lps lps lps' rq c) <->
   Sat r c /\
   (le_rq rq -> Forall2 (fun p p' => no_later (r (snd p')) (r (snd p))) lps lps') /\
   (ge_rq rq -> Forall2 (fun p p' => no_later (r (snd p)) (r (snd p'))) lps lps')).
Proof.
  induction lps as [|[b l] lps IH]; intros [|[b' l'] lps'] c E; cbn in E; try discriminate E.
  - cbn. intuition constructor.
  - injection E as -> E. cbn [collect_lps]. rewrite (IH lps' _ E), sat_add. split.
    + intros ((A & B & C) & F & G). split; [exact A|]. split; intro L; constructor; cbn; auto.
    + intros (A & F & G). split; [split; [exact A|]|].
      * split; intro L; [specialize (F L); now inversion F|specialize (G L); now inversion G].
      * split; intro L; [specialize (F L); now inversion F|specialize (G L); now inversion G].
Qed.

Lemma fst_map (lps lps' : list (bool * lifetime)) :
  map (fun p => (fst p, 0)) lps = map (fun p => (fst p, 0)) lps' -> map fst lps = map fst lps'.
Proof.
  revert lps'. induction lps as [|p lps IH]; intros [|p' lps'] E; cbn in E; try discriminate E; [reflexivity|].
  injection E as E1 E2. cbn. rewrite E1, (IH _ E2). reflexivity.
Qed.

Lemma lps_use (r r' : meaning) (lps lps' : list (bool * lifetime)) : map fst lps = map fst lps' -> Forall (fun p => fst p = true) lps ->
  Forall2 (fun p p' => no_later (r' (snd p')) (r (snd p))) lps lps' ->
  Forall2 (fun (p p' : bool * lifetime) => fst p = fst p' /\ no_later (r' (snd p')) (r (snd p))
                         /\ (fst p = false -> no_later (r (snd p)) (r' (snd p')))) lps lps'.
Proof.
  intros E F H. revert E F. induction H as [|p p' l l' A H IH]; intros E F; [constructor|].
  cbn in E. injection E as E1 E2. inversion F as [|? ? T F']; subst. constructor; [|auto].
  split; [exact E1|]. split; [exact A|]. congruence.
Qed.

Lemma cov_fst lps lps' : map fst lps = map fst lps' -> Forall (fun p : bool * lifetime => fst p = true) lps -> Forall (fun p : bool * lifetime => fst p = true) lps'.
Proof.
  revert lps'. induction lps as [|p l IH]; intros [|p' l'] E F; cbn in E; try discriminate E; [constructor|].
  injection E as E1 E2. inversion F; subst. constructor; [congruence|auto].
Qed.

Lemma forall2_swap {A B} (R : A -> B -> Prop) l l' : Forall2 R l l' -> Forall2 (fun b a => R a b) l' l.
Proof. induction 1; constructor; auto. Qed.

(** Soundness. *)
Definition sound {A} (ty : A -> A) (cov : A -> Prop) (col : A -> A -> requirement -> constraints -> constraints)
  (use : meaning -> meaning -> A -> A -> Prop) (v : A) : Prop :=
  forall v' rq c r, ty v = ty v' -> cov v -> Sat r (col v v' rq c) ->
  Sat r c /\ (le_rq rq -> use r r v v') /\ (ge_rq rq -> use r r v' v).

Lemma sound_all :
  (forall v, sound type_v covariant_v collect_v Use v) /\
  (forall o, sound type_o covariant_o collect_o Use_o o) /\
  (forall a, sound type_args covariant_args collect_args Use_args a) /\
  (forall f, sound type_f covariant_f collect_f Use_f f).
Proof.
  apply tree_ind; unfold sound.
  - intros q [q'|q' ? ?|q' ? ?|?] rq c r T C S; cbn in T; try discriminate T. injection T as ->. cbn in S.
    split; [exact S|]. split; intros _; constructor.
  - intros q l v IH [q'|q' l' v'|q' ? ?|?] rq c r T C S; cbn [type_v] in T; try discriminate T.
    injection T as -> T. cbn [collect_v] in S. cbn [covariant_v] in C.
    destruct (IH _ _ _ _ T C S) as (S1 & A & B). apply sat_add in S1. destruct S1 as (S0 & L & G).
    split; [exact S0|]. pose proof (type_const _ _ T) as K. destruct (is_const v) eqn:Ec.
    + assert (R : read_only v) by (destruct v; cbn in *; auto).
      assert (R' : read_only v') by (destruct v'; cbn in *; auto).
      split; intro H; apply use_read; auto.
      * apply A. now apply le_compose_le.
      * apply B. now apply ge_compose_le.
    + rewrite compose_eq in A, B.
      split; intro H; apply use_write; auto using le_eq, ge_eq.
  - intros q ta IH lps [q'|q' ? ?|q' ta' lps'|?] rq c r T C S; cbn [type_v] in T; try discriminate T.
    injection T as -> T E. cbn [collect_v] in S. cbn [covariant_v] in C. destruct C as (C & F).
    apply fst_map in E. apply (lps_sat _ _ _ _ _ E) in S. destruct S as (S & L & G).
    destruct (IH _ _ _ _ T C S) as (S0 & A & B). split; [exact S0|].
    split; intro H; apply use_rec; auto using le_eq, ge_eq.
    + apply lps_use; auto.
    + apply lps_use; [symmetry; exact E|now apply (cov_fst lps)|].
      apply (forall2_swap _ _ _ (G H)).
  - intros f IH [q'|q' ? ?|q' ? ?|f'] rq c r T C S; cbn [type_v] in T; try discriminate T.
    injection T as T. cbn [collect_v] in S. cbn [covariant_v] in C.
    destruct (IH _ _ _ _ T C S) as (S0 & A & B). split; [exact S0|]. split; intro H; apply use_fun; auto.
  - intros [|v'] rq c r T C S; cbn in T; try discriminate T. split; [exact S|]. split; intros _; constructor.
  - intros v IH [|v'] rq c r T C S; cbn [type_o] in T; try discriminate T. injection T as T.
    destruct (IH _ _ _ _ T C S) as (S0 & A & B). split; [exact S0|]. split; intro H; apply use_some; auto.
  - intros [|o' a'] rq c r T C S; cbn in T; try discriminate T. split; [exact S|]. split; intros _; constructor.
  - intros o IHo a IHa [|o' a'] rq c r T C S; cbn [type_args] in T; try discriminate T. injection T as T1 T2.
    cbn [collect_args] in S. destruct C as (C1 & C2). destruct (IHa _ _ _ _ T2 C2 S) as (S1 & A & B).
    destruct (IHo _ _ _ _ T1 C1 S1) as (S0 & A1 & B1). split; [exact S0|]. split; intro H; apply use_cons; auto.
  - intros ps IHp res IHr th IHt [ps' res' th'] rq c r T C S. cbn [type_f] in T. injection T as T1 T2 T3.
    cbn [collect_f] in S. destruct C as (C1 & C2 & C3).
    destruct (IHt _ _ _ _ T3 C3 S) as (S2 & At & Bt). destruct (IHr _ _ _ _ T2 C2 S2) as (S1 & Ar & Br).
    destruct (IHp _ _ _ _ T1 C1 S1) as (S0 & Ap & Bp). split; [exact S0|].
    split; intro H; apply use_fl.
    + apply Bp. now apply ge_compose_ge.
    + apply Ar. now apply le_compose_le.
    + apply Bt. now apply ge_compose_ge.
    + apply Ap. now apply le_compose_ge.
    + apply Br. now apply ge_compose_le.
    + apply At. now apply le_compose_ge.
Qed.

(** Completeness. *)
Definition complete {A} (ty : A -> A) (nf : A -> Prop) (col : A -> A -> requirement -> constraints -> constraints)
  (use : meaning -> meaning -> A -> A -> Prop) (v : A) : Prop :=
  forall v' rq c r, ty v = ty v' -> nf v -> Sat r c -> (le_rq rq -> use r r v v') -> (ge_rq rq -> use r r v' v) ->
  Sat r (col v v' rq c).

Lemma use_ptr_inv r r' q l v q' l' v' : Use r r' (VPtr q l v) (VPtr q' l' v') ->
  no_later (r' l') (r l) /\ Use r r' v v' /\ (read_only v \/ Use r' r v' v).
Proof. intro U. inversion U; subst; auto. Qed.

Lemma rec_lps (r r' : meaning) (lps lps' : list (bool * lifetime)) :
  Forall2 (fun (p p' : bool * lifetime) => fst p = fst p' /\ no_later (r' (snd p')) (r (snd p))
                         /\ (fst p = false -> no_later (r (snd p)) (r' (snd p')))) lps lps' ->
  Forall2 (fun p p' => no_later (r' (snd p')) (r (snd p))) lps lps'.
Proof. induction 1 as [|p p' l l' (_ & A & _)]; constructor; auto. Qed.

Lemma use_rec_inv r r' q ta lps q' ta' lps' : Use r r' (VRec q ta lps) (VRec q' ta' lps') ->
  Use_args r r' ta ta' /\ Use_args r' r ta' ta /\ Forall2 (fun p p' => no_later (r' (snd p')) (r (snd p))) lps lps'.
Proof. intro U. inversion U; subst. split; [assumption|]. split; [assumption|]. now apply rec_lps. Qed.
Lemma use_fun_inv r r' f f' : Use r r' (VFun f) (VFun f') -> Use_f r r' f f'.
Proof. intro U. now inversion U. Qed.
Lemma use_some_inv r r' f f' : Use_o r r' (OSome f) (OSome f') -> Use r r' f f'.
Proof. intro U. now inversion U. Qed.
Lemma use_cons_inv r r' o a o' a' : Use_args r r' (ACons o a) (ACons o' a') -> Use_o r r' o o' /\ Use_args r r' a a'.
Proof. intro U. now inversion U. Qed.
Lemma use_fl_inv r r' ps res th ps' res' th' : Use_f r r' (FL ps res th) (FL ps' res' th') ->
  Use_args r' r ps' ps /\ Use r r' res res' /\ Use_o r' r th' th.
Proof. intro U. now inversion U. Qed.

Lemma complete_all :
  (forall v, complete type_v no_fp_v collect_v Use v) /\
  (forall o, complete type_o no_fp_o collect_o Use_o o) /\
  (forall a, complete type_args no_fp_args collect_args Use_args a) /\
  (forall f, complete type_f no_fp_f collect_f Use_f f).
Proof.
  apply tree_ind; unfold complete.
  - intros q [q'|q' ? ?|q' ? ?|?] rq c r T C S A B; cbn in T; try discriminate T. exact S.
  - intros q l v IH [q'|q' l' v'|q' ? ?|?] rq c r T C S A B; cbn [type_v] in T; try discriminate T.
    injection T as -> T. cbn [collect_v]. cbn [no_fp_v] in C. destruct C as (N & C).
    pose proof (type_const _ _ T) as K.
    apply IH; auto.
    + apply sat_add. split; [exact S|]. split; intro H; [exact (proj1 (use_ptr_inv _ _ _ _ _ _ _ _ (A H)))|exact (proj1 (use_ptr_inv _ _ _ _ _ _ _ _ (B H)))].
    + destruct (is_const v) eqn:Ec.
      * intro H. apply (proj1 (le_compose_le rq)) in H. exact (proj1 (proj2 (use_ptr_inv _ _ _ _ _ _ _ _ (A H)))).
      * intros _. destruct rq.
        -- destruct (use_ptr_inv _ _ _ _ _ _ _ _ (B ltac:(discriminate))) as (_ & _ & [R|U]); [|exact U].
           exfalso. destruct v'; cbn in R, K; try congruence. destruct v; cbn in T; try discriminate T. exact (N _ eq_refl).
        -- exact (proj1 (proj2 (use_ptr_inv _ _ _ _ _ _ _ _ (A ltac:(discriminate))))).
        -- exact (proj1 (proj2 (use_ptr_inv _ _ _ _ _ _ _ _ (A ltac:(discriminate))))).
    + destruct (is_const v) eqn:Ec.
      * intro H. apply (proj1 (ge_compose_le rq)) in H. exact (proj1 (proj2 (use_ptr_inv _ _ _ _ _ _ _ _ (B H)))).
      * intros _. destruct rq.
        -- exact (proj1 (proj2 (use_ptr_inv _ _ _ _ _ _ _ _ (B ltac:(discriminate))))).
        -- destruct (use_ptr_inv _ _ _ _ _ _ _ _ (A ltac:(discriminate))) as (_ & _ & [R|U]); [|exact U].
           exfalso. destruct v; cbn in R, Ec; try congruence.
        -- exact (proj1 (proj2 (use_ptr_inv _ _ _ _ _ _ _ _ (B ltac:(discriminate))))).
  - intros q ta IH lps [q'|q' ? ?|q' ta' lps'|?] rq c r T C S A B; cbn [type_v] in T; try discriminate T.
    injection T as -> T E. cbn [collect_v]. cbn [no_fp_v] in C. apply fst_map in E.
    apply (lps_sat _ _ _ _ _ E). split; [|split].
    + apply IH; auto.
      * intros _. destruct rq; [|exact (proj1 (use_rec_inv _ _ _ _ _ _ _ _ (A ltac:(discriminate))))|exact (proj1 (use_rec_inv _ _ _ _ _ _ _ _ (A ltac:(discriminate))))].
        exact (proj1 (proj2 (use_rec_inv _ _ _ _ _ _ _ _ (B ltac:(discriminate))))).
      * intros _. destruct rq; [exact (proj1 (use_rec_inv _ _ _ _ _ _ _ _ (B ltac:(discriminate))))| |exact (proj1 (use_rec_inv _ _ _ _ _ _ _ _ (B ltac:(discriminate))))].
        exact (proj1 (proj2 (use_rec_inv _ _ _ _ _ _ _ _ (A ltac:(discriminate))))).
    + intro H. exact (proj2 (proj2 (use_rec_inv _ _ _ _ _ _ _ _ (A H)))).
    + intro H. exact (forall2_swap _ _ _ (proj2 (proj2 (use_rec_inv _ _ _ _ _ _ _ _ (B H))))).
  - intros f IH [q'|q' ? ?|q' ? ?|f'] rq c r T C S A B; cbn [type_v] in T; try discriminate T.
    injection T as T. cbn [collect_v]. cbn [no_fp_v] in C. apply IH; auto using use_fun_inv.
  - intros [|v'] rq c r T C S A B; cbn in T; try discriminate T. exact S.
  - intros v IH [|v'] rq c r T C S A B; cbn [type_o] in T; try discriminate T. injection T as T.
    apply IH; auto using use_some_inv.
  - intros [|o' a'] rq c r T C S A B; cbn in T; try discriminate T. exact S.
  - intros o IHo a IHa [|o' a'] rq c r T C S A B; cbn [type_args] in T; try discriminate T. injection T as T1 T2.
    cbn [collect_args]. destruct C as (C1 & C2).
    apply IHa; [exact T2|exact C2|apply IHo; [exact T1|exact C1|exact S| |]| |]; intro H; first [exact (proj1 (use_cons_inv _ _ _ _ _ _ (A H)))|exact (proj1 (use_cons_inv _ _ _ _ _ _ (B H)))|exact (proj2 (use_cons_inv _ _ _ _ _ _ (A H)))|exact (proj2 (use_cons_inv _ _ _ _ _ _ (B H)))].
  - intros ps IHp res IHr th IHt [ps' res' th'] rq c r T C S A B. cbn [type_f] in T. injection T as T1 T2 T3.
    cbn [collect_f]. destruct C as (C1 & C2 & C3).
    apply IHt; [exact T3|exact C3|apply IHr; [exact T2|exact C2|apply IHp; [exact T1|exact C1|exact S| |]| |]| |]; intro H.
    1: apply (proj1 (le_compose_ge _)) in H. 2: apply (proj1 (ge_compose_ge _)) in H. 3: apply (proj1 (le_compose_le _)) in H. 4: apply (proj1 (ge_compose_le _)) in H.
    5: apply (proj1 (le_compose_ge _)) in H. 6: apply (proj1 (ge_compose_ge _)) in H.
    all: first [pose proof (use_fl_inv _ _ _ _ _ _ _ _ (A H))|pose proof (use_fl_inv _ _ _ _ _ _ _ _ (B H))]; tauto.
Qed.

(** Swapping the functions reverses the constraints. *)
Definition reversed (c c' : constraints) : Prop := forall x y, In (x, y) c <-> In (y, x) c'.
Lemma rev_add rq l l' c c' : reversed c c' -> reversed (add_constraint rq l l' c) (add_constraint rq l' l c').
Proof.
  intros R x y. rewrite !in_add_constraint, (R x y). split; intros [(L & E)|[(L & E)|I]]; auto; injection E as -> ->; auto.
Qed.
Lemma rev_lps rq : forall lps lps' c c', reversed c c' -> reversed (collect_lps lps lps' rq c) (collect_lps lps' lps rq c').
Proof.
  induction lps as [|[b l] lps IH]; intros [|[b' l'] lps'] c c' R; cbn; auto. apply IH. now apply rev_add.
Qed.
Definition revs {A} (ty : A -> A) (col : A -> A -> requirement -> constraints -> constraints) (v : A) : Prop :=
  forall v' rq c c', ty v = ty v' -> reversed c c' -> reversed (col v v' rq c) (col v' v rq c').
Lemma revs_all :
  (forall v, revs type_v collect_v v) /\ (forall o, revs type_o collect_o o) /\
  (forall a, revs type_args collect_args a) /\ (forall f, revs type_f collect_f f).
Proof.
  apply tree_ind; unfold revs.
  - intros q [q'|q' ? ?|q' ? ?|?] rq c c' T R; cbn in T; try discriminate T. exact R.
  - intros q l v IH [q'|q' l' v'|q' ? ?|?] rq c c' T R; cbn [type_v] in T; try discriminate T. injection T as -> T.
    cbn [collect_v]. rewrite <- (type_const _ _ T). apply IH; auto. now apply rev_add.
  - intros q ta IH lps [q'|q' ? ?|q' ta' lps'|?] rq c c' T R; cbn [type_v] in T; try discriminate T. injection T as -> T E.
    cbn [collect_v]. apply rev_lps. auto.
  - intros f IH [q'|q' ? ?|q' ? ?|f'] rq c c' T R; cbn [type_v] in T; try discriminate T. injection T as T. cbn [collect_v]. auto.
  - intros [|v'] rq c c' T R; cbn in T; try discriminate T. exact R.
  - intros v IH [|v'] rq c c' T R; cbn [type_o] in T; try discriminate T. injection T as T. cbn [collect_o]. auto.
  - intros [|o' a'] rq c c' T R; cbn in T; try discriminate T. exact R.
  - intros o IHo a IHa [|o' a'] rq c c' T R; cbn [type_args] in T; try discriminate T. injection T as T1 T2. cbn [collect_args]. auto.
  - intros ps IHp res IHr th IHt [ps' res' th'] rq c c' T R. cbn [type_f] in T. injection T as T1 T2 T3. cbn [collect_f]. auto.
Qed.

(** The lifetimes of the constraints. *)
Definition within {A} (lt : A -> list lifetime) (col : A -> A -> requirement -> constraints -> constraints) (v : A) : Prop :=
  forall v' rq c x y, In (x, y) (col v v' rq c) ->
  In (x, y) c \/ (In x (lt v) /\ In y (lt v')) \/ (In x (lt v') /\ In y (lt v)).
Lemma within_lps rq : forall lps lps' c x y, In (x, y) (collect_lps lps lps' rq c) ->
  In (x, y) c \/ (In x (map snd lps) /\ In y (map snd lps')) \/ (In x (map snd lps') /\ In y (map snd lps)).
Proof.
  induction lps as [|[b l] lps IH]; intros [|[b' l'] lps'] c x y I; cbn [collect_lps] in I; auto.
  apply IH in I. cbn [map snd]. destruct I as [I|[(A & B)|(A & B)]].
  - apply in_add_constraint in I. destruct I as [(_ & E)|[(_ & E)|I]]; [injection E as -> ->|injection E as -> ->|auto].
    + right. right. split; now left.
    + right. left. split; now left.
  - right. left. split; now right.
  - right. right. split; now right.
Qed.
Lemma within_all :
  (forall v, within lifetimes_v collect_v v) /\ (forall o, within lifetimes_o collect_o o) /\
  (forall a, within lifetimes_args collect_args a) /\ (forall f, within lifetimes_f collect_f f).
Proof.
  apply tree_ind; unfold within.
  - intros q [q'|q' ? ?|q' ? ?|?] rq c x y I; cbn in I; auto.
  - intros q l v IH [q'|q' l' v'|q' ? ?|?] rq c x y I; try (cbn in I; now auto). cbn [collect_v lifetimes_v] in *.
    apply IH in I. rewrite !in_app_iff. destruct I as [I|I]; [|tauto].
    apply in_add_constraint in I. destruct I as [(_ & E)|[(_ & E)|I]]; [injection E as -> ->|injection E as -> ->|auto]; cbn; auto 8.
  - intros q ta IH lps [q'|q' ? ?|q' ta' lps'|?] rq c x y I; try (cbn in I; now auto). cbn [collect_v lifetimes_v] in *.
    apply within_lps in I. rewrite !in_app_iff. destruct I as [I|I]; [|tauto]. apply IH in I. tauto.
  - intros f IH [q'|q' ? ?|q' ? ?|f'] rq c x y I; try (cbn in I; now auto). cbn [collect_v lifetimes_v] in *. now apply IH in I.
  - intros v' rq c x y I. destruct v'; cbn in I; auto.
  - intros v IH [|v'] rq c x y I; try (cbn in I; now auto). cbn [collect_o lifetimes_o] in *. now apply IH in I.
  - intros [|? ?] rq c x y I; cbn in I; auto.
  - intros o IHo a IHa [|o' a'] rq c x y I; try (cbn in I; now auto). cbn [collect_args lifetimes_args] in *.
    rewrite !in_app_iff. apply IHa in I. destruct I as [I|I]; [|tauto]. apply IHo in I. tauto.
  - intros ps IHp res IHr th IHt [ps' res' th'] rq c x y I. cbn [collect_f lifetimes_f] in *. rewrite !in_app_iff.
    apply IHt in I. destruct I as [I|I]; [|tauto]. apply IHr in I. destruct I as [I|I]; [|tauto]. apply IHp in I. tauto.
Qed.

Lemma full_iff f g r : type_f f = type_f g -> covariant_f f -> no_fp_f f ->
  (Sat r (substitution_full f g) <-> Use_f r r f g).
Proof.
  intros T C N. split.
  - intro S. apply (proj2 (proj2 (proj2 sound_all)) f g Le [] r T C S). discriminate.
  - intro U. apply (proj2 (proj2 (proj2 complete_all)) f g Le [] r T N); auto; [intros ? ? []|]. intro H. now contradiction H.
Qed.
Lemma full_rev f g x y : type_f f = type_f g -> (In (x, y) (substitution_full f g) <-> In (y, x) (substitution_full g f)).
Proof. intro T. apply (proj2 (proj2 (proj2 revs_all)) f g Le [] [] T). intros ? ?. cbn. tauto. Qed.
Lemma full_within f g x y : In (x, y) (substitution_full f g) ->
  (In x (lifetimes_f f) /\ In y (lifetimes_f g)) \/ (In x (lifetimes_f g) /\ In y (lifetimes_f f)).
Proof. intro I. apply (proj2 (proj2 (proj2 within_all))) in I. destruct I as [[]|I]. exact I. Qed.
