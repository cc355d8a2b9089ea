From Coq Require Import List Bool Arith ZArith Lia.
From Verif Require Import Inherit.Model Inherit.Spec.
Import ListNotations.

(** * Basics *)

Definition cls (p : path) : option nat := option_map b_cls (last_spec p).

Lemma last_spec_snoc q y b : last_spec (q ++ [(y, b)]) = Some b.
Proof. unfold last_spec. now rewrite rev_unit. Qed.

Lemma cls_snoc q y b : cls (q ++ [(y, b)]) = Some (b_cls b).
Proof. unfold cls. now rewrite last_spec_snoc. Qed.

Lemma snoc_inv (p : path) : p = [] \/ exists q y b, p = q ++ [(y, b)].
Proof.
  destruct p as [|e p] using rev_ind; auto. right. destruct e as [y b]. eauto.
Qed.

Lemma mem_spec c l : mem c l = true <-> In c l.
Proof.
  unfold mem. rewrite existsb_exists. split.
  - intros (x & I & E). apply Nat.eqb_eq in E. now subst.
  - intros I. exists c. split; auto. apply Nat.eqb_refl.
Qed.

Lemma fold_inv {A S} (I : list A -> S -> Prop) (f : S -> A -> S) (l : list A) : forall s,
  I [] s ->
  (forall done b todo s, l = done ++ b :: todo -> I done s -> I (done ++ [b]) (f s b)) ->
  I l (fold_left f l s).
Proof.
  enough (K : forall todo done s, l = done ++ todo -> I done s ->
    (forall done b todo s, l = done ++ b :: todo -> I done s -> I (done ++ [b]) (f s b)) ->
    I l (fold_left f todo s)).
  { intros s H0 Hs. apply (K l []); auto. }
  induction todo as [|b todo IH]; intros done s E H0 Hs; cbn [fold_left].
  - rewrite app_nil_r in E. now subst.
  - apply (IH (done ++ [b])); auto.
    + now rewrite <- app_assoc.
    + eapply Hs; eauto.
Qed.

Lemma app_snoc_inj (p q : path) a b : p ++ [a] = q ++ [b] -> p = q /\ a = b.
Proof. apply app_inj_tail. Qed.

(** * Paths *)

Lemma leads_inv_snoc H c p e x :
  leads H c (p ++ [e]) x -> exists y b, e = (y, b) /\ leads H c p y /\ In b (bases H y) /\ x = b_cls b.
Proof.
  intros L. inversion L as [c' Ec E Ex|c' p' y b L' I Ec E Ex]; subst.
  - destruct p; discriminate.
  - apply app_snoc_inj in E as [-> <-]. eauto 8.
Qed.

Lemma leads_nil_inv H c x : leads H c [] x -> x = c.
Proof.
  intros L. inversion L as [c' Ec E Ex|c' p' y b L' I Ec E Ex]; subst; auto.
  destruct p'; discriminate.
Qed.

Lemma leads_cls H c p x : leads H c p x -> p <> [] -> cls p = Some x.
Proof.
  intros L N. inversion L; subst; [congruence|]. apply cls_snoc.
Qed.

Lemma leads_app_inv H c p q x :
  leads H c (p ++ q) x -> exists y, leads H c p y /\ leads H y q x.
Proof.
  revert x. induction q as [|e q IH] using rev_ind; intros x L.
  - rewrite app_nil_r in L. exists x. split; auto. constructor.
  - rewrite app_assoc in L. apply leads_inv_snoc in L as (y & b & -> & L & I & ->).
    destruct (IH _ L) as (z & L1 & L2). exists z. split; auto. now constructor.
Qed.

Lemma leads_app H c p q y x : leads H c p y -> leads H y q x -> leads H c (p ++ q) x.
Proof.
  intros L1 L2. revert L1. induction L2 as [y|y q z b L2 IH I]; intros L1.
  - now rewrite app_nil_r.
  - rewrite app_assoc. constructor; auto.
Qed.

Lemma leads_le H c p x : wf H -> leads H c p x -> x <= c.
Proof.
  intros W L. induction L as [c|c p y b L IH I]; auto.
  destruct W as [W _]. specialize (W _ _ I). lia.
Qed.

Lemma leads_lt H c p x : wf H -> leads H c p x -> p <> [] -> x < c.
Proof.
  intros W L N. inversion L as [|c' p' y b L' I]; subst; [congruence|].
  pose proof (leads_le _ _ _ _ W L'). destruct W as [W _]. specialize (W _ _ I). lia.
Qed.

(** * Accesses *)

Definition acc_step (a : option access) (e : step) : option access :=
  Some (match a with None => b_acc (snd e) | Some a' => merge_access a' (b_acc (snd e)) end).
Definition acc_of (p : path) : option access := fold_left acc_step p None.

Lemma acc_of_snoc p e : acc_of (p ++ [e]) = acc_step (acc_of p) e.
Proof. unfold acc_of. now rewrite fold_left_app. Qed.

Lemma merge_public a b : merge_access a b = APublic <-> a = APublic /\ b = APublic.
Proof. destruct a, b; cbn; split; intros; intuition discriminate. Qed.

Lemma acc_of_public p : p <> [] -> (acc_of p = Some APublic <-> public_path p).
Proof.
  unfold public_path. induction p as [|e p IH] using rev_ind; [congruence|]. intros _.
  rewrite acc_of_snoc, Forall_app. unfold acc_step.
  destruct p as [|e0 p0].
  - cbn. split.
    + intros [= E]. split; auto.
    + intros [_ F]. inversion F; subst. congruence.
  - assert (N : e0 :: p0 <> []) by discriminate. specialize (IH N).
    destruct (acc_of (e0 :: p0)) as [a|] eqn:A.
    + split.
      * intros [= E]. apply merge_public in E as [-> E]. split; [now apply IH|auto].
      * intros [F1 F2]. inversion F2; subst. apply IH in F1. injection F1 as ->.
        f_equal. apply merge_public. auto.
    + exfalso. destruct (exists_last N) as (q & x & E). rewrite E, acc_of_snoc in A. discriminate.
Qed.

(** * The unified view of one round *)

Definition targeted (s : st) (x : nat) : st := mkS (x :: s_seen s) (Some x) (s_log s) (s_paths s).

Definition follows (f : st -> st) (s : st) : Prop :=
  let s' := f s in
  match s_found s' with
  | None =>
      s_seen s' = s_seen s /\ s_paths s' = s_paths s /\
      (exists L, s_log s' = s_log s ++ L /\
         forall p, In p L -> exists y, cls p = Some y /\ In y (s_seen s)) /\
      forall x, ~ In x (s_seen s) -> f (targeted s x) = targeted s' x
  | Some x => ~ In x (s_seen s) /\ s_seen s' = x :: s_seen s /\ f (targeted s x) = s'
  end.

(** With a target fixed, the target and the set of seen classes do not change. *)
Lemma fixed_target H fuel : forall c pre acc s x,
  s_found s = Some x ->
  s_found (lookup_in_bases H fuel c pre acc s) = Some x /\
  s_seen (lookup_in_bases H fuel c pre acc s) = s_seen s.
Proof.
  induction fuel as [|n IH]; intros c pre acc s x F; cbn [lookup_in_bases]; auto.
  apply (fold_inv (fun _ s' => s_found s' = Some x /\ s_seen s' = s_seen s)); auto.
  intros done b todo s1 _ [F1 S1]. unfold visit, is_new_class. cbn [s_found].
  rewrite F1. destruct (b_cls b =? x); cbn [s_found s_seen]; auto.
  destruct (negb (b_virt b) || negb (virtual_seen (s_log s1) (b_cls b))); cbn [s_found s_seen]; auto.
  match goal with |- s_found (lookup_in_bases _ _ _ _ ?a ?s2) = _ /\ _ =>
    destruct (IH (b_cls b) (pre ++ [(c, b)]) a s2 x eq_refl) as [A B] end.
  cbn [s_seen] in B. split; congruence.
Qed.

Lemma lookup_follows H fuel : forall c pre acc s,
  s_found s = None -> follows (lookup_in_bases H fuel c pre acc) s.
Proof.
  induction fuel as [|n IH]; intros c pre acc s F; unfold follows; cbn [lookup_in_bases].
  - rewrite F. split; [auto|split; [auto|split; [|auto]]]. exists []. rewrite app_nil_r.
    split; auto. intros p [].
  - set (V := visit (lookup_in_bases H n) c pre acc).
    apply (fold_inv (fun done s' =>
      match s_found s' with
      | None =>
          s_seen s' = s_seen s /\ s_paths s' = s_paths s /\
          (exists L, s_log s' = s_log s ++ L /\
             forall p, In p L -> exists y, cls p = Some y /\ In y (s_seen s)) /\
          forall x, ~ In x (s_seen s) -> fold_left V done (targeted s x) = targeted s' x
      | Some x => ~ In x (s_seen s) /\ s_seen s' = x :: s_seen s /\
                  fold_left V done (targeted s x) = s'
      end)).
    + rewrite F. split; [auto|split; [auto|split; [|auto]]]. exists []. rewrite app_nil_r.
      split; auto. intros p [].
    + intros done b todo s1 _ HI.
      destruct (s_found s1) as [x|] eqn:F1.
      * (* already found *)
        destruct HI as (Nx & S1 & E1).
        assert (K : s_found (V s1 b) = Some x /\ s_seen (V s1 b) = s_seen s1).
        { unfold V, visit, is_new_class. cbn [s_found]. rewrite F1.
          destruct (b_cls b =? x); cbn [s_found s_seen]; auto.
          destruct (negb (b_virt b) || negb (virtual_seen (s_log s1) (b_cls b)));
            cbn [s_found s_seen]; auto.
          apply (fixed_target H n (b_cls b) _ _ (mkS (s_seen s1) (Some x) _ _) x eq_refl). }
        destruct K as [-> ->]. split; [auto|split; [auto|]].
        rewrite fold_left_app, E1. reflexivity.
      * (* not yet found *)
        destruct HI as (S1 & P1 & (L & L1 & Lin) & T1).
        destruct (mem (b_cls b) (s_seen s1)) eqn:M.
        -- (* not a match *)
           apply mem_spec in M.
           set (sb := mkS (s_seen s1) None (s_log s1 ++ [pre ++ [(c, b)]]) (s_paths s1)).
           set (acc' := match acc with
                        | Some a => merge_access a (b_acc b) | None => b_acc b end).
           assert (EV : V s1 b =
             (if negb (b_virt b) || negb (virtual_seen (s_log s1) (b_cls b))
              then lookup_in_bases H n (b_cls b) (pre ++ [(c, b)]) (Some acc') sb
              else sb)).
           { unfold V, visit, is_new_class. cbn [s_found s_seen s_log s_paths].
             rewrite F1, (proj2 (mem_spec _ _) M). reflexivity. }
           rewrite EV. clear EV.
           assert (Hb : forall x, ~ In x (s_seen s) ->
             V (targeted s1 x) b =
             (if negb (b_virt b) || negb (virtual_seen (s_log s1) (b_cls b))
              then lookup_in_bases H n (b_cls b) (pre ++ [(c, b)]) (Some acc') (targeted sb x)
              else targeted sb x)).
           { intros x Nx. unfold V, visit, is_new_class, targeted.
             cbn [s_found s_seen s_log s_paths].
             destruct (Nat.eqb_spec (b_cls b) x) as [E|_].
             - rewrite <- E, <- S1 in Nx. contradiction.
             - reflexivity. }
           assert (Lb : exists L', s_log sb = s_log s ++ L' /\
              forall p, In p L' -> exists y, cls p = Some y /\ In y (s_seen s)).
           { exists (L ++ [pre ++ [(c, b)]]). cbn [s_log sb]. rewrite L1, <- app_assoc. split; auto.
             intros p I. apply in_app_iff in I as [I|[<-|[]]]; auto.
             exists (b_cls b). rewrite cls_snoc. split; auto. now rewrite <- S1. }
           destruct (negb (b_virt b) || negb (virtual_seen (s_log s1) (b_cls b))).
           ++ pose proof (IH (b_cls b) (pre ++ [(c, b)]) (Some acc') sb eq_refl) as FB.
              unfold follows in FB.
              match goal with |- match s_found ?g with _ => _ end => set (sg := g) end.
              change (lookup_in_bases H n (b_cls b) (pre ++ [(c, b)]) (Some acc') sb) with sg in FB.
              destruct (s_found sg) as [x|] eqn:Fg.
              ** destruct FB as (Nx & Sg & Eg).
                 assert (Nx' : ~ In x (s_seen s)) by (rewrite <- S1; exact Nx).
                 split; [auto|split; [rewrite Sg; cbn [s_seen sb]; congruence|]].
                 rewrite fold_left_app, T1 by auto. cbn [fold_left]. rewrite Hb by auto. exact Eg.
              ** destruct FB as (Sg & Pg & (Lg & LgE & LgI) & Tg).
                 split; [rewrite Sg; auto|split; [rewrite Pg; auto|split]].
                 --- destruct Lb as (L' & EL' & IL'). exists (L' ++ Lg).
                     rewrite LgE, EL', app_assoc. split; auto.
                     intros p I. apply in_app_iff in I as [I|I]; auto.
                     destruct (LgI p I) as (y & Cy & Iy). exists y. split; auto.
                     rewrite <- S1. exact Iy.
                 --- intros x Nx. rewrite fold_left_app, T1 by auto. cbn [fold_left].
                     rewrite Hb by auto. apply Tg. cbn [s_seen sb]. now rewrite S1.
           ++ cbn [s_found sb]. fold sb. split; [auto|split; [auto|split; [auto|]]].
              intros x Nx. rewrite fold_left_app, T1 by auto. cbn [fold_left]. now apply Hb.
        -- (* found here *)
           assert (EV : V s1 b = mkS (b_cls b :: s_seen s1) (Some (b_cls b))
             (s_log s1 ++ [pre ++ [(c, b)]])
             (s_paths s1 ++ [(pre ++ [(c, b)],
                match acc with Some a => merge_access a (b_acc b) | None => b_acc b end)])).
           { unfold V, visit, is_new_class. cbn [s_found s_seen s_log s_paths].
             rewrite F1, M. reflexivity. }
           rewrite EV. clear EV. cbn [s_found s_seen s_log s_paths].
           assert (Nx : ~ In (b_cls b) (s_seen s)).
           { rewrite <- S1, <- mem_spec. congruence. }
           split; [auto|split; [congruence|]].
           rewrite fold_left_app, T1 by auto. cbn [fold_left].
           unfold V, visit, is_new_class, targeted. cbn [s_found s_seen s_log s_paths].
           now rewrite Nat.eqb_refl.
Qed.
