From Coq Require Import List Bool Arith ZArith Lia.
From Verif Require Import Inherit.Model Inherit.Spec Inherit.Proofs.
Import ListNotations.

(** * Subobjects *)

Lemma subobject_snoc p e : subobject_of (p ++ [e]) = extend (subobject_of p) e.
Proof. unfold subobject_of. now rewrite fold_left_app. Qed.

Lemma virtual_visit_inv v p :
  is_virtual_visit v p = true -> exists q y b, p = q ++ [(y, b)] /\ b_virt b = true /\ b_cls b = v.
Proof.
  unfold is_virtual_visit. destruct (snoc_inv p) as [->|(q & y & b & ->)]; [discriminate|].
  rewrite last_spec_snoc, andb_true_iff, Nat.eqb_eq. intros [A B]. eauto 8.
Qed.

Lemma virtual_visit_snoc v q y b :
  is_virtual_visit v (q ++ [(y, b)]) = b_virt b && (b_cls b =? v).
Proof. unfold is_virtual_visit. now rewrite last_spec_snoc. Qed.

Lemma nonvirtual_visit_snoc v q y b :
  is_nonvirtual_visit v (q ++ [(y, b)]) = negb (b_virt b) && (b_cls b =? v).
Proof. unfold is_nonvirtual_visit. now rewrite last_spec_snoc. Qed.

Lemma find_app {A} (f : A -> bool) l m :
  find f (l ++ m) = match find f l with Some x => Some x | None => find f m end.
Proof. induction l as [|a l IH]; cbn; auto. destruct (f a); auto. Qed.

Lemma NoDup_app_snoc {A} (l : list A) x : NoDup l -> ~ In x l -> NoDup (l ++ [x]).
Proof.
  induction l as [|a l IH]; cbn; intros N I.
  - constructor; auto.
  - inversion N; subst. constructor.
    + rewrite in_app_iff. cbn. intuition congruence.
    + apply IH; auto.
Qed.

Section Fixed.
Variables (H : hier) (D X : nat).
Hypothesis W : wf H.

(** [p] is expanded in [l]: its base specifiers have all been visited below a path to the
    same subobject. *)
Definition closed (l : list path) (p : path) : Prop :=
  exists p' y, In p' l /\ subobject_of p' = subobject_of p /\ cls p' = Some y /\ cls p = Some y /\
    forall b, In b (bases H y) -> In (p' ++ [(y, b)]) l.

Lemma closed_mono l l' p : (forall q, In q l -> In q l') -> closed l p -> closed l' p.
Proof. intros S (p' & y & A & B & C & E & F). exists p', y. auto 8. Qed.

Record inv (pre : path) (s : st) : Prop := {
  inv_found : s_found s = Some X;
  inv_leads : forall p, In p (s_log s) -> p <> [] /\ exists x, leads H D p x;
  inv_paths : forall p a, In (p, a) (s_paths s) <->
                In p (s_log s) /\ cls p = Some X /\ acc_of p = Some a;
  inv_closed : forall p, In p (s_log s) -> (forall r, pre <> p ++ r) -> cls p <> Some X ->
                closed (s_log s) p;
  inv_nodup : NoDup (s_log s);
  inv_first : forall p r v, In (p ++ r) (s_log s) -> r <> [] -> is_virtual_visit v p = true ->
                find (is_virtual_visit v) (s_log s) = Some p;
}.

(** A path on the stack. *)
Definition on_stack (pre : path) (s : st) : Prop :=
  pre = [] \/ (In pre (s_log s) /\
    forall v, is_virtual_visit v pre = true -> find (is_virtual_visit v) (s_log s) = Some pre).

Definition post (c : nat) (pre : path) (s s' : st) : Prop :=
  inv pre s' /\
  (exists L, s_log s' = s_log s ++ L /\ forall q, In q L -> exists r, r <> [] /\ q = pre ++ r) /\
  forall b, In b (bases H c) -> In (pre ++ [(c, b)]) (s_log s').

Lemma prefix_class c pre p r y :
  leads H D pre c -> pre = p ++ r -> cls p = Some y -> c <= y.
Proof.
  intros L E C. rewrite E in L. apply leads_app_inv in L as (z & L1 & L2).
  assert (z = y).
  { apply leads_cls in L1; [congruence|]. intros ->. discriminate. }
  subst z. eapply leads_le; eauto.
Qed.

Lemma snoc_prefix (pre p r : path) e :
  pre ++ [e] = p ++ r -> r <> [] -> exists r', pre = p ++ r'.
Proof.
  intros E N. destruct (exists_last N) as (r' & x & ->). rewrite app_assoc in E.
  apply app_snoc_inj in E as [E _]. eauto.
Qed.

(** Adding one visit to the log. *)
Lemma inv_add c pre s b :
  leads H D pre c -> In b (bases H c) -> inv pre s -> on_stack pre s ->
  ~ In (pre ++ [(c, b)]) (s_log s) ->
  let p := pre ++ [(c, b)] in
  forall s1, s1 = mkS (s_seen s) (Some X) (s_log s ++ [p])
                 (if b_cls b =? X
                  then s_paths s ++ [(p, match acc_of pre with
                                         | None => b_acc b
                                         | Some a => merge_access a (b_acc b) end)]
                  else s_paths s) ->
  inv p s1.
Proof.
  intros L Ib [Fo Le Pa Cl Nd Fi] St Fresh p s1 ->.
  constructor; cbn [s_found s_log s_paths].
  - reflexivity.
  - intros q I. apply in_app_iff in I as [I|[<-|[]]]; auto. split.
    + unfold p. destruct pre; discriminate.
    + exists (b_cls b). unfold p. now constructor.
  - intros q a. rewrite in_app_iff. cbn [In].
    assert (Ac : acc_of p = Some match acc_of pre with
                                 | None => b_acc b | Some a => merge_access a (b_acc b) end).
    { unfold p. rewrite acc_of_snoc. unfold acc_step. cbn [snd]. reflexivity. }
    destruct (Nat.eqb_spec (b_cls b) X) as [E|E].
    + rewrite in_app_iff, Pa. cbn [In]. split.
      * intros [(A & B & C)|[[= <- <-]|[]]]; auto.
        split; [auto|split; [|auto]]. unfold p. rewrite cls_snoc. congruence.
      * intros ([A|[<-|[]]] & B & C); auto. right. left. congruence.
    + rewrite Pa. split; [tauto|]. intros ([A|[<-|[]]] & B & C); auto.
      exfalso. unfold p in B. rewrite cls_snoc in B. congruence.
  - intros q I N C. apply in_app_iff in I as [I|[<-|[]]].
    + apply closed_mono with (l := s_log s); [intros; apply in_app_iff; auto|].
      apply Cl; auto. intros r E. apply (N (r ++ [(c, b)])). unfold p. rewrite E.
      now rewrite app_assoc.
    + exfalso. apply (N []). now rewrite app_nil_r.
  - apply NoDup_app_snoc; auto.
  - intros q r v I N V. rewrite find_app.
    apply in_app_iff in I as [I|[E|[]]].
    + now rewrite (Fi _ _ _ I N V).
    + unfold p in E. destruct (snoc_prefix _ _ _ _ E N) as (r' & Er).
      destruct St as [->|[Ip Hv]].
      * symmetry in Er. apply app_eq_nil in Er as [-> _]. discriminate.
      * destruct r' as [|e r'].
        -- rewrite app_nil_r in Er. subst q. now rewrite (Hv v V).
        -- assert (K : find (is_virtual_visit v) (s_log s) = Some q).
           { apply (Fi q (e :: r') v); auto. now rewrite <- Er. discriminate. }
           now rewrite K.
Qed.

Lemma inv_pop c pre b s :
  inv (pre ++ [(c, b)]) s ->
  (b_cls b <> X -> closed (s_log s) (pre ++ [(c, b)])) ->
  inv pre s.
Proof.
  intros [Fo Le Pa Cl Nd Fi] K. constructor; auto.
  intros q I N C.
  destruct (list_eq_dec (fun a b : step => ltac:(decide equality; [|apply Nat.eq_dec];
     decide equality; [decide equality|apply bool_dec|apply Nat.eq_dec])) q (pre ++ [(c, b)])) as [->|Nq].
  - apply K. rewrite cls_snoc in C. congruence.
  - apply Cl; auto. intros r E. destruct r as [|e r].
    + rewrite app_nil_r in E. congruence.
    + assert (Nr : e :: r <> []) by discriminate.
      destruct (snoc_prefix _ _ _ _ E Nr) as (r' & Er). now apply (N r').
Qed.

Lemma on_stack_mono pre s s' L :
  s_log s' = s_log s ++ L -> on_stack pre s -> on_stack pre s'.
Proof.
  intros E [->|[I V]]; [now left|right]. rewrite E. split.
  - apply in_app_iff. auto.
  - intros v Hv. rewrite find_app. now rewrite (V v Hv).
Qed.

Lemma virtual_key v p : is_virtual_visit v p = true -> subobject_of p = (Some v, []).
Proof.
  intros V. apply virtual_visit_inv in V as (q & y & b & -> & Hv & <-).
  rewrite subobject_snoc. unfold extend. cbn [snd]. now rewrite Hv.
Qed.

Lemma virtual_cls v p : is_virtual_visit v p = true -> cls p = Some v.
Proof.
  intros V. apply virtual_visit_inv in V as (q & y & b & -> & _ & <-). apply cls_snoc.
Qed.

Lemma lookup_post fuel : forall c pre s,
  c < fuel -> leads H D pre c -> c <> X -> inv pre s -> on_stack pre s ->
  (forall r, In (pre ++ r) (s_log s) -> r = []) ->
  post c pre s (lookup_in_bases H fuel c pre (acc_of pre) s).
Proof using W.
  induction fuel as [|n IH]; intros c pre s Hf L Nc I0 St0 Fr0; [lia|].
  cbn [lookup_in_bases].
  enough (K : inv pre (fold_left (visit (lookup_in_bases H n) c pre (acc_of pre)) (bases H c) s) /\
    on_stack pre (fold_left (visit (lookup_in_bases H n) c pre (acc_of pre)) (bases H c) s) /\
    (exists L, s_log (fold_left (visit (lookup_in_bases H n) c pre (acc_of pre)) (bases H c) s)
               = s_log s ++ L /\
      forall q, In q L -> exists b r, In b (bases H c) /\ q = pre ++ (c, b) :: r) /\
    forall b, In b (bases H c) -> In (pre ++ [(c, b)])
      (s_log (fold_left (visit (lookup_in_bases H n) c pre (acc_of pre)) (bases H c) s))).
  { destruct K as (A & _ & (Lg & EL & IL) & B). split; [auto|split; [|auto]].
    exists Lg. split; auto. intros q Iq. destruct (IL q Iq) as (b & r & _ & ->).
    exists ((c, b) :: r). split; [discriminate|auto]. }
  apply (fold_inv (fun done s' => inv pre s' /\ on_stack pre s' /\
    (exists L, s_log s' = s_log s ++ L /\
      forall q, In q L -> exists b r, In b done /\ q = pre ++ (c, b) :: r) /\
    forall b, In b done -> In (pre ++ [(c, b)]) (s_log s'))).
  { split; [auto|split; [auto|split]].
    - exists []. rewrite app_nil_r. split; auto. intros q [].
    - intros b []. }
  intros done b todo s' Eb (Is & Ss & (Lg & EL & IL) & Dn).
  assert (Ib : In b (bases H c)) by (rewrite Eb, in_app_iff; cbn; auto).
  assert (Nb : ~ In b done).
  { pose proof (proj2 W c) as N. rewrite Eb, map_app in N. cbn in N.
    apply NoDup_remove_2 in N. intros A. apply N. apply in_app_iff. left. now apply in_map. }
  assert (Fresh : forall r, ~ In (pre ++ (c, b) :: r) (s_log s')).
  { intros r A. rewrite EL, in_app_iff in A. destruct A as [A|A].
    - discriminate (Fr0 _ A).
    - destruct (IL _ A) as (b' & r' & Ib' & E). apply app_inv_head in E.
      injection E as E _. now subst. }
  set (p := pre ++ [(c, b)]).
  assert (Fp : ~ In p (s_log s')) by apply Fresh.
  pose proof (inv_add c pre s' b L Ib Is Ss Fp _ eq_refl) as I1. fold p in I1.
  match type of I1 with inv _ ?z => set (s1 := z) in * end.
  assert (Ex1 : exists L, s_log s1 = s_log s ++ L /\
    forall q, In q L -> exists b' r, In b' (done ++ [b]) /\ q = pre ++ (c, b') :: r).
  { exists (Lg ++ [p]). cbn [s_log s1]. rewrite EL, <- app_assoc. split; auto.
    intros q A. apply in_app_iff in A as [A|[<-|[]]].
    - destruct (IL q A) as (b' & r & B & C). exists b', r. rewrite in_app_iff. auto.
    - exists b, []. rewrite in_app_iff. cbn. auto. }
  assert (Dn1 : forall b', In b' (done ++ [b]) -> In (pre ++ [(c, b')]) (s_log s1)).
  { intros b' A. cbn [s_log s1]. apply in_app_iff. apply in_app_iff in A as [A|[<-|[]]].
    - left. auto.
    - right. left. reflexivity. }
  assert (St1 : on_stack pre s1) by (eapply on_stack_mono; [|exact Ss]; reflexivity).
  unfold visit, is_new_class. cbn [s_found]. rewrite (inv_found _ _ Is). fold p.
  destruct (Nat.eqb_spec (b_cls b) X) as [EX|NX].
  - (* match *)
    match goal with |- inv _ ?z /\ _ => assert (R : s1 = z)
      by (unfold s1; rewrite ?(proj2 (Nat.eqb_eq _ _) EX); reflexivity) end.
    cbn [s_seen s_found s_log s_paths] in R |- *. rewrite <- R. split; [|auto].
    apply (inv_pop c pre b); auto. intros A. contradiction.
  - assert (R : s1 = mkS (s_seen s') (Some X) (s_log s' ++ [p]) (s_paths s'))
      by (unfold s1; rewrite ?(proj2 (Nat.eqb_neq _ _) NX); reflexivity).
    rewrite <- R.
    destruct (negb (b_virt b) || negb (virtual_seen (s_log s') (b_cls b))) eqn:Go.
    + (* descend *)
      assert (Ea : Some match acc_of pre with
                        | Some a => merge_access a (b_acc b) | None => b_acc b end = acc_of p).
      { unfold p. rewrite acc_of_snoc. reflexivity. }
      rewrite Ea. clear Ea.
      assert (Lp : leads H D p (b_cls b)) by (unfold p; now constructor).
      assert (Hc : b_cls b < c) by (apply (proj1 W); auto).
      assert (Stp : on_stack p s1).
      { right. split; [cbn [s_log s1]; apply in_app_iff; cbn; auto|].
        intros v Vv. cbn [s_log s1]. rewrite find_app.
        unfold p in Vv. rewrite virtual_visit_snoc, andb_true_iff, Nat.eqb_eq in Vv.
        destruct Vv as [Vb <-]. rewrite Vb in Go. cbn in Go. rewrite negb_true_iff in Go.
        destruct (find (is_virtual_visit (b_cls b)) (s_log s')) as [x|] eqn:Fx.
        - exfalso. apply find_some in Fx as [Ix Vx]. unfold virtual_seen in Go.
          assert (T : existsb (is_virtual_visit (b_cls b)) (s_log s') = true)
            by (apply existsb_exists; eauto).
          congruence.
        - cbn [find]. unfold p. rewrite virtual_visit_snoc, Vb, Nat.eqb_refl. reflexivity. }
      assert (Fr1 : forall r, In (p ++ r) (s_log s1) -> r = []).
      { intros r A. cbn [s_log s1] in A. apply in_app_iff in A as [A|[A|[]]].
        - exfalso. unfold p in A. rewrite <- app_assoc in A. cbn [app] in A. now apply Fresh in A.
        - rewrite <- (app_nil_r p) in A at 1. now apply app_inv_head in A. }
      assert (Hfn : b_cls b < n) by lia.
      destruct (IH (b_cls b) p s1 Hfn Lp NX I1 Stp Fr1) as (I2 & (L2 & E2 & In2) & Al2).
      set (s2 := lookup_in_bases H n (b_cls b) p (acc_of p) s1) in *.
      split; [|split; [|split]].
      * apply (inv_pop c pre b); auto. intros _. exists p, (b_cls b).
        assert (Ip : In p (s_log s2)).
        { rewrite E2. apply in_app_iff. left. cbn [s_log s1]. apply in_app_iff. cbn. auto. }
        assert (Cp : cls p = Some (b_cls b)) by apply cls_snoc.
        auto 8.
      * eapply on_stack_mono; [exact E2|auto].
      * destruct Ex1 as (L1 & E1 & In1). exists (L1 ++ L2). rewrite E2, E1, app_assoc. split; auto.
        intros q A. apply in_app_iff in A as [A|A]; auto.
        destruct (In2 q A) as (r & _ & ->). exists b, r. rewrite in_app_iff. cbn. split; auto.
        unfold p. now rewrite <- app_assoc.
      * intros b' A. rewrite E2. apply in_app_iff. left. auto.
    + (* a virtual base seen before *)
      split; [|auto]. apply (inv_pop c pre b); auto. intros _.
      rewrite orb_false_iff, !negb_false_iff in Go. destruct Go as [Vb Vs].
      unfold virtual_seen in Vs. apply existsb_exists in Vs as (p0 & Ip0 & Vp0).
      assert (C0 : closed (s_log s') p0).
      { apply (inv_closed _ _ Is); auto.
        - intros r E. pose proof (prefix_class c pre p0 r _ L E (virtual_cls _ _ Vp0)) as A.
          pose proof (proj1 W c b Ib). lia.
        - rewrite (virtual_cls _ _ Vp0). congruence. }
      apply closed_mono with (l := s_log s');
        [intros q A; cbn [s_log s1]; apply in_app_iff; auto|].
      destruct C0 as (p' & y & A1 & A2 & A3 & A4 & A5).
      rewrite (virtual_cls _ _ Vp0) in A4. rewrite (virtual_key _ _ Vp0) in A2.
      assert (Kp : subobject_of (pre ++ [(c, b)]) = (Some (b_cls b), [])).
      { apply virtual_key. rewrite virtual_visit_snoc, Vb, Nat.eqb_refl. reflexivity. }
      assert (Cp : cls (pre ++ [(c, b)]) = Some (b_cls b)) by apply cls_snoc.
      exists p', y. split; [auto|split; [congruence|split; [auto|split; [congruence|auto]]]].
Qed.

(** ** The state after a round with target [X] *)
Definition round (seen : list nat) : st :=
  lookup_in_bases H (S D) D [] None (mkS seen (Some X) [] []).

Lemma round_post seen : D <> X -> post D [] (mkS seen (Some X) [] []) (round seen).
Proof using W.
  intros N. unfold round. change (@None access) with (acc_of []).
  apply lookup_post; auto.
  - constructor.
  - constructor; cbn; auto; try contradiction; try tauto.
    + constructor.
  - now left.
  - cbn. contradiction.
Qed.

(** Every subobject whose path does not pass through [X] was visited. *)
Lemma visited seen q y :
  D <> X -> leads H D q y -> q <> [] -> X <= y \/ D <= X ->
  exists p, In p (s_log (round seen)) /\ subobject_of p = subobject_of q /\ cls p = Some y.
Proof using W.
  intros N L. pose proof (round_post seen N) as (I & _ & All).
  cbn [app] in All.
  assert (K : forall c, c = D -> leads H c q y -> q <> [] -> X <= y \/ D <= X ->
    exists p, In p (s_log (round seen)) /\ subobject_of p = subobject_of q /\ cls p = Some y).
  { clear L. intros c Ec L. induction L as [c|c q y b L IH Ib]; [congruence|]. subst c. intros _ Hy.
    destruct (snoc_inv q) as [->|(q0 & z & b0 & ->)].
    - apply leads_nil_inv in L. subst y. exists [(D, b)]. split; [auto|split; [auto|reflexivity]].
    - assert (Nq : q0 ++ [(z, b0)] <> []) by (destruct q0; discriminate).
      pose proof (proj1 W _ _ Ib) as Lb.
      assert (Ly : y < D) by (eapply leads_lt; eauto).
      assert (Hy' : X <= y \/ D <= X) by lia.
      destruct (IH eq_refl Nq Hy') as (p & Ip & Kp & Cp).
      assert (C : closed (s_log (round seen)) p).
      { apply (inv_closed _ _ I); auto.
        - intros r E. symmetry in E. apply app_eq_nil in E as [-> _]. discriminate.
        - rewrite Cp. intros [= E]. lia. }
      destruct C as (p' & y' & A1 & A2 & A3 & A4 & A5).
      assert (y' = y) by congruence. subst y'.
      exists (p' ++ [(y, b)]). split; [auto|split].
      + rewrite !subobject_snoc. rewrite A2, Kp, subobject_snoc. reflexivity.
      + apply cls_snoc. }
  exact (K D eq_refl L).
Qed.

(** A path whose edges, except possibly the last, are not virtual was itself visited. *)
Definition nonvirtual (p : path) : Prop := Forall (fun e => b_virt (snd e) = false) p.

Lemma nonvirtual_key p : nonvirtual p -> subobject_of p = (None, p).
Proof.
  induction p as [|e p IH] using rev_ind; intros N; [reflexivity|].
  apply Forall_app in N as [N1 N2]. inversion N2; subst.
  rewrite subobject_snoc, IH by auto. unfold extend. now rewrite H2.
Qed.

Lemma key_nonvirtual p q : subobject_of p = (None, q) -> p = q /\ nonvirtual p.
Proof.
  revert q. induction p as [|e p IH] using rev_ind; intros q E.
  - injection E as <-. split; auto. constructor.
  - rewrite subobject_snoc in E. unfold extend in E.
    destruct (b_virt (snd e)) eqn:V; [discriminate|].
    destruct (subobject_of p) as [o q0] eqn:S. cbn in E. injection E as -> <-.
    destruct (IH q0 eq_refl) as [-> Np]. split; auto.
    apply Forall_app. split; auto.
Qed.

Lemma visited_nonvirtual seen q y b :
  D <> X -> leads H D q y -> In b (bases H y) -> X <= b_cls b \/ D <= X -> nonvirtual q ->
  In (q ++ [(y, b)]) (s_log (round seen)).
Proof using W.
  intros N L Ib Hx Nv. pose proof (round_post seen N) as (I & _ & All). cbn [app] in All.
  destruct (snoc_inv q) as [->|(q0 & z & b0 & E)].
  - apply leads_nil_inv in L. subst y. cbn [app]. auto.
  - assert (Nq : q <> []) by (rewrite E; destruct q0; discriminate).
    pose proof (proj1 W _ _ Ib) as Lb.
    assert (Ly : y < D) by (eapply leads_lt; eauto).
    destruct (visited seen q y N L Nq ltac:(lia)) as (p & Ip & Kp & Cp).
    rewrite (nonvirtual_key q Nv) in Kp. apply key_nonvirtual in Kp as [-> _].
    assert (C : closed (s_log (round seen)) q).
    { apply (inv_closed _ _ I); auto.
      - intros r E'. symmetry in E'. apply app_eq_nil in E' as [? _]. congruence.
      - rewrite Cp. intros [= E']. lia. }
    destruct C as (p' & y' & A1 & A2 & A3 & A4 & A5).
    assert (y' = y) by congruence. subst y'.
    rewrite (nonvirtual_key q Nv) in A2. apply key_nonvirtual in A2 as [-> _]. auto.
Qed.
End Fixed.
