(** Movable and Slot refine the value specification, and keep exact lives. *)
From Coq Require Import List Bool Arith Lia.
From Verif.Movable Require Import Model Spec.
From Verif.Own Require Import Own.
Import ListNotations.

Lemma ends_touches b e : ends b e = true -> touches b e = true.
Proof. destruct e; cbn; auto; discriminate. Qed.

Definition owner (c : option cell) : option nat :=
  match c with
  | Some (CMov (Some o) false) => Some o
  | Some (CPlain o) => Some o
  | _ => None
  end.

Definition own (w : world) : nat -> option nat := fun n => owner (w_cells w n).

Definition crel (w : world) (c : option cell) (x : option acell) : Prop :=
  match c, x with
  | None, None => True
  | Some (CMov v vl), Some (AMov None) => vl = true
  | Some (CMov v vl), Some (AMov (Some p)) => vl = false /\ exists o, v = Some o /\ w_pay w o = p
  | Some (CPlain o), Some (APlain p) => w_pay w o = p
  | _, _ => False
  end.

Notation Inv := (inv ends touches).

Record J (w : world) (a : aworld) : Prop := {
  j_fault : w_fault w = false;
  j_cells : forall n, crel w (w_cells w n) (a_cells a n);
  j_obs : flat_map observe (w_log w) = a_obs a;
  j_inv : Inv (w_next w) (own w) (w_log w) }.

Lemma J_init : J init ainit.
Proof. constructor; cbn; auto. apply inv_init. Qed.

Lemma own_lt w a n o : J w a -> own w n = Some o -> o < w_next w.
Proof.
  intros H E. destruct (inv_meaning _ _ ends_touches _ _ _ (j_inv _ _ H)) as (_ & _ & _ & A & _).
  destruct (A o n E); auto.
Qed.

Lemma own_inj w a n m o : J w a -> own w n = Some o -> own w m = Some o -> n = m.
Proof.
  intros H E E2. destruct (inv_meaning _ _ ends_touches _ _ _ (j_inv _ _ H)) as (_ & _ & _ & _ & A).
  eauto.
Qed.

(* the relation of a variable survives changes of values it does not own *)
Lemma crel_pay w w' c x : crel w c x -> (forall o, owner c = Some o -> w_pay w' o = w_pay w o) ->
  crel w' c x.
Proof.
  intros H E. destruct c as [[v vl|o]|], x as [[[p|]|p]|]; cbn in *; auto.
  - destruct H as (-> & o & -> & H). split; auto. exists o. split; auto. rewrite E; auto.
  - rewrite E; auto.
Qed.

Ltac nrm := cbn [w_next w_pay w_cells w_log w_fault emit set_cell set_pay construct cpp_move fault
                 a_cells a_obs aset aobs flat_map observe app].

Lemma own_set w n c m : own (set_cell w n c) m = up (own w) n (owner c) m.
Proof. unfold own, up. cbn. destruct (Nat.eqb m n); auto. Qed.

Lemma obs_app l e : flat_map observe (l ++ [e]) = flat_map observe l ++ observe e.
Proof. rewrite flat_map_app. cbn. now rewrite app_nil_r. Qed.

(* --- log steps --- *)
Lemma Inv_new next c l o : Inv next c l -> Inv next c (l ++ [EvNew o]).
Proof. intros I. apply inv_emit; auto; cbn; auto; discriminate. Qed.

Lemma Inv_use next c l n o : Inv next c l -> c n = Some o -> Inv next c (l ++ [EvUse o]).
Proof.
  intros I H. apply inv_emit; auto; cbn; auto.
  intros x E. apply Nat.eqb_eq in E. subst x. exists n. exact H.
Qed.

Lemma Inv_read next c l n o m p : Inv next c l -> c n = Some o -> Inv next c (l ++ [EvRead m o p]).
Proof.
  intros I H. apply inv_emit; auto; cbn; auto.
  intros x E. apply Nat.eqb_eq in E. subst x. exists n. exact H.
Qed.

Lemma Inv_del next c l n o : Inv next c l -> c n = Some o -> Inv next (up c n None) (l ++ [EvDel o]).
Proof. intros I H. apply (inv_end _ _ _ _ _ n o); auto. Qed.

Lemma Inv_flag next c l n b : Inv next c l -> Inv next c (l ++ [EvFlag n b]).
Proof. intros I. apply inv_emit; auto; cbn; auto; discriminate. Qed.

(* a fresh object is put in an empty place *)
Lemma Inv_put next c l n : Inv next c l -> c n = None -> Inv (S next) (up c n (Some next)) (l ++ [EvNew next]).
Proof. intros I H. apply (inv_receive _ _ ends_touches); auto. apply Inv_new; auto. Qed.

Lemma up_id (c : nat -> option nat) n s m : c n = s -> up c n s m = c m.
Proof. intros H. unfold up. destruct (Nat.eqb_spec m n); subst; auto. Qed.

Lemma up_up (c : nat -> option nat) n s t m : up (up c n s) n t m = up c n t m.
Proof. unfold up. destruct (Nat.eqb m n); auto. Qed.

(* relocation of what [s] owns into the empty place [n] *)
Lemma relocate_inv : forall reloc w s n o,
  Inv (w_next w) (own w) (w_log w) -> n <> s -> own w s = Some o -> own w n = None ->
  let '(w', v) := relocate reloc w (Some o) in
  exists o', v = Some o' /\ w_cells w' = w_cells w /\ w_fault w' = w_fault w /\
    flat_map observe (w_log w') = flat_map observe (w_log w) /\
    w_pay w' o' = w_pay w o /\
    (forall x, x <> o -> x < w_next w -> w_pay w' x = w_pay w x) /\
    Inv (w_next w') (up (up (own w) s None) n (Some o')) (w_log w').
Proof.
  intros reloc w s n o I Ne Ho Hn. unfold relocate. destruct reloc.
  - exists o. split; [auto|]. split; [auto|]. split; [auto|]. split; [auto|]. split; [auto|]. split; [auto|].
    eapply inv_ext; [|apply (inv_move ends touches (w_next w) (own w) (w_log w) n s I Ne Hn)].
    intros m. unfold up. rewrite Ho. destruct (Nat.eqb_spec m s), (Nat.eqb_spec m n); auto. congruence.
  - exists (w_next w). nrm.
    assert (Lt : o < w_next w).
    { destruct (inv_meaning _ _ ends_touches _ _ _ I) as (_ & _ & _ & A & _). destruct (A o s Ho); auto. }
    split; [reflexivity|]. split; [reflexivity|]. split; [reflexivity|].
    split. { rewrite !obs_app. cbn. now rewrite !app_nil_r. }
    split. { destruct (Nat.eqb_spec (w_next w) o); [lia|]. now rewrite Nat.eqb_refl. }
    split. { intros x N L. destruct (Nat.eqb_spec x o); [congruence|].
             destruct (Nat.eqb_spec x (w_next w)); [lia|auto]. }
    apply (inv_receive _ _ ends_touches).
    + apply Inv_del; auto. apply (Inv_use _ _ _ s); auto. apply Inv_new; auto.
    + unfold up. destruct (Nat.eqb_spec n s); auto.
Qed.

(* final assembly: the cells changed at [n] (and [s]) *)
Lemma own_plain w n o : w_cells w n = Some (CPlain o) -> own w n = Some o.
Proof. unfold own. intros ->. reflexivity. Qed.

Lemma cell_none w a n : J w a -> a_cells a n = None -> w_cells w n = None.
Proof.
  intros H E. pose proof (j_cells _ _ H n) as K. rewrite E in K.
  destruct (w_cells w n) as [[]|]; cbn in K; auto; contradiction.
Qed.

Lemma cell_acell w a n : J w a -> (a_cells a n = None <-> w_cells w n = None).
Proof.
  intros H. split; [apply cell_none; auto|]. intros E. pose proof (j_cells _ _ H n) as K. rewrite E in K.
  destruct (a_cells a n); cbn in K; auto; contradiction.
Qed.

Lemma new_case : forall w a n p c ac, J w a -> w_cells w n = None ->
  owner (Some c) = Some (w_next w) ->
  (forall w', w_pay w' (w_next w) = p -> crel w' (Some c) (Some ac)) ->
  J (set_cell (construct w p) n (Some c)) (aset a n (Some ac)).
Proof.
  intros w a n p c ac H Hn Hc Hr. constructor; nrm.
  - apply H.
  - intros m. destruct (Nat.eqb m n) eqn:E.
    + apply Hr. nrm. now rewrite Nat.eqb_refl.
    + eapply crel_pay; [apply (j_cells _ _ H)|]. intros o Ho. nrm.
      assert (o < w_next w) by (apply (own_lt _ _ m _ H); exact Ho).
      destruct (Nat.eqb_spec o (w_next w)); [lia|auto].
  - rewrite obs_app. cbn. rewrite app_nil_r. apply H.
  - eapply inv_ext; [|apply (Inv_put _ (own w) _ n)].
    + intros m. rewrite own_set, Hc. reflexivity.
    + apply H.
    + unfold own. rewrite Hn. reflexivity.
Qed.

(* [w'] relocated something from [s] to [n] *)
Lemma reloc_case : forall reloc w a n s o p v2,
  J w a -> n <> s -> own w s = Some o -> own w n = None -> a_cells a s = Some (AMov (Some p)) ->
  w_pay w o = p ->
  (forall w' v', relocate reloc w (Some o) = (w', v') ->
   J (set_cell (set_cell w' n (Some (CMov v' false))) s (Some (CMov v2 true)))
     (aset (aset a n (Some (AMov (Some p)))) s (Some (AMov None)))).
Proof.
  intros reloc w a n s o p v2 H Ne Ho Hn As Hp w' v' R.
  pose proof (relocate_inv reloc w s n o (j_inv _ _ H) Ne Ho Hn) as K. rewrite R in K.
  destruct K as (o' & -> & Ec & Ef & Eo & Ep & Ex & I). constructor; nrm.
  - rewrite Ef. apply H.
  - intros m. destruct (Nat.eqb_spec m s) as [->|N1]; [cbn; auto|].
    destruct (Nat.eqb_spec m n) as [->|N2].
    + cbn. split; auto. exists o'. split; auto. nrm. congruence.
    + rewrite Ec. eapply crel_pay; [apply (j_cells _ _ H)|]. intros x Hx. nrm. apply Ex.
      * intros ->. apply N1. apply (own_inj _ _ m s o H); auto.
      * apply (own_lt _ _ m _ H); auto.
  - rewrite Eo. apply H.
  - eapply inv_ext; [|exact I]. intros m.
    unfold up, own. cbn [set_cell w_cells]. rewrite Ec.
    destruct (Nat.eqb_spec m s), (Nat.eqb_spec m n); try congruence; destruct v2; reflexivity.
Qed.

(* the value of [n] is destroyed *)
Lemma destroy_case : forall w a n v o c ac, J w a -> w_cells w n = Some (CMov v false) -> v = Some o ->
  owner c = None -> (forall w', crel w' c ac) ->
  J (set_cell (destroy_value w v) n c) (aset a n ac).
Proof.
  intros w a n v o c ac H Hn -> Hc Hr. cbn [destroy_value]. constructor; nrm.
  - apply H.
  - intros m. destruct (Nat.eqb m n); [apply Hr|]. eapply crel_pay; [apply (j_cells _ _ H)|]. auto.
  - rewrite obs_app. cbn. rewrite app_nil_r. apply H.
  - eapply inv_ext; [|apply (Inv_del _ (own w) _ n o)].
    + intros m. rewrite own_set, Hc. reflexivity.
    + apply H.
    + unfold own. rewrite Hn. reflexivity.
Qed.

(* a variable that owns nothing changes to another such state *)
Lemma set_case : forall w a n c ac, J w a -> own w n = None -> owner c = None ->
  (forall w', crel w' c ac) -> J (set_cell w n c) (aset a n ac).
Proof.
  intros w a n c ac H Hn Hc Hr. constructor; nrm.
  - apply H.
  - intros m. destruct (Nat.eqb m n); [apply Hr|]. eapply crel_pay; [apply (j_cells _ _ H)|]. auto.
  - apply H.
  - eapply inv_ext; [|apply (j_inv _ _ H)]. intros m. rewrite own_set, Hc. symmetry. apply up_id. auto.
Qed.

(* nothing but an event without effect on values *)
Lemma emit_case : forall w a e x, J w a -> (forall b, ends b e = false) ->
  (forall b, touches b e = true -> exists n, own w n = Some b) -> observe e = x ->
  J (emit w e) (mkA (a_cells a) (a_obs a ++ x)).
Proof.
  intros w a e x H En To Ox. constructor; nrm.
  - apply H.
  - intros m. eapply crel_pay; [apply (j_cells _ _ H)|]. auto.
  - rewrite obs_app, Ox. f_equal. apply H.
  - apply inv_emit; auto. apply H.
Qed.

Lemma J_ext w a a' : J w a -> (forall n, a_cells a n = a_cells a' n) -> a_obs a = a_obs a' -> J w a'.
Proof.
  intros H E O. constructor.
  - apply H.
  - intros n. rewrite <- E. apply H.
  - rewrite <- O. apply H.
  - apply H.
Qed.

Lemma use_case : forall w a n o, J w a -> own w n = Some o -> J (emit w (EvUse o)) a.
Proof.
  intros w a n o H Ho. eapply J_ext; [apply (emit_case w a (EvUse o) []); auto| |].
  - cbn. intros b E. apply Nat.eqb_eq in E. subst. eauto.
  - reflexivity.
  - cbn. apply app_nil_r.
Qed.

Lemma emit_cells w e : w_cells (emit w e) = w_cells w. Proof. reflexivity. Qed.

Lemma mov_empty w a n v vl : J w a -> w_cells w n = Some (CMov v vl) -> a_cells a n = Some (AMov None) -> vl = true.
Proof. intros H E A. pose proof (j_cells _ _ H n) as K. rewrite E, A in K. exact K. Qed.

Lemma mov_full w a n v vl p : J w a -> w_cells w n = Some (CMov v vl) -> a_cells a n = Some (AMov (Some p)) ->
  vl = false /\ exists o, v = Some o /\ w_pay w o = p /\ own w n = Some o.
Proof.
  intros H E A. pose proof (j_cells _ _ H n) as K. rewrite E, A in K. destruct K as (-> & o & -> & K).
  split; auto. exists o. repeat (split; auto). unfold own. rewrite E. reflexivity.
Qed.

Lemma own_vl w n v : w_cells w n = Some (CMov v true) -> own w n = None.
Proof. unfold own. intros ->. destruct v; reflexivity. Qed.

(* shape of a live variable *)
Lemma shape w a n c : J w a -> w_cells w n = Some c ->
  (exists v vl x, c = CMov v vl /\ a_cells a n = Some (AMov x)) \/
  (exists o p, c = CPlain o /\ a_cells a n = Some (APlain p) /\ w_pay w o = p).
Proof.
  intros H E. pose proof (j_cells _ _ H n) as K. rewrite E in K.
  destruct c as [v vl|o], (a_cells a n) as [[[p|]|p]|]; cbn in K; try contradiction; eauto 8.
Qed.

Lemma relocate_set r w n c v :
  relocate r (set_cell w n c) v = let '(w', v') := relocate r w v in (set_cell w' n c, v').
Proof. destruct v, r; reflexivity. Qed.

Lemma J_wext w w' a : J w a -> w_fault w = w_fault w' -> w_next w = w_next w' ->
  (forall x, w_pay w x = w_pay w' x) -> w_log w = w_log w' ->
  (forall n, w_cells w n = w_cells w' n) -> J w' a.
Proof.
  intros H F N P L C. constructor.
  - rewrite <- F. apply H.
  - intros n. rewrite <- C. eapply crel_pay; [apply (j_cells _ _ H)|]. auto.
  - rewrite <- L. apply H.
  - rewrite <- L, <- N. eapply inv_ext; [|apply (j_inv _ _ H)]. intros n. unfold own. now rewrite C.
Qed.

Theorem step_J : forall reloc w a o a', J w a -> astep a o = Some a' -> J (step reloc w o) a'.
Proof.
  intros reloc w a o a' H E.
  destruct o as [n p|n p|n s|n s|n s thr|n s thr|n|n p|n|n p|n|n]; cbn [step astep] in *.
  - (* new *)
    destruct (w_cells w n) as [c|] eqn:Wn.
    + destruct (shape _ _ _ _ H Wn) as [(v & vl & x & -> & A)|(o & q & -> & A & _)];
        rewrite A in E; injection E as <-; exact H.
    + rewrite (proj2 (cell_acell _ _ _ H) Wn) in E. injection E as <-.
      unfold m_new. apply new_case; auto. cbn. intros w' <-. eauto.
  - (* take from slot *)
    destruct (w_cells w n) as [c|] eqn:Wn.
    + destruct (shape _ _ _ _ H Wn) as [(v & vl & x & -> & A)|(o & q & -> & A & _)];
        rewrite A in E; injection E as <-; exact H.
    + rewrite (proj2 (cell_acell _ _ _ H) Wn) in E. injection E as <-.
      unfold m_take, relocate. destruct reloc.
      * apply new_case; auto. cbn. intros w' <-. eauto.
      * constructor; nrm.
        -- apply H.
        -- intros m. destruct (Nat.eqb_spec m n) as [->|N].
           ++ cbn. split; auto. exists (S (w_next w)). split; auto.
              rewrite Nat.eqb_refl. rewrite (proj2 (Nat.eqb_neq (S (w_next w)) (w_next w))) by lia.
              rewrite Nat.eqb_refl. reflexivity.
           ++ eapply crel_pay; [apply (j_cells _ _ H)|]. intros o Ho. nrm.
              assert (o < w_next w) by (apply (own_lt _ _ m _ H); exact Ho).
              destruct (Nat.eqb_spec o (w_next w)); [lia|].
              destruct (Nat.eqb_spec o (S (w_next w))); [lia|auto].
        -- rewrite !obs_app. cbn. rewrite !app_nil_r. apply H.
        -- assert (On : own w n = None) by (unfold own; rewrite Wn; reflexivity).
           pose proof (Inv_put _ _ _ n (j_inv _ _ H) On) as I1.
           apply (Inv_new _ _ _ (S (w_next w))) in I1.
           apply (Inv_use _ _ _ n (w_next w)) in I1; [|unfold up; rewrite Nat.eqb_refl; auto].
           apply (Inv_del _ _ _ n (w_next w)) in I1; [|unfold up; rewrite Nat.eqb_refl; auto].
           apply (inv_receive _ _ ends_touches _ _ _ n) in I1; [|unfold up; rewrite Nat.eqb_refl; auto].
           eapply inv_ext; [|exact I1]. intros m. rewrite own_set. cbn [owner].
           unfold up, own. cbn. destruct (Nat.eqb m n); auto.
  - (* move ctor *)
    destruct (w_cells w n) as [c|] eqn:Wn.
    { destruct (shape _ _ _ _ H Wn) as [(v & vl & x & -> & A)|(o & q & -> & A & _)];
        rewrite A in E; injection E as <-; exact H. }
    rewrite (proj2 (cell_acell _ _ _ H) Wn) in E.
    destruct (w_cells w s) as [c|] eqn:Ws.
    2:{ rewrite (proj2 (cell_acell _ _ _ H) Ws) in E. injection E as <-. exact H. }
    destruct (shape _ _ _ _ H Ws) as [(v & vl & x & -> & A)|(o & q & -> & A & _)];
      rewrite A in E; injection E as <-; [|exact H].
    assert (Ne : n <> s) by congruence.
    assert (On : own w n = None) by (unfold own; rewrite Wn; reflexivity).
    unfold m_move_ctor. destruct x as [p|].
    + destruct (mov_full _ _ _ _ _ _ H Ws A) as (-> & o & -> & Hp & Ho). cbn [negb].
      destruct (relocate reloc w (Some o)) as [w' v'] eqn:R.
      apply (reloc_case reloc w a n s o p (Some o) H Ne Ho On A Hp w' v' R).
    + pose proof (mov_empty _ _ _ _ _ H Ws A) as Vvl; subst vl. cbn [negb].
      eapply J_ext; [apply (set_case w a n (Some (CMov None true)) (Some (AMov None)) H On)| |]; cbn; auto.
      intros m. destruct (Nat.eqb_spec m s) as [->|]; auto.
      destruct (Nat.eqb_spec s n); congruence.
  - (* move assign *)
    destruct (w_cells w n) as [c|] eqn:Wn.
    2:{ rewrite (proj2 (cell_acell _ _ _ H) Wn) in E. injection E as <-. exact H. }
    destruct (shape _ _ _ _ H Wn) as [(v & vl & x & -> & A)|(o & q & -> & A & _)];
      rewrite A in E; [|injection E as <-; exact H].
    destruct (w_cells w s) as [c|] eqn:Ws.
    2:{ rewrite (proj2 (cell_acell _ _ _ H) Ws) in E. injection E as <-. exact H. }
    destruct (shape _ _ _ _ H Ws) as [(v2 & vl2 & x2 & -> & A2)|(o & q & -> & A2 & _)];
      rewrite A2 in E; injection E as <-; [|exact H].
    unfold m_move_assign. destruct (Nat.eqb_spec n s) as [Eq|Ne]; [exact H|].
    (* first, the old value goes *)
    set (w1 := if negb vl then destroy_value w v else w).
    assert (C1 : w_cells w1 = w_cells w) by (unfold w1, destroy_value; destruct vl, v; reflexivity).
    assert (H1 : J (set_cell w1 n (Some (CMov v true))) (aset a n (Some (AMov None)))).
    { unfold w1. destruct x as [p|].
      - destruct (mov_full _ _ _ _ _ _ H Wn A) as (-> & o & -> & Hp & Ho). cbn [negb].
        apply (destroy_case w a n (Some o) o); auto. intros w'. exact eq_refl.
      - pose proof (mov_empty _ _ _ _ _ H Wn A) as Vvl; subst vl. cbn [negb].
        apply set_case; [exact H|eapply own_vl; eauto|destruct v; reflexivity|intros w'; exact eq_refl]. }
    set (w2 := set_cell w1 n (Some (CMov v true))) in *.
    assert (Ws2 : w_cells w2 s = Some (CMov v2 vl2)).
    { cbn. rewrite C1. destruct (Nat.eqb_spec s n); [congruence|auto]. }
    assert (As2 : a_cells (aset a n (Some (AMov None))) s = Some (AMov x2)).
    { cbn. destruct (Nat.eqb_spec s n); [congruence|auto]. }
    assert (On2 : own w2 n = None).
    { unfold own. cbn. rewrite Nat.eqb_refl. destruct v; auto. }
    destruct x2 as [p|].
    + destruct (mov_full _ _ _ _ _ _ H1 Ws2 As2) as (-> & o & -> & Hp & Ho). cbn [negb].
      destruct (relocate reloc w1 (Some o)) as [w' v'] eqn:R.
      assert (R2 : relocate reloc w2 (Some o) = (set_cell w' n (Some (CMov v true)), v')).
      { unfold w2. rewrite relocate_set, R. reflexivity. }
      pose proof (reloc_case reloc w2 _ n s o p (Some o) H1 Ne Ho On2 As2 Hp _ _ R2) as K.
      eapply J_wext; [eapply J_ext; [exact K| |]| | | | |]; try reflexivity.
      * intros m. cbn. destruct (Nat.eqb m s); auto. destruct (Nat.eqb m n); auto.
      * intros m. cbn. destruct (Nat.eqb m s); auto. destruct (Nat.eqb m n); auto.
    + pose proof (mov_empty _ _ _ _ _ H1 Ws2 As2) as Vvl2; subst vl2. cbn [negb].
      eapply J_ext; [exact H1| |]; [|reflexivity].
      intros m. cbn. destruct (Nat.eqb_spec m s) as [->|]; auto.
  - (* copy ctor *)
    destruct (w_cells w n) as [c|] eqn:Wn.
    { destruct (shape _ _ _ _ H Wn) as [(v & vl & x & -> & A)|(o & q & -> & A & _)];
        rewrite A in E; injection E as <-; exact H. }
    rewrite (proj2 (cell_acell _ _ _ H) Wn) in E.
    destruct (w_cells w s) as [c|] eqn:Ws.
    2:{ rewrite (proj2 (cell_acell _ _ _ H) Ws) in E. injection E as <-. exact H. }
    destruct (shape _ _ _ _ H Ws) as [(v & vl & x & -> & A)|(o & q & -> & A & _)];
      rewrite A in E; [|injection E as <-; exact H].
    assert (On : own w n = None) by (unfold own; rewrite Wn; reflexivity).
    unfold m_copy_ctor. destruct x as [p|]; injection E as <-.
    + destruct (mov_full _ _ _ _ _ _ H Ws A) as (-> & o & -> & Hp & Ho). cbn [negb copy_value].
      pose proof (use_case _ _ _ _ H Ho) as H1. destruct thr; [exact H1|].
      rewrite <- Hp. change (w_pay w o) with (w_pay (emit w (EvUse o)) o).
      apply new_case; auto. cbn. intros w' <-. eauto.
    + pose proof (mov_empty _ _ _ _ _ H Ws A) as Vvl; subst vl. cbn [negb].
      apply set_case; auto. intros w'. exact eq_refl.
  - (* copy assign *)
    destruct (w_cells w n) as [c|] eqn:Wn.
    2:{ rewrite (proj2 (cell_acell _ _ _ H) Wn) in E. injection E as <-. exact H. }
    destruct (shape _ _ _ _ H Wn) as [(v & vl & x & -> & A)|(o & q & -> & A & _)];
      rewrite A in E; [|injection E as <-; exact H].
    destruct (w_cells w s) as [c|] eqn:Ws.
    2:{ rewrite (proj2 (cell_acell _ _ _ H) Ws) in E. injection E as <-. exact H. }
    destruct (shape _ _ _ _ H Ws) as [(v2 & vl2 & x2 & -> & A2)|(o & q & -> & A2 & _)];
      rewrite A2 in E; [|injection E as <-; exact H].
    unfold m_copy_assign. destruct (Nat.eqb_spec n s) as [<-|Ne].
    { assert (x2 = x) by congruence. subst x2.
      eapply J_ext; [exact H| |].
      - intros m. destruct x as [p|]; [destruct thr|]; injection E as <-; auto;
          cbn; destruct (Nat.eqb_spec m n); subst; auto.
      - destruct x as [p|]; [destruct thr|]; injection E as <-; auto. }
    destruct x as [p|], x2 as [p2|]; injection E as <-.
    + destruct (mov_full _ _ _ _ _ _ H Wn A) as (-> & o & -> & Hp & Ho).
      destruct (mov_full _ _ _ _ _ _ H Ws A2) as (-> & o2 & -> & Hp2 & Ho2). cbn [negb andb].
      pose proof (use_case _ _ _ _ (use_case _ _ _ _ H Ho) Ho2) as H1.
      destruct thr; [exact H1|].
      constructor; cbn [set_pay w_fault w_cells w_log w_next a_obs aset].
      * apply H1.
      * intros m. unfold aset at 1. cbn [a_cells]. destruct (Nat.eqb_spec m n) as [->|N].
        -- rewrite emit_cells, emit_cells, Wn. refine (conj eq_refl (ex_intro _ o (conj eq_refl _))).
           cbn. rewrite Nat.eqb_refl. exact Hp2.
        -- eapply crel_pay; [apply (j_cells _ _ H1)|]. intros y Hy. cbn.
           destruct (Nat.eqb_spec y o) as [->|]; auto.
           exfalso. apply N. apply (own_inj _ _ m n o H1); auto.
      * apply H1.
      * apply H1.
    + destruct (mov_full _ _ _ _ _ _ H Wn A) as (-> & o & -> & Hp & Ho).
      pose proof (mov_empty _ _ _ _ _ H Ws A2) as Vvl2; subst vl2. cbn [negb andb].
      apply (destroy_case w a n (Some o) o); auto. intros w'. exact eq_refl.
    + pose proof (mov_empty _ _ _ _ _ H Wn A) as Vvl; subst vl.
      destruct (mov_full _ _ _ _ _ _ H Ws A2) as (-> & o & -> & Hp & Ho). cbn [negb andb copy_value].
      pose proof (use_case _ _ _ _ H Ho) as H1. destruct thr; [exact H1|].
      rewrite <- Hp. change (w_pay w o) with (w_pay (emit w (EvUse o)) o).
      (* n owns nothing: its stale bits are overwritten *)
      assert (On : own w n = None) by (eapply own_vl; eauto).
      constructor; nrm.
      * apply H.
      * intros m. destruct (Nat.eqb_spec m n) as [->|N].
        -- cbn. split; auto. eexists. split; eauto. now rewrite Nat.eqb_refl.
        -- eapply crel_pay; [apply (j_cells _ _ H)|]. intros y Hy. nrm.
           assert (y < w_next w) by (apply (own_lt _ _ m _ H); exact Hy).
           destruct (Nat.eqb_spec y (w_next w)); [lia|auto].
      * rewrite !obs_app. cbn. rewrite !app_nil_r. apply H.
      * pose proof (Inv_put _ _ _ n (Inv_use _ _ _ _ _ (j_inv _ _ H) Ho) On) as I1.
        eapply inv_ext; [|exact I1]. intros m. rewrite own_set. reflexivity.
    + pose proof (mov_empty _ _ _ _ _ H Wn A) as Vvl; subst vl. pose proof (mov_empty _ _ _ _ _ H Ws A2) as Vvl2; subst vl2. cbn [negb andb].
      eapply J_ext; [exact H| |reflexivity].
      intros m. cbn. destruct (Nat.eqb_spec m n); subst; auto.
  - (* flag *)
    destruct (w_cells w n) as [c|] eqn:Wn.
    2:{ rewrite (proj2 (cell_acell _ _ _ H) Wn) in E. injection E as <-. exact H. }
    destruct (shape _ _ _ _ H Wn) as [(v & vl & x & -> & A)|(o & q & -> & A & _)];
      rewrite A in E; injection E as <-; [|exact H].
    apply emit_case; auto; [cbn; discriminate|]. cbn. destruct x as [p|].
    + destruct (mov_full _ _ _ _ _ _ H Wn A) as (-> & _). reflexivity.
    + rewrite (mov_empty _ _ _ _ _ H Wn A). reflexivity.
  - (* plain new *)
    destruct (w_cells w n) as [c|] eqn:Wn.
    + destruct (shape _ _ _ _ H Wn) as [(v & vl & x & -> & A)|(o & q & -> & A & _)];
        rewrite A in E; injection E as <-; exact H.
    + rewrite (proj2 (cell_acell _ _ _ H) Wn) in E. injection E as <-.
      apply new_case; auto.
  - (* pass *)
    destruct (w_cells w n) as [c|] eqn:Wn.
    2:{ rewrite (proj2 (cell_acell _ _ _ H) Wn) in E. injection E as <-. exact H. }
    destruct (shape _ _ _ _ H Wn) as [(v & vl & x & -> & A)|(o & q & -> & A & Hq)];
      rewrite A in E; injection E as <-; [exact H|].
    assert (Ho : own w n = Some o) by (apply own_plain; auto).
    assert (Lt := own_lt _ _ _ _ H Ho).
    unfold p_pass. constructor; nrm.
    + apply H.
    + intros m. destruct (Nat.eqb_spec m n) as [->|N].
      * rewrite Wn. cbn. now rewrite Nat.eqb_refl.
      * eapply crel_pay; [apply (j_cells _ _ H)|]. intros y Hy. nrm.
        assert (y < w_next w) by (apply (own_lt _ _ m _ H); exact Hy).
        destruct (Nat.eqb_spec y o) as [->|].
        { exfalso. apply N. apply (own_inj _ _ m n o H); auto. }
        destruct (Nat.eqb_spec y (w_next w)); [lia|auto].
    + rewrite !obs_app. cbn. rewrite !app_nil_r, Hq. f_equal. apply H.
    + apply (inv_flash _ _ ends_touches); auto.
      apply (Inv_use _ _ _ n); auto. apply Inv_new. apply H.
  - (* return *)
    destruct (w_cells w n) as [c|] eqn:Wn.
    + destruct (shape _ _ _ _ H Wn) as [(v & vl & x & -> & A)|(o & q & -> & A & _)];
        rewrite A in E; injection E as <-; exact H.
    + rewrite (proj2 (cell_acell _ _ _ H) Wn) in E. injection E as <-.
      unfold p_return. destruct reloc.
      * apply new_case; auto.
      * constructor; nrm.
        -- apply H.
        -- intros m. destruct (Nat.eqb_spec m n) as [->|N].
           ++ cbn [crel]. nrm. rewrite Nat.eqb_refl. rewrite (proj2 (Nat.eqb_neq (S (w_next w)) (w_next w))) by lia.
              rewrite Nat.eqb_refl. reflexivity.
           ++ eapply crel_pay; [apply (j_cells _ _ H)|]. intros o Ho. nrm.
              assert (o < w_next w) by (apply (own_lt _ _ m _ H); exact Ho).
              destruct (Nat.eqb_spec o (w_next w)); [lia|].
              destruct (Nat.eqb_spec o (S (w_next w))); [lia|auto].
        -- rewrite !obs_app. cbn. rewrite !app_nil_r. apply H.
        -- assert (On : own w n = None) by (unfold own; rewrite Wn; reflexivity).
           pose proof (Inv_put _ _ _ n (j_inv _ _ H) On) as I1.
           apply (Inv_new _ _ _ (S (w_next w))) in I1.
           apply (Inv_use _ _ _ n (w_next w)) in I1; [|unfold up; rewrite Nat.eqb_refl; auto].
           apply (Inv_del _ _ _ n (w_next w)) in I1; [|unfold up; rewrite Nat.eqb_refl; auto].
           apply (inv_receive _ _ ends_touches _ _ _ n) in I1; [|unfold up; rewrite Nat.eqb_refl; auto].
           eapply inv_ext; [|exact I1]. intros m. rewrite own_set. cbn [owner].
           unfold up, own. cbn. destruct (Nat.eqb m n); auto.
  - (* read *)
    destruct (w_cells w n) as [c|] eqn:Wn.
    2:{ rewrite (proj2 (cell_acell _ _ _ H) Wn) in E. injection E as <-. exact H. }
    destruct (shape _ _ _ _ H Wn) as [(v & vl & x & -> & A)|(o & q & -> & A & Hq)]; rewrite A in E.
    + destruct x as [p|]; [|discriminate]. injection E as <-.
      destruct (mov_full _ _ _ _ _ _ H Wn A) as (-> & o & -> & Hp & Ho). cbn [m_read]. rewrite Hp.
      apply emit_case; auto. cbn. intros b Eb. apply Nat.eqb_eq in Eb. subst. eauto.
    + injection E as <-. rewrite Hq.
      apply emit_case; auto. cbn. intros b Eb. apply Nat.eqb_eq in Eb. subst b. exists n. apply own_plain; auto.
  - (* destroy *)
    injection E as <-.
    destruct (w_cells w n) as [c|] eqn:Wn.
    2:{ eapply J_ext; [exact H| |reflexivity]. intros m. cbn.
        destruct (Nat.eqb_spec m n); subst; auto. apply (cell_acell _ _ _ H); auto. }
    destruct (shape _ _ _ _ H Wn) as [(v & vl & x & -> & A)|(o & q & -> & A & Hq)].
    + unfold m_destroy. destruct x as [p|].
      * destruct (mov_full _ _ _ _ _ _ H Wn A) as (-> & o & -> & Hp & Ho). cbn [negb].
        apply (destroy_case w a n (Some o) o); auto. intros w'. exact Logic.I.
      * pose proof (mov_empty _ _ _ _ _ H Wn A) as Vvl; subst vl. cbn [negb].
        apply set_case; [exact H|eapply own_vl; eauto|reflexivity|intros w'; exact Logic.I].
    + constructor; nrm.
      * apply H.
      * intros m. destruct (Nat.eqb m n); [exact Logic.I|]. eapply crel_pay; [apply (j_cells _ _ H)|]. auto.
      * rewrite obs_app. cbn. rewrite app_nil_r. apply H.
      * eapply inv_ext; [|apply (Inv_del _ (own w) _ n o)].
        -- intros m. rewrite own_set. reflexivity.
        -- apply H.
        -- apply own_plain; auto.
Qed.

Lemma run_J : forall reloc ops w a a', J w a -> arun_from a ops = Some a' ->
  J (fold_left (step reloc) ops w) a'.
Proof.
  induction ops as [|o r IH]; cbn; intros w a a' H E.
  - injection E as <-. exact H.
  - destruct (astep a o) as [a1|] eqn:A; [|discriminate].
    apply (IH _ a1); auto. eapply step_J; eauto.
Qed.
