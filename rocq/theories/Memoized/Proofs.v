From Coq Require Import List Arith Bool Lia.
From Verif.Memoized Require Import Model Spec.
Import ListNotations.
Set Implicit Arguments.

Section Proofs.
  Context {K V : Type}.
  Variable eq_dec : forall x y : K, {x = y} + {x <> y}.
  Variable body : K -> prog K V.
  Variable cd : K -> option V.
  Notation call := (call eq_dec body cd).
  Notation lookup := (lookup eq_dec).
  Notation update := (update eq_dec).
  Notation remove := (remove eq_dec).
  Notation state := (@state K V).

  (** ** Association lists *)
  Lemma Forall2_length {X Y} (P : X -> Y -> Prop) a b : Forall2 P a b -> length a = length b.
  Proof. induction 1; cbn; congruence. Qed.
  Lemma NoDup_app_l {T} (a b : list T) : NoDup (a ++ b) -> NoDup a.
  Proof.
    induction a as [|x a IH]; cbn; intro H; [constructor|]. inversion H; subst.
    constructor; [rewrite in_app_iff in *; tauto|auto].
  Qed.
  Lemma lookup_In {T} (m : list (K * T)) k v : lookup m k = Some v -> In (k, v) m.
  Proof.
    induction m as [|[a b] m IH]; cbn; [discriminate|].
    destruct (eq_dec k a) as [->|]; [intros [= ->]; auto|auto].
  Qed.
  Lemma lookup_None {T} (m : list (K * T)) k : lookup m k = None <-> ~ In k (map fst m).
  Proof.
    induction m as [|[a b] m IH]; cbn; [tauto|].
    destruct (eq_dec k a) as [->|]; [split; [discriminate|tauto]|].
    rewrite IH. intuition congruence.
  Qed.
  Lemma In_lookup {T} (m : list (K * T)) k v : NoDup (map fst m) -> In (k, v) m -> lookup m k = Some v.
  Proof.
    induction m as [|[a b] m IH]; cbn; [tauto|]. intros Hnd H. inversion Hnd; subst.
    destruct H as [[= -> ->]|H].
    - destruct (eq_dec k k); congruence.
    - destruct (eq_dec k a) as [->|]; [|auto]. exfalso. apply H2.
      apply in_map_iff. exists (a, v). auto.
  Qed.
  Lemma update_fst {T} (m : list (K * T)) k v : map fst (update m k v) = map fst m.
  Proof.
    induction m as [|[a b] m IH]; cbn; [reflexivity|]. destruct (eq_dec k a); cbn; congruence.
  Qed.
  Lemma remove_id {T} (m : list (K * T)) k : ~ In k (map fst m) -> remove m k = m.
  Proof.
    induction m as [|[a b] m IH]; cbn; [reflexivity|]. intro H.
    destruct (eq_dec k a) as [->|]; [tauto|]. rewrite IH; tauto.
  Qed.

  (** ** Flags *)
  Definition yes (a : list (K * bool)) : nat := length (filter snd a).
  Arguments yes : simpl never.
  Definition flag_le (a a' : list (K * bool)) : Prop :=
    Forall2 (fun x y => fst x = fst y /\ (snd x = true -> snd y = true)) a a'.
  Lemma flag_le_refl a : flag_le a a.
  Proof. induction a; constructor; auto. Qed.
  Lemma flag_le_trans a b c : flag_le a b -> flag_le b c -> flag_le a c.
  Proof.
    intro H. revert c. induction H as [|x y a b [H1 H2] _ IH]; intros c Hc; inversion Hc; subst; constructor.
    - destruct H3 as [H3 H4]. split; [congruence|auto].
    - apply IH. assumption.
  Qed.
  Lemma flag_le_fst a b : flag_le a b -> map fst a = map fst b.
  Proof. induction 1 as [|x y a b [H _] _ IH]; cbn; congruence. Qed.
  Lemma flag_le_yes a b : flag_le a b -> yes a <= yes b.
  Proof.
    unfold yes. induction 1 as [|[k x] [k' y] a b [H1 H2] _ IH]; cbn in *; [lia|].
    destruct x; [rewrite H2 by reflexivity; cbn; lia|]. destruct y; cbn; lia.
  Qed.
  Lemma update_flag_le a k : flag_le a (update a k true).
  Proof.
    induction a as [|[k' b] a IH]; cbn; [constructor|]. destruct (eq_dec k k') as [->|].
    - constructor; [cbn; auto|apply flag_le_refl].
    - constructor; [cbn; auto|exact IH].
  Qed.
  Lemma yes_update a k fc : lookup a k = Some fc ->
    yes (update a k true) = if fc then yes a else S (yes a).
  Proof.
    unfold yes. induction a as [|[k' b] a IH]; cbn; [discriminate|].
    destruct (eq_dec k k') as [->|].
    - intros [= ->]. cbn. destruct fc; reflexivity.
    - intro H. cbn. destruct b; cbn; rewrite (IH H); destruct fc; reflexivity.
  Qed.

  (** ** Invariant (C08) *)
  Record inv (s : state) : Prop := {
    I_memo : NoDup (map fst (memo s));
    I_act : NoDup (map fst (active s));
    I_disj : forall k, In k (map fst (memo s)) -> ~ In k (map fst (active s));
    I_cnt : unwinding s = yes (active s)
  }.

  Definition good (s : state) (r : @result K V) : Prop :=
    match r with
    | RVal v s' => inv s' /\ flag_le (active s) (active s') /\ incl (memo s) (memo s')
    | RCyclePanic _ => True
    | RExpectPanic => False
    | RUnderflow => False
    | ROutOfFuel => True
    end.

  Lemma good_rbind s r f : good s r ->
    (forall v s', r = RVal v s' -> good s' (f v s')) -> good s (rbind r f).
  Proof.
    destruct r as [v s1| | | |]; cbn; auto. intros (H1 & H2 & H3) Hf.
    specialize (Hf v s1 eq_refl). destruct (f v s1); cbn in *; auto.
    destruct Hf as (F1 & F2 & F3). split; [exact F1|]. split; [eapply flag_le_trans; eauto|].
    eapply incl_tran; eauto.
  Qed.

  Lemma exec_good callf : (forall s k, inv s -> good s (callf s k)) ->
    forall p s, inv s -> good s (exec callf p s).
  Proof.
    intros Hc p. induction p as [v|k cont IH]; intros s Hs; cbn.
    - split; [exact Hs|]. split; [apply flag_le_refl|apply incl_refl].
    - apply good_rbind; [now apply Hc|]. intros v s' E. apply IH.
      specialize (Hc s k Hs). rewrite E in Hc. apply Hc.
  Qed.

  Lemma inv_push s k : inv s -> lookup (memo s) k = None -> lookup (active s) k = None ->
    inv (St (memo s) ((k, false) :: active s) (unwinding s)).
  Proof.
    intros [I1 I2 I3 I4] Em Ea. apply lookup_None in Em, Ea. constructor; cbn; auto.
    - constructor; assumption.
    - intros k' Hk' [->|H]; [contradiction|]. eapply I3; eauto.
  Qed.

  (** shape of the state after the body of [k] *)
  Lemma active_pop k a0 a : ~ In k (map fst a0) -> flag_le ((k, false) :: a0) a ->
    exists fc a', a = (k, fc) :: a' /\ flag_le a0 a' /\ lookup a k = Some fc /\ remove a k = a'.
  Proof.
    intros Hk H. inversion H as [|x [k' fc] l a' [H1 H2] H3]; subst. cbn in H1. subst k'.
    exists fc, a'. split; [reflexivity|]. split; [exact H3|]. cbn.
    destruct (eq_dec k k); [|congruence]. split; [reflexivity|]. apply remove_id.
    apply flag_le_fst in H3. congruence.
  Qed.

  Lemma inv_pop k fc a' s1 :
    inv s1 -> active s1 = (k, fc) :: a' ->
    (fc = true -> unwinding s1 <> 0) /\
    forall v, inv (St (if Nat.eqb (if fc then pred (unwinding s1) else unwinding s1) 0
                       then (k, v) :: memo s1 else memo s1) a'
                      (if fc then pred (unwinding s1) else unwinding s1)).
  Proof.
    intros [I1 I2 I3 I4] Ea. rewrite Ea in *. cbn in I2. inversion I2 as [|? ? N1 N2]; subst.
    assert (Hy : unwinding s1 = (if fc then 1 else 0) + yes a').
    { rewrite I4. unfold yes. cbn. destruct fc; reflexivity. }
    split; [intros ->; cbn in Hy; lia|]. intro v. constructor; cbn.
    - destruct (Nat.eqb _ 0); [|exact I1]. cbn. constructor; [|exact I1].
      intro H. apply (I3 _ H). now left.
    - exact N2.
    - intros k' Hk'. destruct (Nat.eqb _ 0); cbn in Hk'.
      + destruct Hk' as [<-|Hk']; [exact N1|]. intro H. apply (I3 _ Hk'). now right.
      + intro H. apply (I3 _ Hk'). now right.
    - rewrite Hy. destruct fc; reflexivity.
  Qed.

  Lemma call_good : forall fuel s k, inv s -> good s (call fuel s k).
  Proof.
    induction fuel as [|fuel IH]; intros s k Hs; cbn [Model.call];
      (destruct (lookup (memo s) k) as [v|] eqn:Em;
       [cbn; split; [exact Hs|split; [apply flag_le_refl|apply incl_refl]]|]);
      (destruct (lookup (active s) k) as [fc|] eqn:Ea;
       [destruct (cd k); cbn; [|exact I]|]).
    1,3: (split; [|split; [apply update_flag_le|apply incl_refl]];
      destruct Hs as [I1 I2 I3 I4]; constructor; cbn; rewrite ?update_fst; auto;
      rewrite (yes_update _ _ Ea), I4; reflexivity).
    - exact I.
    - pose proof (inv_push _ Hs Em Ea) as Hp.
      pose proof (exec_good (call fuel) IH (body k) Hp) as HG.
      destruct (exec (call fuel) (body k) _) as [v s1| | | |]; cbn in *; auto.
      destruct HG as (G1 & G2 & G3).
      apply lookup_None in Ea.
      destruct (active_pop Ea G2) as (fc & a' & E1 & E2 & E3 & E4).
      rewrite E3, E4. destruct (inv_pop G1 E1) as [Hu Hi].
      assert (Hfin : good s (RVal v (St (if Nat.eqb (if fc then pred (unwinding s1) else unwinding s1) 0
                       then (k, v) :: memo s1 else memo s1) a'
                      (if fc then pred (unwinding s1) else unwinding s1)))).
      { cbn. split; [apply Hi|]. split; [exact E2|]. destruct (Nat.eqb _ 0); [apply incl_tl|]; exact G3. }
      destruct fc; [|exact Hfin]. destruct (unwinding s1) eqn:Eu; [exfalso; now apply Hu|exact Hfin].
  Qed.

  Lemma inv_top M : NoDup (map fst M) -> inv (St M [] 0).
  Proof. intro H. constructor; cbn; auto; constructor. Qed.

  Lemma top_state s : inv s -> active s = [] -> s = St (memo s) [] 0.
  Proof.
    intros [_ _ _ I4] E. destruct s as [m a u]; cbn in *. subst a. rewrite I4. reflexivity.
  Qed.

  (** ** Executions do not read the outer part of the stack unless they flag it (C07) *)
  Definition outer_clean (O : list (K * bool)) := yes O = 0.

  Lemma lookup_app {T} (a b : list (K * T)) k :
    lookup (a ++ b) k = match lookup a k with Some v => Some v | None => lookup b k end.
  Proof. induction a as [|[x y] a IH]; cbn; [reflexivity|]. destruct (eq_dec k x); auto. Qed.
  Lemma update_app_l {T} (a b : list (K * T)) k v : In k (map fst a) ->
    update (a ++ b) k v = update a k v ++ b.
  Proof.
    induction a as [|[x y] a IH]; cbn; [tauto|]. intro H. destruct (eq_dec k x) as [->|]; [reflexivity|].
    rewrite IH; [reflexivity|]. destruct H; congruence.
  Qed.
  Lemma update_app_r {T} (a b : list (K * T)) k v : ~ In k (map fst a) ->
    update (a ++ b) k v = a ++ update b k v.
  Proof.
    induction a as [|[x y] a IH]; cbn; [reflexivity|]. intro H. destruct (eq_dec k x) as [->|]; [tauto|].
    rewrite IH; tauto.
  Qed.
  Lemma flag_le_app_inv A O s' : flag_le (A ++ O) s' ->
    exists A' O', s' = A' ++ O' /\ flag_le A A' /\ flag_le O O'.
  Proof.
    intro H. apply Forall2_app_inv_l in H. destruct H as (A' & O' & H1 & H2 & ->). eauto.
  Qed.
  Lemma yes_app a b : yes (a ++ b) = yes a + yes b.
  Proof. unfold yes. rewrite filter_app, app_length. reflexivity. Qed.

  (** If the outer part [O] of the active stack ends unflagged, the same run
      without [O] gives the same value, cache and inner stack. *)
  Definition frame_prop (f : state -> @result K V) : Prop :=
    forall M A O v M' A' O' c c',
      inv (St M (A ++ O) c) ->
      f (St M (A ++ O) c) = RVal v (St M' (A' ++ O') c') ->
      length A' = length A -> yes O' = 0 ->
      f (St M A (yes A)) = RVal v (St M' A' (yes A')).

  Lemma inv_inner M A O c : inv (St M (A ++ O) c) -> inv (St M A (yes A)).
  Proof.
    intros [I1 I2 I3 I4]; cbn in *. rewrite map_app in *. constructor; cbn; auto.
    - now apply NoDup_app_l in I2.
    - intros k Hk H. apply (I3 k Hk). apply in_app_iff. auto.
  Qed.

  Lemma app_split_len {T} (a b a' b' : list T) : a ++ b = a' ++ b' -> length a = length a' -> a = a' /\ b = b'.
  Proof.
    revert a'. induction a as [|x a IH]; intros [|y a'] H Hl; cbn in *; try lia; auto.
    injection H as -> H. destruct (IH a' H); [lia|]. subst. auto.
  Qed.

  Lemma exec_frame callf :
    (forall s k, inv s -> good s (callf s k)) ->
    (forall k, frame_prop (fun s => callf s k)) ->
    forall p, frame_prop (exec callf p).
  Proof.
    intros Hg Hf p. induction p as [v0|k cont IH]; intros M A O v M' A' O' c c' Hi E HL HO; cbn in *.
    - injection E as -> -> E _. destruct (app_split_len _ _ _ _ E) as [-> ->]; [lia|]. reflexivity.
    - pose proof (Hg _ k Hi) as G.
      destruct (callf (St M (A ++ O) c) k) as [v1 s1| | | |] eqn:E1; cbn in E; try discriminate.
      cbn in G. destruct G as (G1 & G2 & G3).
      destruct s1 as [M1 a1 c1]; cbn in *.
      destruct (flag_le_app_inv _ _ G2) as (A1 & O1 & -> & F1 & F2).
      pose proof (exec_good callf Hg (cont v1) G1) as G'. rewrite E in G'. cbn in G'.
      destruct G' as (_ & G2' & _).
      assert (HlA : length A1 = length A) by (symmetry; eapply Forall2_length; exact F1).
      assert (HO1 : yes O1 = 0).
      { destruct (flag_le_app_inv _ _ G2') as (A2 & O2 & E2 & F3 & F4).
        destruct (app_split_len _ _ _ _ E2) as [-> ->].
        { apply Forall2_length in F3. lia. }
        apply flag_le_yes in F4. lia. }
      rewrite (Hf k _ _ _ _ _ _ _ _ _ Hi E1 HlA HO1). cbn.
      eapply IH; eauto. lia.
  Qed.

  Lemma call_frame : forall fuel k, frame_prop (fun s => call fuel s k).
  Proof.
    induction fuel as [|fuel IH]; intros k M A O v M' A' O' c c' Hi E HL HO;
      cbn [Model.call memo active unwinding] in *;
      (destruct (lookup M k) as [w|] eqn:Em;
       [injection E as -> -> E _; destruct (app_split_len _ _ _ _ E) as [-> ->]; [lia|]; reflexivity|]);
      rewrite lookup_app in E;
      (destruct (lookup A k) as [fc|] eqn:Ea;
       [destruct (cd k) as [d|]; [|discriminate]; injection E as -> -> E Ec;
        rewrite update_app_l in E
          by (apply lookup_In in Ea; apply in_map_iff; exists (k, fc); auto);
        apply app_split_len in E as [<- <-];
          [f_equal; f_equal; rewrite (yes_update _ _ Ea); reflexivity
          |rewrite HL; symmetry; eapply Forall2_length; apply update_flag_le]|]);
      (destruct (lookup O k) as [fc|] eqn:Eo;
       [exfalso; destruct (cd k) as [d|]; [|discriminate]; injection E as -> -> E Ec;
        rewrite update_app_r in E by (now apply lookup_None);
        apply app_split_len in E as [<- <-]; [|lia];
        rewrite (yes_update _ _ Eo) in HO; destruct fc; [|lia];
        apply lookup_In in Eo;
        assert (Hn : In (k, true) (filter snd O)) by (apply filter_In; auto);
        unfold yes in HO; destruct (filter snd O); [contradiction|discriminate]|]).
    - discriminate.
    - assert (Hnone : lookup (A ++ O) k = None) by (rewrite lookup_app, Ea; exact Eo).
      pose proof (inv_push (s := St M (A ++ O) c) k Hi Em Hnone) as Hp. cbn [memo active unwinding] in Hp.
      pose proof (exec_good (call fuel) (call_good fuel) (body k) Hp) as HG.
      destruct (exec (call fuel) (body k) _) as [v1 s1| | | |] eqn:Ex; cbn in E; try discriminate.
      destruct HG as (G1 & G2 & G3). cbn [active memo] in G2.
      pose proof (proj1 (lookup_None _ _) Hnone) as Hni.
      destruct (active_pop Hni G2) as (fc & a' & E1 & E2 & E3 & E4).
      rewrite E3, E4 in E.
      destruct (inv_pop G1 E1) as [Hu _].
      assert (E' : RVal v1 (St (if Nat.eqb (if fc then pred (unwinding s1) else unwinding s1) 0
                       then (k, v1) :: memo s1 else memo s1) a'
                      (if fc then pred (unwinding s1) else unwinding s1))
                   = RVal v (St M' (A' ++ O') c')).
      { destruct fc; [|exact E]. destruct (unwinding s1); [discriminate|exact E]. }
      clear E. injection E' as -> EM Ea' Ec.
      destruct s1 as [M1 a1 c1]. cbn [active memo unwinding] in *. subst a1 a'.
      change ((k, false) :: A ++ O) with (((k, false) :: A) ++ O) in *.
      change ((k, fc) :: A' ++ O') with (((k, fc) :: A') ++ O') in *.
      pose proof (@exec_frame (call fuel) (call_good fuel) IH (body k) M ((k, false) :: A) O v M1 ((k, fc) :: A') O' c c1 Hp Ex) as EF.
      cbn [length] in EF. specialize (EF ltac:(lia) HO).
      change (yes ((k, false) :: A)) with (yes A) in EF.
      rewrite EF. cbn [rbind active unwinding memo]. cbn [Model.lookup Model.remove].
      destruct (eq_dec k k) as [_|]; [|congruence].
      assert (Hcnt : c1 = yes ((k, fc) :: A')).
      { pose proof (I_cnt G1) as Hc1. cbn [active unwinding] in Hc1. rewrite yes_app in Hc1. lia. }
      rewrite <- Hcnt.
      assert (HkA' : remove A' k = A').
      { apply remove_id. destruct (flag_le_app_inv _ _ E2) as (A2 & O2 & E5 & F1 & F2).
        destruct (app_split_len _ _ _ _ E5) as [-> ->].
        { apply Forall2_length in F1. lia. }
        apply flag_le_fst in F1. rewrite <- F1. now apply lookup_None. }
      rewrite HkA'.
      assert (Hy : yes A' = if fc then pred c1 else c1).
      { rewrite Hcnt. unfold yes. cbn. destruct fc; reflexivity. }
      rewrite Hy, <- EM. destruct fc; [|reflexivity].
      destruct c1; [exfalso; now apply Hu|reflexivity].
  Qed.

  (** Every new cache entry is the answer of a fresh top-level call. *)
  Definition fresh_entry (M0 : list (K * V)) (M1 : list (K * V)) (k : K) (v : V) : Prop :=
    exists fuel M M', incl M0 M /\ incl M' M1 /\ NoDup (map fst M) /\
      call fuel (St M [] 0) k = RVal v (St M' [] 0).
  Definition entries_fresh (s : state) (r : @result K V) : Prop :=
    match r with
    | RVal _ s' => forall k v, In (k, v) (memo s') -> In (k, v) (memo s) \/ fresh_entry (memo s) (memo s') k v
    | _ => True
    end.
  Lemma fresh_mono M0 M0' M1 M1' k v : incl M0' M0 -> incl M1 M1' ->
    fresh_entry M0 M1 k v -> fresh_entry M0' M1' k v.
  Proof.
    intros H1 H2 (f & M & M' & A1 & A2 & A3 & A4). exists f, M, M'.
    split; [eapply incl_tran; eauto|]. split; [eapply incl_tran; eauto|auto].
  Qed.
  Lemma exec_entries callf :
    (forall s k, inv s -> good s (callf s k)) ->
    (forall s k, inv s -> entries_fresh s (callf s k)) ->
    forall p s, inv s -> entries_fresh s (exec callf p s).
  Proof.
    intros Hg Hf p. induction p as [v|k cont IH]; intros s Hs; cbn; [auto|].
    pose proof (Hg s k Hs) as G. pose proof (Hf s k Hs) as F.
    destruct (callf s k) as [v1 s1| | | |] eqn:E; cbn; auto. cbn in G, F.
    destruct G as (G1 & G2 & G3). pose proof (exec_good callf Hg (cont v1) G1) as G'.
    specialize (IH v1 s1 G1). destruct (exec callf (cont v1) s1) as [v2 s2| | | |]; cbn in *; auto.
    destruct G' as (_ & _ & G3'). intros k' v' H. destruct (IH k' v' H) as [H'|H'].
    - destruct (F k' v' H') as [H''|H'']; [auto|]. right. eapply fresh_mono; [apply incl_refl|exact G3'|exact H''].
    - right. eapply fresh_mono; [exact G3|apply incl_refl|exact H'].
  Qed.
  Lemma call_entries : forall fuel s k, inv s -> entries_fresh s (call fuel s k).
  Proof.
    induction fuel as [|fuel IH]; intros s k Hs.
    - cbn [Model.call].
      destruct (lookup (memo s) k); [cbn; auto|]. destruct (lookup (active s) k); [|exact I].
      destruct (cd k); cbn; auto.
    - pose proof (call_good (S fuel) k Hs) as Gall. pose proof (call_frame (S fuel) k) as Frame.
      assert (Hcase : forall v s', call (S fuel) s k = RVal v s' -> In (k, v) (memo s') ->
                unwinding s' = 0 -> fresh_entry (memo s) (memo s') k v).
      { intros v s' E Hin Hz. rewrite E in Gall. destruct Gall as (G1 & G2 & G3).
        destruct s as [M O c], s' as [M' O' c']. cbn in *.
        exists (S fuel), M, M'. split; [apply incl_refl|]. split; [apply incl_refl|].
        split; [apply (I_memo Hs)|].
        assert (HO' : yes O' = 0) by (pose proof (I_cnt G1) as Hc1; cbn in Hc1; congruence).
        exact (Frame M [] O v M' [] O' c c' Hs E eq_refl HO'). }
      revert Gall Hcase. cbn [Model.call].
      destruct (lookup (memo s) k) as [w|] eqn:Em; [cbn; auto|].
      destruct (lookup (active s) k) as [fc|] eqn:Ea; [destruct (cd k); cbn; auto|].
      pose proof (inv_push _ Hs Em Ea) as Hp.
      pose proof (exec_entries (call fuel) (call_good fuel) IH (body k) Hp) as HE.
      pose proof (exec_good (call fuel) (call_good fuel) (body k) Hp) as HG.
      destruct (exec (call fuel) (body k) _) as [v s1| | | |]; cbn in *; auto.
      destruct (lookup (active s1) k) as [fc|]; cbn; auto.
      intros Gall Hcase.
      assert (Hfin : forall c,
         (forall v' s', RVal v (St (if Nat.eqb c 0 then (k, v) :: memo s1 else memo s1)
                         (remove (active s1) k) c) = RVal v' s' -> In (k, v') (memo s') -> unwinding s' = 0 ->
                         fresh_entry (memo s) (memo s') k v') ->
         entries_fresh s (RVal v (St (if Nat.eqb c 0 then (k, v) :: memo s1 else memo s1)
                         (remove (active s1) k) c))).
      { clear Gall Hcase. intros c Hcase. cbn. intros k' v' H.
        destruct (Nat.eqb c 0) eqn:Ec.
        - destruct H as [[= <- <-]|H].
          + right. apply Nat.eqb_eq in Ec. specialize (Hcase v _ eq_refl). cbn in Hcase.
            apply Hcase; auto.
          + destruct (HE k' v' H) as [|H']; [auto|]. right.
            eapply fresh_mono; [apply incl_refl|apply incl_tl, incl_refl|exact H'].
        - destruct (HE k' v' H) as [|H']; [auto|]. right. exact H'. }
      destruct fc; [|apply Hfin; exact Hcase].
      destruct (unwinding s1) as [|u] eqn:Eu; [exact I|]. apply Hfin. exact Hcase.
  Qed.

  (** A call that is not answered from the active stack caches when it ends with
      nothing unwinding. *)
  Lemma call_caches fuel s k v s' : inv s -> lookup (active s) k = None ->
    call fuel s k = RVal v s' -> unwinding s' = 0 -> In (k, v) (memo s').
  Proof.
    intros Hs Ea E Hz. destruct fuel as [|fuel]; cbn [Model.call] in E.
    - destruct (lookup (memo s) k) as [w|] eqn:Em; [injection E as -> ->; now apply lookup_In|].
      rewrite Ea in E. discriminate.
    - destruct (lookup (memo s) k) as [w|] eqn:Em; [injection E as -> ->; now apply lookup_In|].
      rewrite Ea in E.
      destruct (exec (call fuel) (body k) _) as [v1 s1| | | |]; cbn in E; try discriminate.
      destruct (lookup (active s1) k) as [fc|]; [|discriminate].
      assert (E' : exists c, RVal v1 (St (if Nat.eqb c 0 then (k, v1) :: memo s1 else memo s1)
                         (remove (active s1) k) c) = RVal v s').
      { destruct fc; [destruct (unwinding s1); [discriminate|]|]; eexists; exact E. }
      destruct E' as [c E']. injection E' as -> <-. cbn in *. subst c. cbn. now left.
  Qed.

  (** ** Fuel monotonicity *)
  Lemma exec_mono (c1 c2 : state -> K -> @result K V) :
    (forall s k, c1 s k <> ROutOfFuel -> c2 s k = c1 s k) ->
    forall p s, exec c1 p s <> ROutOfFuel -> exec c2 p s = exec c1 p s.
  Proof.
    intros H p. induction p as [v|k cont IH]; intros s Hne; cbn in *; [reflexivity|].
    rewrite H; [|intro E; rewrite E in Hne; now apply Hne].
    destruct (c1 s k); cbn in *; auto.
  Qed.
  Definition finish (k : K) (v : V) (s1 : state) : @result K V :=
    match lookup (active s1) k with
    | None => RExpectPanic
    | Some fc =>
      match fc, unwinding s1 with
      | true, 0 => RUnderflow
      | _, _ =>
        let c := if fc then pred (unwinding s1) else unwinding s1 in
        RVal v (St (if Nat.eqb c 0 then (k, v) :: memo s1 else memo s1)
                   (remove (active s1) k) c)
      end
    end.
  Lemma call_S f s k : call (S f) s k =
    match lookup (memo s) k with
    | Some v => RVal v s
    | None =>
      match lookup (active s) k with
      | Some fc => match cd k with
          | Some d => RVal d (St (memo s) (update (active s) k true)
                       (if fc then unwinding s else S (unwinding s)))
          | None => RCyclePanic k
          end
      | None => rbind (exec (call f) (body k) (St (memo s) ((k, false) :: active s) (unwinding s)))
                      (finish k)
      end
    end.
  Proof. reflexivity. Qed.

  Lemma call_mono1 : forall f s k, call f s k <> ROutOfFuel -> call (S f) s k = call f s k.
  Proof.
    induction f as [|f IH]; intros s k Hne.
    - rewrite call_S. cbn in *.
      destruct (lookup (memo s) k); auto. destruct (lookup (active s) k); auto. now exfalso.
    - rewrite (call_S (S f)). rewrite (call_S f) in *.
      destruct (lookup (memo s) k); auto; destruct (lookup (active s) k); auto.
      rewrite (exec_mono (call f) (call (S f)) IH); [reflexivity|].
      intro E. rewrite E in Hne. now apply Hne.
  Qed.
  Lemma call_mono f f' s k : f <= f' -> call f s k <> ROutOfFuel -> call f' s k = call f s k.
  Proof.
    induction 1 as [|f' _ IH]; intro H; [reflexivity|].
    rewrite call_mono1; [auto|]. rewrite IH by assumption. exact H.
  Qed.

  (** ** Transparency (C06) *)
  Inductive evalsN : nat -> prog K V -> V -> Prop :=
  | EN_ret v : evalsN 0 (Ret v) v
  | EN_ask n m k cont v w : evalsN n (body k) v -> evalsN m (cont v) w ->
      evalsN (S (n + m)) (Ask k cont) w.
  Lemma evalsN_fun n p v : evalsN n p v -> forall n' v', evalsN n' p v' -> n = n' /\ v = v'.
  Proof.
    induction 1 as [v|n m k cont v w _ IH1 _ IH2]; intros n' v' H'; inversion H'; subst; auto.
    match goal with H : evalsN _ (body k) _ |- _ => destruct (IH1 _ _ H) as [-> ->] end.
    match goal with H : evalsN _ (cont _) _ |- _ => destruct (IH2 _ _ H) as [-> ->] end. auto.
  Qed.
  Lemma evals_evalsN p v : evals body p v <-> exists n, evalsN n p v.
  Proof.
    split.
    - induction 1 as [v|k cont v w _ [n IH1] _ [m IH2]]; eexists; econstructor; eauto.
    - intros [n H]. induction H; econstructor; eauto.
  Qed.

  Definition qN (n : nat) (k : K) (v : V) := evalsN n (body k) v.
  Definition memo_sound (s : state) : Prop :=
    forall k v, In (k, v) (memo s) -> forall n w, qN n k w -> v = w.
  (** every active query with a meaning is waiting for something smaller *)
  Definition stack_ok (s : state) (k : K) : Prop :=
    forall j, In j (map fst (active s)) -> forall m w, qN m j w -> exists n v, qN n k v /\ n < m.

  Definition sound_result (r : @result K V) (k : K) : Prop :=
    match r with
    | RVal v s' => memo_sound s' /\ forall n w, qN n k w -> v = w
    | RCyclePanic _ => forall n w, ~ qN n k w
    | ROutOfFuel => True
    | _ => False
    end.

  Lemma exec_sound callf k :
    (forall s k, inv s -> good s (callf s k)) ->
    (forall s k, inv s -> memo_sound s -> stack_ok s k -> sound_result (callf s k) k) ->
    forall p s, inv s -> memo_sound s ->
      (* the rest of the body of k, and k is on the stack *)
      (forall n w, qN n k w -> exists m, m <= n /\ evalsN m p w) ->
      (forall j, In j (map fst (active s)) -> forall m w, qN m j w -> exists n v, qN n k v /\ n <= m) ->
      match exec callf p s with
      | RVal v s' => memo_sound s' /\ forall n w, qN n k w -> v = w
      | RCyclePanic _ => forall n w, ~ qN n k w
      | ROutOfFuel => True
      | _ => False
      end.
  Proof.
    intros Hg Hc p. induction p as [v|k' cont IH]; intros s Hs Hm Hp Hst; cbn.
    - split; [exact Hm|]. intros n w H. destruct (Hp n w H) as (m & _ & He). now inversion He.
    - assert (Hok : stack_ok s k').
      { intros j Hj m w Hq. destruct (Hst j Hj m w Hq) as (n & v & Hk & Hle).
        destruct (Hp n v Hk) as (m' & Hm' & He). inversion He as [|n1 m1 ? ? v1 ? He1 He2]; subst.
        exists n1, v1. split; [exact He1|lia]. }
      pose proof (Hg s k' Hs) as G. pose proof (Hc s k' Hs Hm Hok) as C.
      destruct (callf s k') as [v1 s1| | | |]; cbn in *; auto.
      + destruct G as (G1 & G2 & G3). destruct C as [C1 C2]. apply IH; auto.
        * intros n w H. destruct (Hp n w H) as (m' & Hm' & He).
          inversion He as [|n1 m1 ? ? v2 ? He1 He2]; subst.
          rewrite (C2 _ _ He1). exists m1. split; [lia|exact He2].
        * apply flag_le_fst in G2. rewrite <- G2. exact Hst.
      + intros n w H. destruct (Hp n w H) as (m' & Hm' & He).
        inversion He as [|n1 m1 ? ? v2 ? He1 He2]; subst. eapply C; exact He1.
  Qed.

  Lemma call_sound : forall fuel s k, inv s -> memo_sound s -> stack_ok s k ->
    sound_result (call fuel s k) k.
  Proof.
    induction fuel as [|fuel IH]; intros s k Hs Hm Hok; [cbn|rewrite call_S];
      (destruct (lookup (memo s) k) as [v|] eqn:Em;
       [cbn; split; [exact Hm|]; apply lookup_In in Em; intros n w; now apply Hm|]);
      (destruct (lookup (active s) k) as [fc|] eqn:Ea;
       [assert (Hno : forall n w, ~ qN n k w);
        [intros n w Hq; apply lookup_In in Ea;
         destruct (Hok k (in_map fst _ _ Ea) n w Hq) as (n' & v' & Hq' & Hlt);
         destruct (evalsN_fun Hq Hq'); lia
        |destruct (cd k); cbn; [split; [exact Hm|]; intros n w Hq; exfalso; eapply Hno; exact Hq|exact Hno]]|]).
    - exact I.
    - pose proof (inv_push _ Hs Em Ea) as Hp.
      pose proof (exec_good (call fuel) (call_good fuel) (body k) Hp) as G.
      assert (X := @exec_sound (call fuel) k (call_good fuel) IH (body k) _ Hp Hm).
      cbn [active map fst] in X.
      specialize (X (fun n w H => ex_intro _ n (conj (le_n n) H))).
      specialize (X ltac:(intros j [<-|Hj] m w Hq; [eauto|];
                          destruct (Hok j Hj m w Hq) as (n & v & ? & ?); exists n, v; split; [assumption|lia])).
      destruct (exec (call fuel) (body k) _) as [v1 s1| | | |]; cbn in *; auto.
      destruct G as (G1 & G2 & G3). destruct X as [X1 X2]. unfold finish.
      apply lookup_None in Ea.
      destruct (active_pop Ea G2) as (fc & a' & E1 & E2 & E3 & E4).
      rewrite E3, E4. destruct (inv_pop G1 E1) as [Hu _].
      assert (Hfin : forall c, sound_result (RVal v1 (St (if Nat.eqb c 0 then (k, v1) :: memo s1 else memo s1) a' c)) k).
      { intro c. cbn. split; [|exact X2]. destruct (Nat.eqb c 0); [|exact X1].
        intros k' v' [[= <- <-]|H]; [exact X2|]. now apply X1. }
      destruct fc; [|apply Hfin]. destruct (unwinding s1); [exfalso; now apply Hu|apply Hfin].
  Qed.

  (** termination with enough fuel *)
  Lemma exec_term n p v : evalsN n p v -> forall fuel s k m w,
    inv s -> memo_sound s -> n <= fuel ->
    (forall fuel s k m w, m < n -> qN m k w -> m < fuel -> inv s -> memo_sound s -> stack_ok s k ->
        call fuel s k <> ROutOfFuel) ->
    qN m k w ->
    (forall j, In j (map fst (active s)) -> forall m' w, qN m' j w -> m <= m') -> n <= m ->
    exec (call fuel) p s <> ROutOfFuel.
  Proof.
    induction 1 as [v|n1 n2 k' cont v w H1 _ H2 IH]; intros fuel s k m w0 Hs Hm Hf Hcall Hq Hst Hnm; cbn; [discriminate|].
    assert (Hok : stack_ok s k').
    { intros j Hj m' w' Hq'. specialize (Hst j Hj m' w' Hq'). exists n1, v. split; [exact H1|lia]. }
    assert (Hne : call fuel s k' <> ROutOfFuel) by (eapply Hcall; [|exact H1| | | |]; auto; lia).
    pose proof (call_good fuel k' Hs) as G. pose proof (@call_sound fuel s k' Hs Hm Hok) as C.
    destruct (call fuel s k') as [v1 s1| | | |]; cbn in *; try discriminate; [|congruence].
    destruct G as (G1 & G2 & G3), C as [C1 C2]. rewrite (C2 _ _ H1).
    eapply (IH fuel s1 k m w0); auto; try lia.
    - intros f0 s0 k0 m0 w1 Hlt0 Hq0 Hf0 Hi0 Hm0 Ho0. apply (Hcall f0 s0 k0 m0 w1); auto. lia.
    - apply flag_le_fst in G2. rewrite <- G2. exact Hst.
  Qed.

  Lemma call_term : forall n fuel s k v, qN n k v -> n < fuel -> inv s -> memo_sound s -> stack_ok s k ->
    call fuel s k <> ROutOfFuel.
  Proof.
    induction n as [n IHn] using lt_wf_ind. intros fuel s k v Hq Hf Hs Hm Hok.
    destruct fuel as [|fuel]; [lia|]. rewrite call_S.
    destruct (lookup (memo s) k) as [v0|] eqn:Em; [discriminate|].
    destruct (lookup (active s) k) as [fc|] eqn:Ea; [destruct (cd k); discriminate|].
    pose proof (inv_push _ Hs Em Ea) as Hp.
    assert (Hex : exec (call fuel) (body k) (St (memo s) ((k, false) :: active s) (unwinding s)) <> ROutOfFuel).
    { eapply exec_term; [exact Hq|exact Hp|exact Hm|lia| |exact Hq| |lia].
      - intros; eapply IHn; eauto.
      - cbn. intros j [<-|Hj] m' w' Hq'; [destruct (evalsN_fun Hq Hq'); lia|].
        destruct (Hok j Hj m' w' Hq') as (n' & v' & Hq2 & Hlt). destruct (evalsN_fun Hq Hq2); lia. }
    destruct (exec _ _ _) as [v1 s1| | | |]; cbn; try congruence.
    unfold finish. destruct (lookup (active s1) k) as [[|]|]; try discriminate.
    destruct (unwinding s1); discriminate.
  Qed.

  (** Histories of top-level calls. *)
  Lemma calls_inv fuel : forall ks s s', inv s -> active s = [] -> memo_sound s ->
    calls eq_dec body cd fuel s ks = Some s' -> inv s' /\ active s' = [] /\ memo_sound s'.
  Proof.
    induction ks as [|k ks IH]; cbn; intros s s' Hs Ha Hm E; [injection E as <-; auto|].
    pose proof (call_good fuel k Hs) as G.
    assert (Hok : stack_ok s k) by (intros j Hj; rewrite Ha in Hj; destruct Hj).
    pose proof (@call_sound fuel s k Hs Hm Hok) as C.
    destruct (call fuel s k) as [v s1| | | |]; try discriminate. cbn in G, C.
    destruct G as (G1 & G2 & G3), C as [C1 _]. eapply IH; [exact G1| |exact C1|exact E].
    rewrite Ha in G2. now inversion G2.
  Qed.
End Proofs.

(** ** Side tables *)
Section SideTables.
  Context {I A R : Type}.
  Variable eq_dec : forall x y : A, {x = y} + {x <> y}.
  Variable f : I -> A -> R.
  Notation step := (step eq_dec f).
  Notation run := (run eq_dec f).

  Definition news (os : list (@op I A)) : nat :=
    length (filter (fun o => match o with CallOn _ _ => false | _ => true end) os).

  Definition wsound (w : @world I A R) : Prop :=
    forall d, In d (dbs w) -> forall a r, lookup eq_dec (nth (db_index d) (tables w) []) a = Some r ->
      r = f (db_input d) a.
  Record winv (n : nat) (w : @world I A R) : Prop := {
    W_next : n < 256 -> next w = n;
    W_idx : forall d, In d (dbs w) -> db_index d < n;
    W_nd : NoDup (map db_index (dbs w));
    W_sound : wsound w;
    W_none : forall i, n <= i -> nth i (tables w) [] = []
  }.

  Lemma grow_nth (ts : list (list (A * R))) n i : nth i (grow ts n) [] = nth i ts [].
  Proof.
    unfold grow. destruct (lt_dec i (length ts)).
    - now rewrite app_nth1.
    - rewrite app_nth2 by lia. rewrite (nth_overflow ts) by lia.
      destruct (lt_dec (i - length ts) (n - length ts)).
      + rewrite nth_repeat. reflexivity.
      + rewrite nth_overflow; [reflexivity|rewrite repeat_length; lia].
  Qed.
  Lemma set_nth_nth (ts : list (list (A * R))) n t i : n < length ts ->
    nth i (set_nth ts n t) [] = if Nat.eq_dec i n then t else nth i ts [].
  Proof.
    revert n i. induction ts as [|x ts IH]; cbn; intros n i Hn; [lia|].
    destruct (Nat.eq_dec i n) as [->|Hne].
    - destruct n as [|n]; cbn; [reflexivity|]. rewrite IH by lia.
      destruct (Nat.eq_dec n n); congruence.
    - destruct n as [|n]; destruct i as [|i]; cbn; auto; try lia. rewrite IH by lia.
      destruct (Nat.eq_dec i n); congruence.
  Qed.
  Lemma grow_length (ts : list (list (A * R))) n : n <= length (grow ts n).
  Proof. unfold grow. rewrite app_length, repeat_length. lia. Qed.
  Lemma NoDup_idx (l : list (@db I)) d d' : NoDup (map db_index l) -> In d l -> In d' l ->
    db_index d = db_index d' -> d = d'.
  Proof.
    induction l as [|x l IH]; cbn; [tauto|]. intros Hnd H H' E. inversion Hnd as [|? ? N1 N2]; subst.
    destruct H as [->|H], H' as [->|H']; auto.
    - exfalso. apply N1. rewrite E. now apply in_map.
    - exfalso. apply N1. rewrite <- E. now apply in_map.
  Qed.

  Local Arguments bump n : simpl never.
  Lemma step_inv n w o : winv n w -> n + news [o] <= 256 ->
    winv (n + news [o]) (fst (step w o)) /\
    forall d a x, o = CallOn d a -> nth_error (dbs w) d = Some x -> snd (step w o) = Some (f (db_input x) a).
  Proof.
    intros [H1 H2 H3 H4 H5] Hn. destruct o as [i| |d a]; unfold news in *; cbn in *.
    - split; [|intros; discriminate]. constructor; cbn.
      + intro Hlt. rewrite H1 by lia. unfold bump. rewrite Nat.mod_small; lia.
      + intros d Hd. apply in_app_iff in Hd. destruct Hd as [Hd|[<-|[]]]; [specialize (H2 d Hd); lia|].
        cbn. rewrite H1; lia.
      + rewrite map_app. cbn. apply NoDup_Add with (a := next w) (l := map db_index (dbs w)).
        * rewrite <- (app_nil_r (map db_index (dbs w))) at 1. apply Add_app.
        * split; [exact H3|]. rewrite H1 by lia. intro Hin. apply in_map_iff in Hin.
          destruct Hin as (d & E & Hd). specialize (H2 d Hd). lia.
      + intros d Hd a r. cbn. apply in_app_iff in Hd. destruct Hd as [Hd|[<-|[]]]; [now apply H4|].
        cbn. rewrite H1 by lia. rewrite H5 by lia. discriminate.
      + intros j Hj. apply H5. lia.
    - split; [|intros; discriminate]. constructor; cbn; auto.
      + intro Hlt. rewrite H1 by lia. unfold bump. rewrite Nat.mod_small; lia.
      + intros d Hd. specialize (H2 d Hd). lia.
      + intros j Hj. apply H5. lia.
    - rewrite Nat.add_0_r.
      assert (Hex : forall d0 a0 x, CallOn (I := I) d a = CallOn d0 a0 -> nth_error (dbs w) d0 = Some x ->
                nth_error (dbs w) d = Some x /\ a0 = a) by (intros d0 a0 x [= <- <-]; auto).
      destruct (nth_error (dbs w) d) as [x|] eqn:Ed;
        [|split; [constructor; auto|intros d0 a0 x E E'; now destruct (Hex _ _ _ E E')]].
      assert (Hx : In x (dbs w)) by (eapply nth_error_In; eauto).
      pose proof (grow_length (tables w) (S (db_index x))) as Hgl.
      destruct (lookup eq_dec (nth (db_index x) (grow (tables w) (S (db_index x))) []) a) as [r|] eqn:El; cbn.
      + rewrite grow_nth in El. split.
        * constructor; cbn; auto.
          -- intros d' Hd' a' r'. cbn. rewrite grow_nth. now apply H4.
          -- intros j Hj. rewrite grow_nth. auto.
        * intros d0 a0 x0 E E'. destruct (Hex _ _ _ E E') as [[= <-] ->]. f_equal. now apply (H4 x Hx).
      + split.
        * constructor; cbn; auto.
          -- intros d' Hd' a' r'. cbn. rewrite set_nth_nth by lia.
             destruct (Nat.eq_dec (db_index d') (db_index x)) as [E|E].
             ++ assert (d' = x) by (eapply NoDup_idx; eauto). subst d'. cbn.
                rewrite grow_nth. destruct (eq_dec a' a) as [->|]; [congruence|]. now apply H4.
             ++ rewrite grow_nth. now apply H4.
          -- intros j Hj. rewrite set_nth_nth by lia. destruct (Nat.eq_dec j (db_index x)) as [->|].
             ++ specialize (H2 x Hx). lia.
             ++ rewrite grow_nth. auto.
        * intros d0 a0 x0 E E'. destruct (Hex _ _ _ E E') as [[= <-] ->]. reflexivity.
  Qed.

  Lemma news_app a b : news (a ++ b) = news a + news b.
  Proof. unfold news. now rewrite filter_app, app_length. Qed.

  Lemma run_inv : forall os n w, winv n w -> n + news os <= 256 -> winv (n + news os) (run w os).
  Proof.
    induction os as [|o os IH]; intros n w Hw Hn; cbn [run].
    - unfold news; cbn. now rewrite Nat.add_0_r.
    - change (o :: os) with ([o] ++ os) in *. rewrite news_app in *.
      rewrite Nat.add_assoc. apply IH; [|lia]. apply step_inv; [exact Hw|lia].
  Qed.
  Lemma winv0 : winv 0 (@world0 I A R).
  Proof.
    constructor; cbn.
    - auto.
    - intros ? [].
    - constructor.
    - intros d [].
    - intros [|[|j]] _; reflexivity.
  Qed.
End SideTables.
