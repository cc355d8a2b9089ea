(** Ownership invariant of the documented behaviour, and the converse of the
    simulation: a misuse is undefined behaviour of the representation. *)
From Coq Require Import List Bool Arith Lia.
From Verif.Callable Require Import Model Spec Proofs.
Import ListNotations.

Definition cells_t := nat -> option astate.

Definition held (c : cells_t) (b n : nat) : Prop := c n = Some (AHolds b).

Definition closed (c : cells_t) (l : list event) (next b : nat) : Prop :=
  (b < next /\ count_ends b l = 0 /\ exists n, held c b n /\ forall m, held c b m -> m = n) \/
  (b < next /\ count_ends b l = 1 /\ forall m, ~ held c b m) \/
  (next <= b /\ (forall e, In e l -> touches b e = false) /\ forall m, ~ held c b m).

Definition inv (next : nat) (c : cells_t) (l : list event) : Prop :=
  forall b, closed c l next b /\ no_use_after_end b l.

Lemma count_ends_app b l1 l2 : count_ends b (l1 ++ l2) = count_ends b l1 + count_ends b l2.
Proof. unfold count_ends. rewrite filter_app, app_length. reflexivity. Qed.

Lemma count_ends_one b e : count_ends b [e] = if ends b e then 1 else 0.
Proof. unfold count_ends. cbn. now destruct (ends b e). Qed.

Lemma count_ends_0 b l : count_ends b l = 0 -> forall e, In e l -> ends b e = false.
Proof.
  unfold count_ends. induction l as [|x l IH]; cbn; intros H e; [tauto|].
  intros [->|I].
  - destruct (ends b e); [cbn in H; discriminate|reflexivity].
  - destruct (ends b x); [cbn in H; discriminate|auto].
Qed.

Lemma ends_touches b e : ends b e = true -> touches b e = true.
Proof. destruct e; cbn; auto. discriminate. Qed.

Lemma nuae_snoc b l e : no_use_after_end b l ->
  (count_ends b l = 0 \/ touches b e = false) -> no_use_after_end b (l ++ [e]).
Proof.
  intros N H l1 x l2 E Ex y Iy.
  destruct (exists_last (l := x :: l2)) as (l' & z & E2); [discriminate|].
  rewrite E2, app_assoc in E. apply app_inj_tail in E. destruct E as [E ->].
  destruct l' as [|x' l'].
  - cbn in E2. injection E2 as -> ->. destruct Iy.
  - cbn in E2. injection E2 as <- ->.
    apply in_app_iff in Iy. destruct Iy as [Iy|[<-|[]]].
    + eapply (N l1 x l' E Ex); eauto.
    + destruct H as [H|H]; [|exact H].
      exfalso. rewrite E in H. rewrite count_ends_app in H.
      change (x :: l') with ([x] ++ l') in H. rewrite count_ends_app, count_ends_one, Ex in H. lia.
Qed.

Lemma inv_ext next c c' l : (forall n, c n = c' n) -> inv next c l -> inv next c' l.
Proof.
  intros E I b. destruct (I b) as [C N]. split; [|exact N].
  unfold closed, held in *.
  destruct C as [(A & B & n & H & U)|[(A & B & H)|(A & B & H)]].
  - left. repeat (split; auto). exists n. rewrite <- E. split; auto. intros m. rewrite <- E. auto.
  - right; left. repeat (split; auto). intros m. rewrite <- E. auto.
  - right; right. repeat (split; auto). intros m. rewrite <- E. auto.
Qed.

Definition nonhold (s : option astate) : Prop := forall b, s <> Some (AHolds b).

Definition up (c : cells_t) (n : nat) (s : option astate) : cells_t :=
  fun x => if Nat.eqb x n then s else c x.

Lemma held_up c n s b m : held (up c n s) b m <-> (m = n /\ s = Some (AHolds b)) \/ (m <> n /\ held c b m).
Proof.
  unfold held, up. destruct (Nat.eqb_spec m n); intuition congruence.
Qed.

(* a handle that owns nothing changes to another state that owns nothing *)
Lemma inv_set next c l n s : inv next c l -> nonhold (c n) -> nonhold s -> inv next (up c n s) l.
Proof.
  intros I H1 H2 b. destruct (I b) as [C N]. split; [|exact N]. unfold closed in *.
  assert (K : forall m, held (up c n s) b m <-> held c b m).
  { intros m. rewrite held_up. split.
    - intros [[-> E]|[_ E]]; auto. exfalso. eapply H2; eauto.
    - intros E. right. split; auto. intros ->. eapply H1; eauto. }
  destruct C as [(A & B & x & H & U)|[(A & B & H)|(A & B & H)]].
  - left. repeat (split; auto). exists x. split; [apply K; auto|]. intros m Hm. apply U, K, Hm.
  - right; left. repeat (split; auto). intros m Hm. apply (H m), K, Hm.
  - right; right. repeat (split; auto). intros m Hm. apply (H m), K, Hm.
Qed.

(* the owner of [b] gives it up *)
Lemma inv_end next c l n b e s : inv next c l -> held c b n -> nonhold s ->
  (forall x, ends x e = Nat.eqb b x) -> (forall x, touches x e = Nat.eqb b x) ->
  inv next (up c n s) (l ++ [e]).
Proof.
  intros I Hb Hs En To x. destruct (I x) as [C N].
  destruct (Nat.eqb_spec b x) as [<-|Ne].
  - assert (C' : b < next /\ count_ends b l = 0 /\ exists n, held c b n /\ forall m, held c b m -> m = n).
    { destruct C as [C|[(A & B & H)|(A & B & H)]]; auto; exfalso; eapply H; eauto. }
    destruct C' as (A & B & y & Hy & U).
    split.
    + right; left. split; [exact A|]. split.
      * rewrite count_ends_app, count_ends_one, En, Nat.eqb_refl. lia.
      * intros m. rewrite held_up. intros [[-> E]|[M E]]; [eapply Hs; eauto|].
        apply M. rewrite (U m E). symmetry. auto.
    + apply nuae_snoc; auto.
  - assert (Ef : ends x e = false) by (rewrite En; apply Nat.eqb_neq; auto).
    assert (Tf : touches x e = false) by (rewrite To; apply Nat.eqb_neq; auto).
    split; [|apply nuae_snoc; auto].
    assert (K : forall m, held (up c n s) x m <-> held c x m).
    { intros m. rewrite held_up. split.
      - intros [[-> E]|[_ E]]; auto. exfalso. eapply Hs; eauto.
      - intros E. right. split; auto. intros ->. unfold held in *. congruence. }
    assert (CE : count_ends x (l ++ [e]) = count_ends x l).
    { rewrite count_ends_app, count_ends_one, Ef. lia. }
    unfold closed. rewrite CE.
    destruct C as [(A & B & y & H & U)|[(A & B & H)|(A & B & H)]].
    + left. repeat (split; auto). exists y. split; [apply K; auto|]. intros m Hm. apply U, K, Hm.
    + right; left. repeat (split; auto). intros m Hm. apply (H m), K, Hm.
    + right; right. split; [exact A|]. split.
      * intros z Iz. apply in_app_iff in Iz. destruct Iz as [Iz|[<-|[]]]; auto.
      * intros m Hm. apply (H m), K, Hm.
Qed.

(* an event that ends nothing: a call of an owned closure, or an observation *)
Lemma inv_emit next c l e : inv next c l ->
  (forall x, ends x e = false) ->
  (forall x, touches x e = true -> exists n, held c x n) ->
  inv next c (l ++ [e]).
Proof.
  intros I En To x. destruct (I x) as [C N].
  assert (CE : count_ends x (l ++ [e]) = count_ends x l).
  { rewrite count_ends_app, count_ends_one, En. lia. }
  split.
  - unfold closed. rewrite CE.
    destruct C as [C|[C|(A & B & H)]]; auto.
    right; right. split; [exact A|]. split; auto.
    intros z Iz. apply in_app_iff in Iz. destruct Iz as [Iz|[<-|[]]]; auto.
    destruct (touches x e) eqn:E; auto. destruct (To x E) as [m Hm]. exfalso. eapply H; eauto.
  - apply nuae_snoc; auto.
    destruct (touches x e) eqn:E; auto. left. destruct (To x E) as [m Hm].
    destruct C as [C|[(A & B & H)|(A & B & H)]]; [tauto|exfalso; eapply H; eauto|exfalso; eapply H; eauto].
Qed.

(* ownership moves from [s] to [n] *)
Lemma inv_move next c l n s x : inv next c l -> n <> s -> nonhold (c n) -> c s = Some x ->
  inv next (up (up c n (Some x)) s (Some AEmpty)) l.
Proof.
  intros I Ne Hn Hs b. destruct (I b) as [C N]. split; [|exact N].
  assert (K : forall m, held (up (up c n (Some x)) s (Some AEmpty)) b m <->
                        (m = n /\ x = AHolds b) \/ (m <> n /\ m <> s /\ held c b m)).
  { intros m. rewrite !held_up. split.
    - intros [[-> E]|[M [[-> E]|[M2 E]]]]; [discriminate| |]; intuition congruence.
    - intros [[-> E]|(M & M2 & E)].
      + right. split; auto. left. split; auto. congruence.
      + right. split; auto. }
  unfold closed in *.
  destruct C as [(A & B & y & H & U)|[(A & B & H)|(A & B & H)]].
  - left. repeat (split; auto).
    destruct (Nat.eq_dec y s) as [->|Ny].
    + exists n. assert (x = AHolds b) by (unfold held in H; congruence). split.
      * apply K. left. auto.
      * intros m Hm. apply K in Hm. destruct Hm as [[-> _]|(M & M2 & E)]; auto.
        exfalso. apply M2. apply U. exact E.
    + exists y. split.
      * apply K. right. repeat split; auto. intros ->. eapply Hn; eauto.
      * intros m Hm. apply K in Hm. destruct Hm as [[-> E]|(M & M2 & E)].
        -- subst x. exfalso. apply Ny. symmetry. apply U. exact Hs.
        -- apply U; auto.
  - right; left. repeat (split; auto). intros m Hm. apply K in Hm.
    destruct Hm as [[-> E]|(M & M2 & E)]; [|eapply H; eauto]. subst x. apply (H s). exact Hs.
  - right; right. repeat (split; auto). intros m Hm. apply K in Hm.
    destruct Hm as [[-> E]|(M & M2 & E)]; [|eapply H; eauto]. subst x. apply (H s). exact Hs.
Qed.

Lemma inv_swap next c l n s x y : inv next c l -> c n = Some y -> c s = Some x ->
  inv next (up (up c n (Some x)) s (Some y)) l.
Proof.
  intros I Hn Hs b. destruct (I b) as [C N]. split; [|exact N].
  set (f := fun m => if Nat.eqb m n then s else if Nat.eqb m s then n else m).
  assert (K : forall m, held (up (up c n (Some x)) s (Some y)) b m <-> held c b (f m)).
  { intros m. rewrite !held_up. unfold f, held.
    destruct (Nat.eqb_spec m n) as [->|M]; [destruct (Nat.eq_dec n s)|destruct (Nat.eqb_spec m s) as [->|M2]];
      intuition congruence. }
  assert (FF : forall m, f (f m) = m).
  { intros m. unfold f. clear.
    repeat match goal with |- context [Nat.eqb ?a ?b] => is_var a; is_var b; destruct (Nat.eqb_spec a b); try congruence end. }
  unfold closed in *.
  destruct C as [(A & B & z & H & U)|[(A & B & H)|(A & B & H)]].
  - left. repeat (split; auto). exists (f z). split.
    + apply K. rewrite FF. exact H.
    + intros m Hm. apply K in Hm. rewrite <- (FF m). f_equal. apply U, Hm.
  - right; left. repeat (split; auto). intros m Hm. apply K in Hm. eapply H; eauto.
  - right; right. repeat (split; auto). intros m Hm. apply K in Hm. eapply H; eauto.
Qed.

(* a new closure arrives *)
Lemma inv_receive next c l n : inv next c l -> c n = None ->
  inv (S next) (up c n (Some (AHolds next))) l.
Proof.
  intros I Hn b. destruct (I b) as [C N]. split; [|exact N].
  assert (K : forall m, held (up c n (Some (AHolds next))) b m <-> (m = n /\ b = next) \/ held c b m).
  { intros m. rewrite held_up. split.
    - intros [[-> E]|[M E]]; [left; split; congruence|auto].
    - intros [[-> ->]|E]; auto. right. split; auto. unfold held in E. congruence. }
  unfold closed in *.
  destruct C as [(A & B & z & H & U)|[(A & B & H)|(A & B & H)]].
  - left. split; [lia|]. split; auto. exists z. split; [apply K; auto|].
    intros m Hm. apply K in Hm. destruct Hm as [[-> E]|E]; [lia|auto].
  - right; left. split; [lia|]. split; auto. intros m Hm. apply K in Hm.
    destruct Hm as [[-> E]|E]; [lia|eapply H; eauto].
  - destruct (Nat.eq_dec b next) as [->|Nb].
    + left. split; [lia|]. split.
      * unfold count_ends. destruct (filter (ends next) l) as [|e r] eqn:E; auto.
        exfalso. assert (Ie : In e (filter (ends next) l)) by (rewrite E; left; auto).
        apply filter_In in Ie. destruct Ie as [Ie Ee]. apply ends_touches in Ee.
        rewrite (B e Ie) in Ee. discriminate.
      * exists n. split; [apply K; auto|]. intros m Hm. apply K in Hm.
        destruct Hm as [[-> _]|E]; auto. exfalso. eapply H; eauto.
    + right; right. split; [lia|]. split; auto. intros m Hm. apply K in Hm.
      destruct Hm as [[-> E]|E]; [lia|eapply H; eauto].
Qed.

Lemma inv_init : inv 0 (fun _ => None) [].
Proof.
  intros b. split.
  - right; right. split; [lia|]. split; [intros e []|]. intros m; discriminate.
  - intros l1 e l2 E. destruct l1; discriminate.
Qed.

Definition ainv (a : aworld) : Prop := inv (a_next a) (a_cells a) (a_log a).

Lemma nonhold_none : nonhold None. Proof. intros b; discriminate. Qed.
Lemma nonhold_empty : nonhold (Some AEmpty). Proof. intros b; discriminate. Qed.
Lemma nonhold_spent : nonhold (Some ASpent). Proof. intros b; discriminate. Qed.
#[export] Hint Resolve nonhold_none nonhold_empty nonhold_spent : callable.

Ltac ev := let x := fresh in intros x; cbn; try reflexivity; try apply Nat.eqb_refl; auto.

(* the target of an assignment lets go of what it owns *)
Lemma inv_drop next c l n y s : inv next c l -> c n = Some y -> nonhold s ->
  inv next (up c n s) (l ++ drop_ev y).
Proof.
  intros I Hn Hs. destruct y as [|b|]; cbn [drop_ev].
  - rewrite app_nil_r. apply inv_set; auto. rewrite Hn. auto with callable.
  - eapply inv_end; eauto; ev.
  - rewrite app_nil_r. apply inv_set; auto. rewrite Hn. auto with callable.
Qed.

Theorem astep_inv : forall k a o a', ainv a -> astep k a o = Some a' -> ainv a'.
Proof.
  intros k a o a' I H. unfold astep in H.
  destruct (a_done a) eqn:D; [injection H as <-; exact I|].
  unfold ainv in *.
  destruct o as [n|n|n s|n s|n s|n pan|n|n|n|n].
  - destruct (a_cells a n) eqn:An; injection H as <-; auto.
    cbn. apply (inv_set _ _ _ n); auto with callable. rewrite An. auto with callable.
  - destruct (a_cells a n) eqn:An; injection H as <-; auto.
    cbn. apply inv_receive; auto.
  - destruct (a_cells a n) eqn:An; [injection H as <-; auto|].
    destruct (a_cells a s) as [x|] eqn:As; injection H as <-; auto.
    cbn. apply (inv_move _ _ _ n s x); auto; [congruence|rewrite An; auto with callable].
  - destruct (a_cells a n) as [y|] eqn:An; [|injection H as <-; auto].
    destruct (a_cells a s) as [x|] eqn:As; [|injection H as <-; auto].
    destruct (Nat.eqb_spec n s) as [->|Ne].
    + assert (x = y) by congruence. subst y.
      destruct x; try discriminate; injection H as <-; cbn;
        apply (inv_set _ _ _ s); auto with callable; rewrite As; auto with callable.
    + injection H as <-. cbn.
      assert (I2 := inv_drop _ _ _ n y (Some AEmpty) I An nonhold_empty).
      eapply inv_ext; [|apply (inv_move _ _ _ n s x I2 Ne)].
      * intros m. unfold up. destruct (Nat.eqb m s); auto. destruct (Nat.eqb m n); auto.
      * unfold up. rewrite Nat.eqb_refl. auto with callable.
      * unfold up. destruct (Nat.eqb_spec s n); congruence.
  - destruct (a_cells a n) as [y|] eqn:An; [|injection H as <-; auto].
    destruct (a_cells a s) as [x|] eqn:As; [|injection H as <-; auto].
    injection H as <-. cbn. apply inv_swap; auto.
  - destruct (a_cells a n) as [[|b|]|] eqn:An; try discriminate; injection H as <-; auto.
    assert (K1 : inv (a_next a) (a_cells a) (a_log a ++ [EvCall b])).
    { apply inv_emit; auto. intros x. cbn. destruct (Nat.eqb_spec b x); [subst; eauto|discriminate]. }
    assert (K2 : inv (a_next a) (up (a_cells a) n (Some ASpent)) (a_log a ++ [EvConsume b])).
    { eapply inv_end; eauto with callable; ev. }
    destruct k, pan; cbn; auto.
  - destruct (a_cells a n) as [y|] eqn:An; injection H as <-; auto.
    cbn. apply inv_emit; auto. cbn. discriminate.
  - destruct (a_cells a n) as [[|b|]|] eqn:An; try discriminate; injection H as <-; auto; cbn.
    + apply (inv_set _ _ _ n); auto with callable; [|rewrite An; auto with callable].
      apply inv_emit; auto. cbn. discriminate.
    + eapply (inv_end _ _ _ n b); eauto with callable; ev.
  - destruct (a_cells a n) as [[|b|]|] eqn:An; injection H as <-; auto; cbn.
    + apply (inv_set _ _ _ n); auto with callable. rewrite An; auto with callable.
    + eapply (inv_end _ _ _ n b); eauto with callable; ev.
    + apply (inv_set _ _ _ n); auto with callable. rewrite An; auto with callable.
  - destruct (a_cells a n) as [y|] eqn:An; injection H as <-; auto.
    cbn. apply (inv_drop _ _ _ n); auto with callable.
Qed.

Lemma arun_inv : forall k ops a a', ainv a -> arun_from k a ops = Some a' -> ainv a'.
Proof.
  induction ops as [|o r IH]; cbn; intros a a' I H.
  - injection H as <-. exact I.
  - destruct (astep k a o) as [a1|] eqn:E; [|discriminate].
    apply (IH a1); auto. eapply astep_inv; eauto.
Qed.

(** A misuse is undefined behaviour. *)
Lemma misuse_ub : forall k w a o, sim w a -> astep k a o = None ->
  exists r, w_stat (step k w o) = Undefined r.
Proof.
  intros k w a o S H. unfold astep in H.
  destruct (a_done a) eqn:D; [discriminate|].
  assert (St : w_stat w = Running) by (rewrite (sim_stat _ _ S), D; reflexivity).
  unfold step, andthen at 1. rewrite St.
  destruct o as [n|n|n s|n s|n s|n pan|n|n|n|n];
    try (destruct (a_cells a n) as [x|] eqn:An; discriminate).
  - destruct (a_cells a n); [discriminate|]. destruct (a_cells a s); discriminate.
  - destruct (a_cells a n) as [y|] eqn:An; [|discriminate].
    destruct (a_cells a s) as [x|] eqn:As; [|discriminate].
    destruct (Nat.eqb_spec n s) as [->|]; [|discriminate].
    destruct x as [|b|]; try discriminate.
    destruct (sim_acell_at _ _ _ _ S As) as (c & Hc & Cc). rewrite (live_some _ _ _ Hc). cbn in Cc. subst c.
    cbn [andb]. unfold move_assign, managed_assign, dispose, with_cell. rewrite Hc. cbn [c_mg c_st].
    unfold andthen at 2. cbn [emit w_stat]. rewrite St.
    unfold relocate, with_cell. cbn [emit w_cells]. rewrite Hc. cbn [c_mg]. rewrite ref_eqb_refl.
    cbn. eauto.
  - destruct (a_cells a n) as [y|]; [|discriminate]. destruct (a_cells a s); discriminate.
  - destruct (a_cells a n) as [y|] eqn:An; [|discriminate].
    destruct y as [|b|]; try discriminate.
    destruct (sim_acell_at _ _ _ _ S An) as (c & Hc & [_ Cc]). rewrite (live_some _ _ _ Hc).
    unfold call, with_cell. rewrite Hc, Cc. cbn. eauto.
  - destruct (a_cells a n) as [y|] eqn:An; [|discriminate].
    destruct y as [|b|]; try discriminate.
    destruct (sim_acell_at _ _ _ _ S An) as (c & Hc & [Cm Ci]).
    unfold to_rust, with_cell at 1. rewrite Hc. destruct c as [cs cm ci]. cbn in Cm, Ci. subst cm ci.
    unfold move_ctor, move_assign, managed_assign.
    set (w0 := set_cell w Tmp (Some default_cell)).
    assert (HT : w_cells w0 Tmp = Some default_cell) by reflexivity.
    assert (HN : w_cells w0 (Var n) = Some (mkCell cs MEmpty IAfterMove)) by exact Hc.
    assert (E1 : dispose w0 Tmp = w0) by (unfold dispose, with_cell; rewrite HT; reflexivity).
    assert (E2 : relocate w0 (Var n) Tmp = w0) by (unfold relocate, with_cell; rewrite HN, HT; reflexivity).
    rewrite E1, (andthen_run w0), E2, (andthen_run w0) by exact St.
    rewrite (copy_mgr_eq _ _ _ _ HN), (set_mgr_eq _ _ _ _ HT). cbn [c_st c_mg c_iv default_cell].
    set (w3 := set_cell w0 Tmp _).
    assert (HN3 : w_cells w3 (Var n) = Some (mkCell cs MEmpty IAfterMove)) by exact HN.
    rewrite (set_mgr_eq _ _ _ _ HN3). cbn [c_st c_mg c_iv]. set (w4 := set_cell w3 (Var n) _).
    rewrite (andthen_run w4) by exact St.
    assert (HN4 : w_cells w4 (Var n) = Some (mkCell cs MEmpty IAfterMove)) by apply cells_set_same.
    assert (HT4 : w_cells w4 Tmp = Some (mkCell SJunk MEmpty INull)) by reflexivity.
    rewrite (copy_inv_eq _ _ _ _ HN4), (set_inv_eq _ _ _ _ HT4). cbn [c_st c_mg c_iv].
    set (w5 := set_cell w4 Tmp _).
    assert (HN5 : w_cells w5 (Var n) = Some (mkCell cs MEmpty IAfterMove)) by exact HN4.
    rewrite (set_inv_eq _ _ _ _ HN5). cbn [c_st c_mg c_iv]. set (w6 := set_cell w5 (Var n) _).
    rewrite (andthen_run w6) by exact St.
    assert (HT6 : w_cells w6 Tmp = Some (mkCell SJunk MEmpty IAfterMove)) by reflexivity.
    unfold encode_tmp, with_cell. rewrite HT6. cbn. eauto.
  - destruct (a_cells a n) as [[]|]; discriminate.
Qed.

Lemma stopped_stays : forall k ops w, (exists r, w_stat w = Undefined r) ->
  exists r, w_stat (fold_left (step k) ops w) = Undefined r.
Proof.
  induction ops as [|o r IH]; cbn; intros w H; auto.
  apply IH. destruct H as [x H]. exists x. unfold step, andthen. rewrite H. exact H.
Qed.

Lemma misuse_run_ub : forall k ops w a, sim w a -> arun_from k a ops = None ->
  exists r, w_stat (fold_left (step k) ops w) = Undefined r.
Proof.
  induction ops as [|o r IH]; cbn; intros w a S H; [discriminate|].
  destruct (astep k a o) as [a1|] eqn:E.
  - apply (IH _ a1); auto. eapply step_sim; eauto.
  - apply stopped_stays. eapply misuse_ub; eauto.
Qed.
