(** The global invariant. *)
From Coq Require Import List Bool Arith Lia.
From Verif.Async Require Import Model Spec Proofs.
From Verif.Own Require Import Own.
Import ListNotations.

Definition fo (b : option box) : option nat := match b with Some (FUser i) => Some i | _ => None end.
Definition do_ (b : option (option nat)) : option nat := match b with Some (Some i) => Some i | _ => None end.

(** Places: DynErasedFuture handles are the even ones, DynFuture the odd ones. *)
Definition own (w : world) : nat -> option nat :=
  fun p => if Nat.even p then fo (w_futs w (Nat.div2 p)) else do_ (w_dyns w (Nat.div2 p)).

Lemma even_2n n : Nat.even (2 * n) = true.
Proof. rewrite Nat.even_mul. reflexivity. Qed.
Lemma even_2n1 n : Nat.even (2 * n + 1) = false.
Proof. rewrite Nat.even_add, Nat.even_mul. reflexivity. Qed.
Lemma div2_2n n : Nat.div2 (2 * n) = n. Proof. apply Nat.div2_double. Qed.
Lemma div2_2n1 n : Nat.div2 (2 * n + 1) = n.
Proof. rewrite Nat.add_1_r. apply Nat.div2_succ_double. Qed.

Lemma place_cases p : (exists n, p = 2 * n) \/ (exists n, p = 2 * n + 1).
Proof.
  destruct (Nat.even p) eqn:E.
  - left. apply Nat.even_spec in E. destruct E as [n ->]. eauto.
  - right. rewrite <- Nat.negb_odd in E. apply negb_false_iff in E. apply Nat.odd_spec in E.
    destruct E as [n ->]. exists n. lia.
Qed.

Lemma own_fut w n : own w (2 * n) = fo (w_futs w n).
Proof. unfold own. now rewrite even_2n, div2_2n. Qed.
Lemma own_dyn w n : own w (2 * n + 1) = do_ (w_dyns w n).
Proof. unfold own. now rewrite even_2n1, div2_2n1. Qed.

Lemma own_set_fut w n b p : own (set_fut w n b) p = up (own w) (2 * n) (fo b) p.
Proof.
  unfold up. destruct (place_cases p) as [[m ->]|[m ->]].
  - rewrite !own_fut. cbn [set_fut w_futs]. unfold fupd.
    destruct (Nat.eqb_spec m n), (Nat.eqb_spec (2 * m) (2 * n)); try lia; auto.
  - rewrite !own_dyn. destruct (Nat.eqb_spec (2 * m + 1) (2 * n)); [lia|reflexivity].
Qed.

Lemma own_set_dyn w n b p : own (set_dyn w n b) p = up (own w) (2 * n + 1) (do_ b) p.
Proof.
  unfold up. destruct (place_cases p) as [[m ->]|[m ->]].
  - rewrite !own_fut. destruct (Nat.eqb_spec (2 * m) (2 * n + 1)); [lia|reflexivity].
  - rewrite !own_dyn. cbn [set_dyn w_dyns]. unfold fupd.
    destruct (Nat.eqb_spec m n), (Nat.eqb_spec (2 * m + 1) (2 * n + 1)); try lia; auto.
Qed.

Record G (w : world) : Prop := {
  G_W : W w;
  G_I : Inv (w_nf w) (own w) (w_log w);
  G_S : w_stat w <> UseAfterFree }.

Lemma G_init : G init.
Proof.
  constructor.
  - constructor; reflexivity.
  - eapply inv_ext; [|apply inv_init]. intros p. unfold own. cbn. now destruct (Nat.even p).
  - discriminate.
Qed.

(* events that have nothing to do with the life of a future *)
Definition neutral (e : event) : Prop := forall i, touches i e = false.

Lemma neutral_ends e i : neutral e -> ends i e = false.
Proof. intros N. destruct (ends i e) eqn:E; auto. apply ends_touches in E. rewrite N in E. discriminate. Qed.

Lemma Inv_neutral next c l e : Inv next c l -> neutral e -> Inv next c (l ++ [e]).
Proof.
  intros I N. apply inv_emit; auto.
  - intros x. apply neutral_ends; auto.
  - intros x H. rewrite N in H. discriminate.
Qed.

Lemma waker_event_neutral e : is_waker_event e = true -> neutral e.
Proof. intros H i. destruct e; try discriminate; reflexivity. Qed.

Lemma Inv_wk : forall l next c l0, Inv next c l0 -> forallb is_waker_event l = true -> Inv next c (l0 ++ l).
Proof.
  induction l as [|e l IH]; intros next c l0 I H; cbn in H.
  - now rewrite app_nil_r.
  - apply andb_true_iff in H. destruct H as [H1 H2].
    change (e :: l) with ([e] ++ l). rewrite app_assoc. apply IH; auto.
    apply Inv_neutral; auto. apply waker_event_neutral; auto.
Qed.

Lemma own_wk w w' l p : wk w w' l -> own w' p = own w p.
Proof. intros K. unfold own. now rewrite (wk_futs _ _ _ K), (wk_dyns _ _ _ K). Qed.

Lemma I_wk w w' l : wk w w' l -> Inv (w_nf w) (own w) (w_log w) -> Inv (w_nf w') (own w') (w_log w').
Proof.
  intros K I. rewrite (wk_nf _ _ _ K), (wk_log _ _ _ K).
  eapply inv_ext; [intros n; symmetry; eapply own_wk; eauto|].
  apply Inv_wk; auto. apply K.
Qed.

(* W does not depend on futures *)
Lemma W_same w w' : W w -> w_rc w' = w_rc w -> w_cpp w' = w_cpp w -> w_rust w' = w_rust w ->
  w_nw w' = w_nw w -> (forall x, frees x (w_log w') = frees x (w_log w)) -> W w'.
Proof.
  intros H A B C D E. constructor.
  - intros x. rewrite A, B, C. apply H.
  - intros x. rewrite A, D. apply H.
  - intros x. rewrite A, D, E. apply H.
Qed.

Definition not_free (e : event) : Prop := match e with EvFree _ => False | _ => True end.

Lemma frees_snoc x l e : not_free e -> frees x (l ++ [e]) = frees x l.
Proof. intros N. rewrite frees_app. unfold frees at 2. destruct e; cbn in *; try contradiction; lia. Qed.

Lemma W_emit w e : W w -> not_free e -> W (emit w e).
Proof. intros H N. apply (W_same w); auto. intros x. apply frees_snoc; auto. Qed.

(** Polling future [i], owned by some place. *)
Lemma poll_ok : forall S w i p j x, G w -> w_stat w = Running -> own w p = Some i ->
  nth_error (w_cpp w) j = Some x ->
  let '(w', r) := poll_future S w i x in
  G w' /\ w_stat w' = Running /\ w_cpp w' = w_cpp w /\ w_futs w' = w_futs w /\ w_dyns w' = w_dyns w /\
  w_nf w' = w_nf w /\ r = s_res S i (w_polls w i) /\
  exists l, w_log w' = w_log w ++ EvPoll i :: l /\ forallb is_waker_event l = true /\
    (wakes l, rust_tasks w') = actions_spec (w_task w x) (s_acts S i (w_polls w i)) (rust_tasks w).
Proof.
  intros S w i p j x H St Hp Hx. unfold poll_future.
  set (w1 := count_poll (emit w (EvPoll i)) i).
  assert (H1 : W w1). { apply (W_same w); auto; [apply H|]. intros y. apply frees_snoc. exact Logic.I. }
  destruct (actions_ok S (s_acts S i (w_polls w i)) w1 j x (w_task w x) H1 St Hx eq_refl)
    as (A & B & l & C & D).
  set (w2 := fold_left _ _ w1) in *.
  assert (I1 : Inv (w_nf w1) (own w1) (w_log w1)).
  { cbn. eapply inv_ext; [|apply (inv_emit ends touches (w_nf w) (own w) (w_log w) (EvPoll i)); [apply H| |]].
    - reflexivity.
    - reflexivity.
    - cbn. intros y Hy. apply Nat.eqb_eq in Hy. subst y. exists p. exact Hp. }
  split; [|split; [|split; [|split; [|split; [|split; [|split; [reflexivity|]]]]]]].
  - constructor; [exact A|eapply I_wk; eauto|]. rewrite (wk_stat _ _ _ C). cbn. rewrite St. discriminate.
  - rewrite (wk_stat _ _ _ C). exact St.
  - rewrite B. reflexivity.
  - rewrite (wk_futs _ _ _ C). reflexivity.
  - rewrite (wk_dyns _ _ _ C). reflexivity.
  - rewrite (wk_nf _ _ _ C). reflexivity.
  - exists l. split; [|split; [apply C|exact D]].
    rewrite (wk_log _ _ _ C). cbn. rewrite <- app_assoc. reflexivity.
Qed.

Lemma G_emit w e : G w -> neutral e -> not_free e -> G (emit w e).
Proof.
  intros H N F. constructor; [apply W_emit; auto; apply H| |apply H].
  cbn. eapply inv_ext; [|apply Inv_neutral; [apply (G_I _ H)|exact N]]. reflexivity.
Qed.

(* a place gives up its future *)
Lemma I_end w p i e : Inv (w_nf w) (own w) (w_log w) -> own w p = Some i ->
  (e = EvDropFut i \/ e = EvToRust i) -> Inv (w_nf w) (up (own w) p None) (w_log w ++ [e]).
Proof. intros I H E. apply (inv_end _ _ _ _ _ p i); auto; destruct E as [-> | ->]; reflexivity. Qed.

Lemma up_same (c : nat -> option nat) n s m : c n = s -> up c n s m = c m.
Proof. intros H. unfold up. destruct (Nat.eqb_spec m n); subst; auto. Qed.

Theorem step_G : forall S w o, G w -> G (step S w o).
Proof.
  intros S w o H. unfold step, andthen at 1. destruct (w_stat w) eqn:St; auto.
  assert (SU : w_stat w <> UseAfterFree) by (rewrite St; discriminate).
  destruct o as [n|n s|n j out|n|n|n|n s|n s|n j|n|n|n|n|t|j|h].
  - (* create *)
    destruct (w_futs w n) eqn:E; auto. unfold erased_create, drop_box. constructor.
    + apply (W_same w); auto. apply H.
    + eapply inv_ext; [|apply (inv_receive _ _ ends_touches _ _ _ (2 * n) (G_I _ H))].
      * intros p. rewrite own_set_fut. reflexivity.
      * rewrite own_fut, E. reflexivity.
    + exact SU.
  - (* move *)
    destruct (w_futs w n) eqn:E; auto. destruct (w_futs w s) as [b|] eqn:E2; auto.
    assert (Ne : n <> s) by congruence. unfold erased_move. constructor.
    + apply (W_same w); auto. apply H.
    + eapply inv_ext; [|apply (inv_move ends touches _ _ _ (2 * n) (2 * s) (G_I _ H))].
      * intros p. rewrite own_set_fut. unfold up. destruct (Nat.eqb p (2 * s)) eqn:Ep; [reflexivity|].
        rewrite own_set_fut. unfold up. rewrite own_fut, E2. reflexivity.
      * lia.
      * rewrite own_fut, E. reflexivity.
    + exact SU.
  - (* poll *)
    destruct (w_futs w n) as [b|] eqn:E; auto.
    destruct (nth_error (w_cpp w) j) as [x|] eqn:Ex; auto.
    destruct b as [i|]; cbn [erased_poll].
    + assert (Ho : own w (2 * n) = Some i) by (rewrite own_fut, E; reflexivity).
      pose proof (poll_ok S w i (2 * n) j x H St Ho Ex) as K.
      destruct (poll_future S w i x) as [w' r]. destruct K as (A & B & _).
      unfold with_borrowed_waker, andthen. rewrite B.
      destruct r as [v|].
      * destruct (s_zst S i); repeat apply G_emit; auto; try exact Logic.I; intros y; reflexivity.
      * apply G_emit; auto; try exact Logic.I; intros y; reflexivity.
    + apply G_emit; auto; try exact Logic.I; intros y; reflexivity.
  - (* destroy *)
    destruct (w_futs w n) as [b|] eqn:E; auto. unfold erased_destroy. destruct b as [i|]; cbn [drop_box].
    + constructor.
      * apply (W_same w); auto; [apply H|]. intros y. apply frees_snoc. exact Logic.I.
      * eapply inv_ext; [|apply (I_end w (2 * n) i (EvDropFut i)); [apply H|rewrite own_fut, E; reflexivity|auto]].
        intros p. rewrite own_set_fut. reflexivity.
      * exact SU.
    + constructor.
      * apply (W_same w); auto. apply H.
      * eapply inv_ext; [|apply (G_I _ H)]. intros p. rewrite own_set_fut. symmetry. apply up_same.
        rewrite own_fut, E. reflexivity.
      * exact SU.
  - (* default *)
    destruct (w_dyns w n) eqn:E; auto. constructor.
    + apply (W_same w); auto. apply H.
    + eapply inv_ext; [|apply (G_I _ H)]. intros p. rewrite own_set_dyn. symmetry. apply up_same.
      rewrite own_dyn, E. reflexivity.
    + exact SU.
  - (* from *)
    destruct (w_dyns w n) eqn:E; auto. constructor.
    + apply (W_same w); auto. apply H.
    + eapply inv_ext; [|apply (inv_receive _ _ ends_touches _ _ _ (2 * n + 1) (G_I _ H))].
      * intros p. rewrite own_set_dyn. reflexivity.
      * rewrite own_dyn, E. reflexivity.
    + exact SU.
  - (* move *)
    destruct (w_dyns w n) eqn:E; auto. destruct (w_dyns w s) as [b|] eqn:E2; auto.
    assert (Ne : n <> s) by congruence. unfold dyn_move_assign. constructor.
    + apply (W_same w); auto. apply H.
    + eapply inv_ext; [|apply (inv_move ends touches _ _ _ (2 * n + 1) (2 * s + 1) (G_I _ H))].
      * intros p. rewrite own_set_dyn. unfold up. destruct (Nat.eqb p (2 * s + 1)) eqn:Ep; [reflexivity|].
        rewrite own_set_dyn. unfold up. rewrite own_dyn, E2. reflexivity.
      * lia.
      * rewrite own_dyn, E. reflexivity.
    + exact SU.
  - (* assign: swap *)
    destruct (w_dyns w n) as [a|] eqn:E; auto. destruct (w_dyns w s) as [b|] eqn:E2; auto.
    unfold dyn_move_assign. constructor.
    + apply (W_same w); auto. apply H.
    + eapply inv_ext; [|apply (inv_swap _ _ _ _ _ (2 * n + 1) (2 * s + 1) (G_I _ H))].
      intros p. rewrite own_set_dyn. unfold up. destruct (Nat.eqb p (2 * s + 1)) eqn:Ep.
      { rewrite own_dyn, E. reflexivity. }
      rewrite own_set_dyn. unfold up. rewrite own_dyn, E2. reflexivity.
    + exact SU.
  - (* dyn poll *)
    destruct (w_dyns w n) as [o|] eqn:E; auto.
    destruct (nth_error (w_cpp w) j) as [x|] eqn:Ex; auto.
    destruct o as [i|]; cbn [dyn_poll].
    + assert (Ho : own w (2 * n + 1) = Some i) by (rewrite own_dyn, E; reflexivity).
      pose proof (poll_ok S w i (2 * n + 1) j x H St Ho Ex) as K.
      destruct (poll_future S w i x) as [w' r]. destruct K as (A & B & C & D & F & _).
      unfold with_borrowed_waker, andthen. rewrite B.
      destruct r as [v|].
      * apply G_emit; auto; try exact Logic.I; [|intros y; reflexivity].
        unfold dyn_discard, drop_opt. constructor.
        -- apply (W_same w'); auto; [apply A|]. intros y. apply frees_snoc. exact Logic.I.
        -- eapply inv_ext; [|apply (I_end w' (2 * n + 1) i (EvDropFut i)); [apply A| |auto]].
           ++ intros p. rewrite own_set_dyn. reflexivity.
           ++ rewrite own_dyn, F, E. reflexivity.
        -- cbn. rewrite B. discriminate.
      * apply G_emit; auto; try exact Logic.I; intros y; reflexivity.
    + constructor; [apply (W_same w); auto; apply H|apply H|discriminate].
  - (* discard *)
    destruct (w_dyns w n) as [o|] eqn:E; auto. unfold dyn_discard. destruct o as [i|]; cbn [drop_opt].
    + constructor.
      * apply (W_same w); auto; [apply H|]. intros y. apply frees_snoc. exact Logic.I.
      * eapply inv_ext; [|apply (I_end w (2 * n + 1) i (EvDropFut i)); [apply H|rewrite own_dyn, E; reflexivity|auto]].
        intros p. rewrite own_set_dyn. reflexivity.
      * exact SU.
    + constructor.
      * apply (W_same w); auto. apply H.
      * eapply inv_ext; [|apply (G_I _ H)]. intros p. rewrite own_set_dyn. symmetry. apply up_same.
        rewrite own_dyn, E. reflexivity.
      * exact SU.
  - (* done *)
    destruct (w_dyns w n) as [o|] eqn:E; auto. apply G_emit; auto; try exact Logic.I; intros y; reflexivity.
  - (* into *)
    destruct (w_dyns w n) as [o|] eqn:E; auto. destruct o as [i|].
    + constructor.
      * apply (W_same w); auto; [apply H|]. intros y. apply frees_snoc. exact Logic.I.
      * eapply inv_ext; [|apply (I_end w (2 * n + 1) i (EvToRust i)); [apply H|rewrite own_dyn, E; reflexivity|auto]].
        intros p. rewrite own_set_dyn. reflexivity.
      * exact SU.
    + constructor.
      * apply (W_same w); auto. apply H.
      * eapply inv_ext; [|apply (G_I _ H)]. intros p. rewrite own_set_dyn. symmetry. apply up_same.
        rewrite own_dyn, E. reflexivity.
      * exact SU.
  - (* dyn destroy *)
    destruct (w_dyns w n) as [o|] eqn:E; auto. destruct o as [i|]; cbn [drop_opt].
    + constructor.
      * apply (W_same w); auto; [apply H|]. intros y. apply frees_snoc. exact Logic.I.
      * eapply inv_ext; [|apply (I_end w (2 * n + 1) i (EvDropFut i)); [apply H|rewrite own_dyn, E; reflexivity|auto]].
        intros p. rewrite own_set_dyn. reflexivity.
      * exact SU.
    + constructor.
      * apply (W_same w); auto. apply H.
      * eapply inv_ext; [|apply (G_I _ H)]. intros p. rewrite own_set_dyn. symmetry. apply up_same.
        rewrite own_dyn, E. reflexivity.
      * exact SU.
  - (* new waker *)
    constructor; [|apply H|exact SU]. pose proof (G_W _ H) as HW. constructor; prj.
    + intros y. rewrite cnt_app. cbn [count_occ]. unfold fupd.
      destruct (Nat.eqb_spec y (w_nw w)) as [->|N].
      * pose proof (W_rc _ HW (w_nw w)) as K. rewrite (W_new _ HW) in K by lia.
        destruct (Nat.eq_dec (w_nw w) (w_nw w)); [lia|congruence].
      * rewrite (W_rc _ HW y). destruct (Nat.eq_dec (w_nw w) y); [congruence|lia].
    + intros y Hy. unfold fupd. destruct (Nat.eqb_spec y (w_nw w)); [lia|]. apply (W_new _ HW). lia.
    + intros y. rewrite (W_free _ HW y). unfold fupd.
      destruct (Nat.eqb_spec y (w_nw w)) as [->|N].
      * rewrite Nat.ltb_irrefl. cbn [Nat.eqb andb]. now rewrite andb_false_r.
      * destruct (Nat.ltb_spec y (w_nw w)), (Nat.ltb_spec y (Datatypes.S (w_nw w))); try lia; reflexivity.
  - (* release *)
    destruct (nth_error (w_cpp w) j) as [x|] eqn:Ex; auto.
    destruct (destroy_ok w x (remove_nth j (w_cpp w)) (w_rust w) (G_W _ H) St) as (A & B & C & l & D & _).
    { intros y. rewrite (cnt_remove_nth _ _ _ y Ex). lia. }
    change (set_rust (set_cpp w (remove_nth j (w_cpp w))) (w_rust w)) with (set_cpp w (remove_nth j (w_cpp w))) in *.
    constructor; [exact A|eapply I_wk; [exact D|apply H]|]. rewrite (wk_stat _ _ _ D), St. discriminate.
  - (* rust *)
    destruct (hop_ok S w h (G_W _ H) St) as (A & B & l & D & _).
    constructor; [exact A|eapply I_wk; [exact D|apply H]|]. rewrite (wk_stat _ _ _ D), St. discriminate.
Qed.

Lemma run_G : forall S ops w, G w -> G (fold_left (step S) ops w).
Proof. induction ops as [|o r IH]; cbn; intros w H; auto. apply IH, step_G, H. Qed.
