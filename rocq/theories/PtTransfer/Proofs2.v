(** Every statement of the analysis follows the machine. *)
From Coq Require Import List Arith ZArith Bool Lia.
From Verif.Lifetimes Require Model.
From Verif.PointsTo Require Import Model Spec Proofs.
From Verif.PtTransfer Require Import Model Spec Proofs.
Import ListNotations.
Local Open Scope Z_scope.

Section Sound.
Variables (abs : Z -> object) (R : repo) (L : layout).
Hypothesis rep : represents abs R L.

Definition follows (o : outcome) (sv : oset) (s' : machine) : Prop :=
  match o with Go (m', _, sv') => clean m' /\ covers abs m' s' /\ sv' = sv | Stop _ => True end.
Lemma follows_eval m c sv s id o v : clean m -> covers abs m s -> (forall x, In x v -> In (abs x) o) ->
  follows (Go (set_expr m (Leaf id) o, c, sv)) sv (eval s id v).
Proof. intros C Cov H. split; [apply clean_set_expr; exact C|]. split; [apply eval_covers; assumption|reflexivity]. Qed.
Lemma follows_same m c sv s : clean m -> covers abs m s -> follows (Go (m, c, sv)) sv s.
Proof. intros. repeat split; try apply H0; auto. Qed.

Lemma upd_writes s l o v id r : pointer_of v o ->
  writes (eval s id r) (fun x => x = l) v (Machine (upd (mem s) l o) (upd (reg s) id r)).
Proof.
  intros H. split; [reflexivity|]. split; cbn [mem eval].
  - intros x ->. unfold upd. destruct (Z.eq_dec l l); [exact H|congruence].
  - intros x N. unfold upd. destruct (Z.eq_dec x l); [congruence|reflexivity].
Qed.
Lemma value_eval s id v e : operand e <> id -> value (eval s id v) e = value s e.
Proof. intros N. unfold value, eval, upd. cbn. destruct (Z.eq_dec (operand e) id); [congruence|reflexivity]. Qed.

(** Moving a stored pointer within its array changes nothing for the analysis. *)
Lemma covers_move m s l v v' : covers abs m s -> mem s l = Some v -> same_array L v v' ->
  covers abs m (Machine (upd (mem s) l (Some v')) (reg s)).
Proof.
  intros [Hm Hr] E A. split; [|exact Hr]. intros l0 x. cbn [mem]. unfold upd. destruct (Z.eq_dec l0 l) as [->|N]; [|apply Hm].
  intros [= <-]. rewrite (rep_array _ _ _ rep _ _ A). apply Hm. exact E.
Qed.

Ltac sub := match goal with
  | H : bind _ _ = Done _ |- _ => let a := fresh "o" in let E := fresh "E" in apply bind_done in H; destruct H as (a & E & H); try apply found_done in E
  end.

Theorem visit_sound e s s' : step L (fields R) e s s' ->
  (forall vars d t i x, e = DeclStmt vars -> In (d, t, Some i) vars -> (exists l, cells L t (var_at L d) l) -> abs x = decl_object R d -> cells L t (var_at L d) x) ->
  forall fuel m c sv o, clean m -> covers abs m s -> (forall x, In x sv -> one_location abs x) ->
  visit R fuel e (m, c, sv) = Done o -> follows o sv s'.
Proof.
  intros St Own fuel m c sv o C Cov One E.
  assert (G : forall e l x, get_expr m e = Some l -> In x (value s e) -> In (abs x) l) by (intros; eapply get_expr_covers; eauto).
  destruct St; unfold visit in E.
  - injection E as <-. apply follows_same; assumption.
  - injection E as <-. apply follows_eval; auto. intros x [<-|[]]. left. symmetry. apply (rep_var _ _ _ rep).
  - injection E as <-. apply follows_eval; auto. intros x [<-|[]]. apply points_get. rewrite <- (rep_var _ _ _ rep). apply Cov. assumption.
  - injection E as <-. apply follows_eval; auto. intros x [<-|[]]. left. symmetry. apply (rep_string _ _ _ rep).
  - sub. injection E as <-. apply follows_eval; auto. subst v. destruct (mem s l) as [y|] eqn:Ey; [|intros x []].
    intros x [<-|[]]. apply get_many_in. exists (abs l). split; [|apply Cov; exact Ey]. apply (G sub _ l E0). rewrite H. left. reflexivity.
  - injection E as <-. apply follows_same; assumption.
  - injection E as <-. apply follows_eval; [exact C|exact Cov|intros x []].
  - rewrite H in E. sub. injection E as <-. apply follows_eval; auto. intros x Hx. eapply G; eauto.
  - injection E as <-. apply follows_same; assumption.
  - sub. injection E as <-. apply follows_eval; auto. intros x [<-|[]]. rewrite (rep_class _ _ _ rep _ _ H0). apply (G sub _ l E0). rewrite H. left. reflexivity.
  - sub. injection E as <-. apply follows_eval; [exact C|exact Cov|intros x []].
  - injection E as <-. exact Logic.I.
  - injection E as <-. apply follows_same; assumption.
  - destruct (pointee_of t) as [[b t']|]; [|injection E as <-; apply follows_same; assumption].
    do 3 sub. injection E as <-. apply follows_same; assumption.
  - unfold next in E. sub. destruct o0 as [m' c']. injection E as <-.
    destruct (declares_sound abs R L rep vars s s' H) with (fuel := fuel) (m := m) (c := c) (m' := m') (c' := c') as [C' Cov']; auto.
    + intros d t i x I. apply (Own vars d t i x eq_refl I).
    + repeat split; try apply Cov'; auto.
  - sub. assert (E1 : o = Go (set_expr m (Leaf id) o0, c, sv)) by (destruct H as [-> | ->]; symmetry; injection E as E; exact E). subst o.
    apply follows_eval; auto. intros x Hx. eapply G; eauto.
  - sub. injection E as <-. split; [apply clean_set_expr; exact C|]. split; [|reflexivity].
    apply (eval_covers abs m (Machine (upd (mem s) l (Some v')) (reg s)) id (get_many m o0) [v] (covers_move m s l v v' Cov H0 H1)).
    intros x [<-|[]]. apply get_many_in. exists (abs l). split; [|apply Cov; exact H0]. apply (G sub _ l E0). rewrite H. left. reflexivity.
  - sub. injection E as <-. split; [apply clean_set_expr; exact C|]. split; [|reflexivity].
    apply (eval_covers abs m (Machine (upd (mem s) l (Some v')) (reg s)) id o0 [l] (covers_move m s l v v' Cov H0 H1)).
    intros x [<-|[]]. apply (G sub _ l E0). rewrite H. left. reflexivity.
  - sub. injection E as <-. apply follows_eval; auto. intros x [<-|[]]. apply (G sub _ l E0). rewrite H. left. reflexivity.
  - assert (E1 : o = Go (m, c, sv)) by (destruct H as [-> | ->]; [destruct tracked; [sub|]|]; symmetry; injection E as E; exact E). subst o. apply follows_same; assumption.
  - sub. injection E as <-. apply follows_eval; auto. intros x [<-|[]]. rewrite (rep_array _ _ _ rep _ _ H0). apply (G base _ l E0). rewrite H. left. reflexivity.
  - (* assignment of a pointer *)
    rename o0 into w. sub. cbn [is_ptr] in E. sub. rename o0 into lo. rename o1 into ro.
    assert (Il : In (abs l) lo) by (apply (G lhs _ l E0); rewrite H; left; reflexivity).
    assert (C' : clean (set_expr m (Leaf id) lo)) by (apply clean_set_expr; exact C).
    assert (Cov' : covers abs (set_expr m (Leaf id) lo) (eval s id [l])) by (apply eval_covers; [exact Cov|intros x [<-|[]]; exact Il]).
    assert (Gr : forall x, In x (value s rhs) -> In (abs x) ro).
    { intros x Hx. apply (get_expr_covers abs (set_expr m (Leaf id) lo) (eval s id [l]) rhs ro x C' Cov' E1). rewrite value_eval; assumption. }
    pose proof (upd_writes s l w (value s rhs) id [l] H0) as W.
    destruct (Nat.eqb (length lo) 1 && forallb (contains sv) lo) eqn:Es.
    + injection E as <-. apply andb_true_iff in Es. destruct Es as [Es Ef]. apply Nat.eqb_eq in Es.
      destruct lo as [|q [|q2 lo]]; try discriminate. destruct Il as [->|[]]. cbn [forallb] in Ef. apply andb_true_iff in Ef. destruct Ef as [Ef _].
      apply contains_spec in Ef. specialize (One _ Ef). unfold set_many. cbn [fold_left]. split; [apply clean_set; exact C'|]. split; [|reflexivity].
      apply (write_strong abs _ (eval s id [l]) (fun x => x = l) (value s rhs) (abs l) ro _ Cov'); [|exact W| |exact Gr].
      * intros x Hx. apply One; [exact Hx|reflexivity].
      * intros x ->. reflexivity.
    + unfold next in E. sub. destruct o0 as [m' c']. injection E as <-. unfold extension in E2. cbn [is_record] in E2. sub. injection E2 as <- <-.
      split; [apply clean_extend_all; exact C'|]. split; [|reflexivity].
      apply (write_weak abs _ (eval s id [l]) (fun x => x = l) (value s rhs) lo ro _ Cov' W); [|exact Gr]. intros x ->. exact Il.
  - sub. rewrite H in E. injection E as <-. apply follows_eval; auto. intros x [<-|[]]. apply (G lhs _ l E0). rewrite H0. left. reflexivity.
  - cbn [xorb] in E. sub. injection E as <-. apply follows_eval; auto. intros x [<-|[]]. rewrite (rep_array _ _ _ rep _ _ H0). apply (G lhs _ l E0). rewrite H. left. reflexivity.
  - cbn [xorb] in E. sub. injection E as <-. apply follows_eval; auto. intros x [<-|[]]. rewrite (rep_array _ _ _ rep _ _ H0). apply (G rhs _ l E0). rewrite H. left. reflexivity.
  - rewrite xorb_nilpotent in E. injection E as <-. apply follows_same; assumption.
  - do 2 sub. injection E as <-. apply follows_eval; auto. intros x Hx. unfold oset_union. apply add_all_in. left.
    destruct (has_expr m t) eqn:Eh; [apply found_done in E0; eapply G; eauto|]. exfalso.
    destruct Cov as [_ Hr]. destruct (Hr _ _ Hx) as (z & Ez & _). unfold has_expr in Eh.
    assert (Ei : ignore_parens t = Leaf (operand t)) by (clear; induction t; [reflexivity|exact IHt]). rewrite Ei in Eh. unfold entry in Ez. rewrite Ez in Eh. discriminate.
  - do 2 sub. injection E as <-. apply follows_eval; auto. intros x Hx. unfold oset_union. apply add_all_in. right.
    destruct (has_expr m f) eqn:Eh; [apply found_done in E1; eapply G; eauto|]. exfalso.
    destruct Cov as [_ Hr]. destruct (Hr _ _ Hx) as (z & Ez & _). unfold has_expr in Eh.
    assert (Ei : ignore_parens f = Leaf (operand f)) by (clear; induction f; [reflexivity|exact IHf]). rewrite Ei in Eh. unfold entry in Ez. rewrite Ez in Eh. discriminate.
  - injection E as <-. apply follows_same; assumption.
  - sub. pose proof (union_inits_in _ _ _ _ E0) as U. destruct o0 as [t|]; [|congruence]. injection E as <-. apply follows_eval; auto.
    intros x Hx. apply in_flat_map in Hx. destruct Hx as ([e b] & Ie & Hx). cbn [fst] in Hx.
    destruct (union_inits_known _ _ _ _ E0 e b Ie) as (z & Ez). destruct U as (_ & _ & U). eapply U; eauto.
  - sub. pose proof (union_inits_in _ _ _ _ E0) as U. destruct o0 as [t|]; [destruct U; congruence|]. injection E as <-. apply follows_same; assumption.
  - unfold next in E. sub. destruct o0 as [m' c']. injection E as <-. rewrite <- (rep_result _ _ _ rep) in E0.
    destruct (proj1 (aggregates_sound abs R L rep) _ _ _ _ _ H fuel m c m' c' C Cov E0) as [C' Cov']. repeat split; try apply Cov'; auto.
  - injection E as <-. apply follows_eval; auto. intros x [<-|[]]. left. symmetry. apply (rep_temp _ _ _ rep).
  - sub. sub. injection E as <-. apply follows_eval; auto. intros x [<-|[]].
    assert (Il : In (abs l) o0) by (apply (G base _ l E0); rewrite H; left; reflexivity).
    destruct (map_objects_total _ _ _ _ E1 _ Il) as (y & Ey). apply (map_objects_in _ _ _ _ E1). right. exists (abs l). split; [exact Il|].
    rewrite (rep_field _ _ _ rep l f y Ey). exact Ey.
  - sub. sub. injection E as <-. apply follows_eval; auto. intros y [<-|[]].
    assert (Il : In (abs l) o0) by (apply (G base _ l E0); rewrite H; left; reflexivity).
    destruct (map_objects_total _ _ _ _ E1 _ Il) as (z & Ez). apply get_many_in. exists z. split.
    + apply (map_objects_in _ _ _ _ E1). right. exists (abs l). auto.
    + rewrite <- (rep_field _ _ _ rep l f z Ez). apply Cov. assumption.
  - sub. injection E as <-. apply follows_same; assumption.
  - injection E as <-. apply follows_eval; auto. intros x [<-|[]]. left. symmetry. apply (rep_this _ _ _ rep).
  - destruct e as [msg|]; injection E as <-; [exact Logic.I|apply follows_same; assumption].
Qed.

(** Along an edge, then upwards in the order of states. *)
Lemma below_covers m m' s : below m m' -> covers abs m s -> covers abs m' s.
Proof. intros [_ B] [Hm Hr]. split; intros; apply B; auto. Qed.
Lemma describes_lower a b s : lower a b -> describes abs a s -> describes abs b s.
Proof.
  destruct a as [m c sv|e], b as [m' c' sv'|e']; cbn; auto; [|intros []]. intros (B & _ & S) (Cov & One). split; [apply (below_covers m m' s B Cov)|auto].
Qed.
Theorem run_sound P entry init A s0 : converged R P entry init A -> own_objects abs R L P -> describes abs init s0 ->
  forall n s, runs L (fields R) P entry s0 n s -> describes abs (A n) s.
Proof.
  intros (Hi & Hc & He) Own D0. induction 1 as [|n n' s s' Hrun IH Hstep Hedge]; [apply (describes_lower _ _ _ Hi D0)|].
  destruct (He _ _ Hedge) as (fuel & r & Ht & Hl). apply (describes_lower _ _ _ Hl). specialize (Hc n). unfold transfer in Ht.
  destruct (A n) as [m c sv|e]; [|injection Ht as <-; exact Logic.I].
  apply bind_done in Ht. destruct Ht as (o & Ho & Ht). injection Ht as <-. destruct IH as [Cov One].
  assert (F : follows o sv s').
  { apply (visit_sound _ _ _ Hstep) with (fuel := fuel) (m := m) (c := c); auto.
    intros vars d t i x Ee. apply (Own n vars d t i x Ee). }
  destruct o as [[[m' c'] sv']|msg]; [|exact Logic.I]. destruct F as (_ & Cov' & ->). split; assumption.
Qed.
End Sound.
