(** The depth-first iterator, and what restrictions say about the parts of a type. *)
From Coq Require Import List Bool Arith Lia.
From Verif Require Import Visibility.Model Visibility.Spec.
Import ListNotations.

Lemma ownerless_iff r : ownerless r <-> has_unique_owning_target r = false.
Proof. unfold ownerless, has_unique_owning_target. destruct (r_template r), (r_canonical_alias r); cbn; intuition congruence. Qed.

Section Ind.
  Variable P : ty -> Prop.
  Hypothesis H : forall t, (forall u, part t u -> P u) -> P t.
  Lemma ty_part_ind : forall t, P t.
  Proof.
    assert (L : forall n t, size t <= n -> P t).
    { induction n as [|n IH]; intros t S; [destruct t; cbn [size] in S; lia|].
      assert (In_size : forall l u, In u l -> size u <= list_sum (map size l)).
      { induction l as [|a l IHl]; intros u []; cbn [map list_sum fold_right].
        - subst. unfold list_sum. cbn [fold_right]. lia.
        - specialize (IHl _ H0). unfold list_sum in *. cbn [fold_right]. lia. }
      apply H. intros u Pu. apply IH. destruct Pu; cbn [size] in S; try lia;
        match goal with I : In _ _ |- _ => specialize (In_size _ _ I) end; lia. }
    intros t. eapply L. apply le_n.
  Qed.
End Ind.

(** Recursive form of the iterator. *)
Fixpoint pre (t : ty) : list ty :=
  t :: match t with
       | TPtr u | TRef u | TRvalueRef u | TAlias _ u | TOptional u | TCo u => pre u
       | TFunc _ ps r | TCallable ps r => flat_map pre ps ++ pre r
       | TPair a b => pre a ++ pre b
       | _ => []
       end.
Lemma push_rev l : forall todo, fold_left push (rev l) todo = l ++ todo.
Proof. induction l as [|a l IH]; intros todo; cbn [rev]; [reflexivity|]. now rewrite fold_left_app, IH. Qed.
Lemma pre_eq t : pre t = t :: flat_map pre (push_children t []).
Proof.
  destruct t; cbn [pre push_children push flat_map]; rewrite ?app_nil_r; try reflexivity.
  all: rewrite push_rev, flat_map_app; cbn [push flat_map]; now rewrite app_nil_r.
Qed.
Lemma push_children_app t todo : push_children t todo = push_children t [] ++ todo.
Proof. destruct t; cbn [push_children push app]; try reflexivity; rewrite !push_rev; cbn [push]; now rewrite <- app_assoc. Qed.
Lemma size_pos t : 1 <= size t.
Proof. destruct t; cbn; lia. Qed.
Notation sizes l := (list_sum (map size l)).
Lemma size_children t : sizes (push_children t []) < size t.
Proof.
  destruct t; cbn [push_children push size]; rewrite ?push_rev; unfold push; rewrite ?map_app, ?list_sum_app; unfold list_sum; cbn [map fold_right]; lia.
Qed.
Lemma iterate_pre : forall fuel todo, sizes todo <= fuel -> iterate fuel todo = flat_map pre todo.
Proof.
  induction fuel as [|n IH]; intros [|c r] S; cbn [iterate flat_map]; try reflexivity.
  - assert (P := size_pos c). unfold list_sum in S. cbn [map fold_right] in S. lia.
  - rewrite push_children_app, IH.
    + rewrite (pre_eq c), flat_map_app. reflexivity.
    + rewrite map_app, list_sum_app. assert (C := size_children c). unfold list_sum in *. cbn [map fold_right] in S. lia.
Qed.
Theorem dfs_iter_pre t : dfs_iter t = pre t.
Proof. unfold dfs_iter. rewrite iterate_pre; [cbn [flat_map]; now rewrite app_nil_r|]. unfold list_sum. cbn. lia. Qed.

Lemma pre_head t : exists l, pre t = t :: l.
Proof. rewrite pre_eq. eauto. Qed.
Lemma pre_self t : In t (pre t).
Proof. rewrite pre_eq. now left. Qed.
Lemma pre_child t u v : In u (push_children t []) -> In v (pre u) -> In v (pre t).
Proof. intros I J. rewrite pre_eq. right. apply in_flat_map. eauto. Qed.
Lemma child_part t u : In u (push_children t []) -> part t u.
Proof.
  destruct t; cbn [push_children push]; rewrite ?push_rev; cbn [push In]; intros I; try contradiction.
  all: try (destruct I as [<-|[]]; constructor; fail).
  - apply in_app_iff in I as [I|[<-|[]]]; constructor; exact I.
  - destruct I as [<-|[<-|[]]]; constructor.
  - apply in_app_iff in I as [I|[<-|[]]]; constructor; exact I.
Qed.
(** Everything the iterator finds is a part; it finds everything except arguments of generics. *)
Lemma pre_made_of t : forall u, In u (pre t) -> made_of t u.
Proof.
  induction t as [t IH] using ty_part_ind. intros u. rewrite pre_eq. intros [<-|I]; [constructor|].
  apply in_flat_map in I as (c & Ic & Iu). assert (P := child_part _ _ Ic). econstructor; [exact P|]. now apply IH.
Qed.
Lemma part_child t u : part t u -> (match t with TUniform _ l | TBridgeGeneric l | TExisting l => l = [] | _ => True end) -> In u (push_children t []).
Proof. intros []; cbn [push_children push]; rewrite ?push_rev; intros E; subst; cbn; auto; try contradiction; apply in_app_iff; cbn; auto. Qed.
Lemma plain_part t u : plain t -> part t u -> plain u.
Proof. intros H P v M. apply H. econstructor; eauto. Qed.
Lemma made_of_pre t u : plain t -> made_of t u -> In u (pre t).
Proof.
  intros H M. induction M as [t|t u v P M IH]; [apply pre_self|].
  eapply pre_child; [apply part_child; [exact P|apply (H t), m_here]|]. apply IH. eapply plain_part; eauto.
Qed.

Section Targets.
  Variable features : nat -> feats.
  Notation shallow := (type_target_restriction_shallow features).
  Notation restriction := (type_target_restriction features).
  Notation visibility := (type_visibility features).

  Definition meet := fun acc c => match acc with Some old => intersect_target_restrictions old (shallow c) | None => None end.
  Lemma fold_none l : fold_left meet l None = None.
  Proof. induction l; cbn; auto. Qed.
  Lemma fold_some l : forall old new, fold_left meet l (Some old) = Some new ->
    (forall a, old = Some a -> new = Some a) /\ (forall c a, In c l -> shallow c = Some a -> new = Some a)
    /\ (forall a, new = Some a -> old = Some a \/ exists c, In c l /\ shallow c = Some a).
  Proof.
    induction l as [|c l IH]; intros old new; cbn [fold_left].
    - intros [= <-]. split; [auto|]. split; [intros c a []|auto].
    - cbn [meet]. unfold intersect_target_restrictions. destruct old as [o|], (shallow c) as [s|] eqn:E.
      + destruct (Nat.eqb_spec o s) as [<-|D]; [|intros F; rewrite fold_none in F; discriminate].
        intros F. destruct (IH _ _ F) as (A & B & C). split; [exact A|]. split.
        * intros c' a [<-|I] S; [|eauto]. rewrite E in S. auto.
        * intros a N. destruct (C _ N) as [?|(c' & I & S)]; eauto. right. exists c'. cbn. auto.
      + intros F. destruct (IH _ _ F) as (A & B & C). split; [exact A|]. split.
        * intros c' a [<-|I] S; [congruence|eauto].
        * intros a N. destruct (C _ N) as [?|(c' & I & S)]; eauto. right. exists c'. cbn. auto.
      + intros F. destruct (IH _ _ F) as (A & B & C). split; [discriminate|]. split.
        * intros c' a [<-|I] S; [rewrite E in S; auto|eauto].
        * intros a N. right. destruct (C _ N) as [S|(c' & I & S)]; [exists c; cbn; split; [auto|congruence]|exists c'; cbn; auto].
      + intros F. destruct (IH _ _ F) as (A & B & C). split; [discriminate|]. split.
        * intros c' a [<-|I] S; [congruence|eauto].
        * intros a N. right. destruct (C _ N) as [?|(c' & I & S)]; [discriminate|exists c'; cbn; auto].
  Qed.
  Lemma restriction_spec t r : restriction t = Some r ->
    (forall c a, In c (pre t) -> shallow c = Some a -> r = Some a) /\ (forall a, r = Some a -> exists c, In c (pre t) /\ shallow c = Some a).
  Proof.
    unfold type_target_restriction. rewrite dfs_iter_pre. destruct (pre t) as [|c l]; [discriminate|]. intros F.
    destruct (fold_some l _ _ F) as (A & B & C). split.
    - intros c' a [<-|I] S; eauto.
    - intros a N. destruct (C _ N) as [S|(c' & I & S)]; [exists c; cbn; auto|exists c'; cbn; auto].
  Qed.
  (** No error if all restrictions agree. *)
  Lemma restriction_total t cur : (forall c a, In c (pre t) -> shallow c = Some a -> a = cur) -> restriction t = Some None \/ restriction t = Some (Some cur).
  Proof.
    intros H. unfold type_target_restriction. rewrite dfs_iter_pre. destruct (pre_head t) as (l & E). rewrite E in *.
    assert (G : forall l old, (old = None \/ old = Some cur) -> (forall c a, In c l -> shallow c = Some a -> a = cur) ->
              fold_left meet l (Some old) = Some None \/ fold_left meet l (Some old) = Some (Some cur)).
    { clear. induction l as [|c l IH]; intros old O H; cbn [fold_left]; [destruct O as [-> | ->]; auto|].
      assert (Hc : shallow c = None \/ shallow c = Some cur). { destruct (shallow c) as [a|] eqn:E; [|auto]. right. f_equal. eapply H; [left; reflexivity|exact E]. }
      assert (Hl : forall c0 a, In c0 l -> shallow c0 = Some a -> a = cur) by (intros; eapply H; [right|]; eauto).
      cbn [meet]. unfold intersect_target_restrictions. destruct O as [-> | ->], Hc as [-> | ->]; try (apply IH; auto; fail).
      rewrite Nat.eqb_refl. apply IH; auto. }
    apply G.
    - destruct (shallow t) as [a|] eqn:S; [right; f_equal; eapply H; [left; reflexivity|exact S]|auto].
    - intros c a I. apply H. now right.
  Qed.

  Lemma shallow_made_of t a : shallow t = Some a -> exists r, made_of t (TRecord r) /\ has_unique_owning_target r = false /\ r_owner r = a
     /\ shallow (TRecord r) = Some a.
  Proof.
    induction t; cbn [type_target_restriction_shallow unalias]; unfold type_target_restriction_shallow; cbn [unalias]; try discriminate.
    - intros E. exists r. destruct (has_unique_owning_target r); [discriminate|]. cbn [orb] in *.
      destruct (f_template _); [discriminate|]. destruct (f_experimental _); [discriminate|]. injection E as <-. repeat split; auto. constructor.
    - intros E. destruct (IHt E) as (r & M & R). exists r. split; [|exact R]. econstructor; [constructor|exact M].
  Qed.
  Lemma made_of_trans a b c : made_of a b -> made_of b c -> made_of a c.
  Proof. induction 1; auto. intros. econstructor; eauto. Qed.

  (** The visibility of a type never fails in the target it is instantiated for. *)
  Lemma visibility_total t cur : instantiated_in cur t -> exists v, visibility cur t = Some v.
  Proof.
    intros L. unfold type_visibility. destruct (restriction_total t cur) as [E|E].
    - intros c a I S. destruct (shallow_made_of _ _ S) as (r & M & U & O & _). rewrite <- O. apply L; [|apply ownerless_iff; exact U].
      eapply made_of_trans; [apply pre_made_of; exact I|exact M].
    - rewrite E. eauto.
    - rewrite E, Nat.eqb_refl. eauto.
  Qed.

  Lemma record_visibility r : (shallow (TRecord r) = None -> visibility (r_owner r) (TRecord r) = Some Public)
    /\ (forall a, shallow (TRecord r) = Some a -> a = r_owner r /\ visibility (r_owner r) (TRecord r) = Some PubCrate).
  Proof.
    split.
    - intros E. unfold type_visibility, type_target_restriction. rewrite dfs_iter_pre. cbn [pre fold_left]. now rewrite E.
    - intros a E. unfold type_visibility, type_target_restriction. rewrite dfs_iter_pre. cbn [pre fold_left]. rewrite E.
      destruct (shallow_made_of _ _ E) as (r' & M & _ & O & _). inversion M as [|? ? ? P]; subst; [|inversion P]. now rewrite Nat.eqb_refl.
  Qed.

  Lemma public_parts lib t u : visibility lib t = Some Public -> In u (pre t) -> shallow u = None.
  Proof.
    unfold type_visibility. destruct (restriction t) as [[l|]|] eqn:E; [destruct (l =? lib); discriminate| |discriminate].
    intros _ I. destruct (restriction_spec _ _ E) as (A & _). destruct (shallow u) as [a|] eqn:S; [|reflexivity]. specialize (A _ _ I S). discriminate.
  Qed.

  Lemma func_visibility_public f : func_visibility features f = Some Public -> forall t, In t (fn_params f ++ [fn_ret f]) -> visibility (fn_owner f) t = Some Public.
  Proof.
    unfold func_visibility. assert (G : forall l acc, fold_left (fun acc t => match acc, visibility (fn_owner f) t with Some v, Some v' => Some (vis_or v v') | _, _ => None end) l acc = Some Public ->
       acc = Some Public /\ forall t, In t l -> visibility (fn_owner f) t = Some Public).
    { induction l as [|t l IH]; intros acc; cbn [fold_left]; [intros ->; split; [auto|intros ? []]|]. intros F. apply IH in F as (F & R).
      destruct acc as [[]|], (visibility (fn_owner f) t) as [[]|] eqn:E; try discriminate. split; [auto|]. intros t' [<-|I]; auto. }
    intros F. now apply G in F.
  Qed.
End Targets.
