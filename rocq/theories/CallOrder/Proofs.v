(** Proofs about the order of the analysis: without virtual methods the recursion keeps its invariants. *)
From Coq Require Import List Arith ZArith Bool Lia.
From Verif.CallOrder Require Import Model Spec.
Import ListNotations.
Local Open Scope Z_scope.

Section P.
Context {L : Type}.
Variable U : unit_info L.
Notation lookup := (lookup L).
Notation has := (has L).
Notation put := (put L).
Notation env := (env L).
Notation state := (state L).
Notation analyzed := (analyzed L).
Notation visited := (visited L).
Notation State := (State L).

Lemma has_lookup : forall (a : env) f, has a f = true <-> exists r, lookup a f = Some r.
Proof.
  intros a f. unfold Model.has. destruct (lookup a f) as [r|] eqn:E.
  - split; [exists r; reflexivity | reflexivity].
  - split; [discriminate | intros (r & Hr); discriminate].
Qed.
Lemma has_false : forall (a : env) f, has a f = false <-> lookup a f = None.
Proof. intros a f. unfold Model.has. destruct (lookup a f) as [r|] eqn:E; split; congruence. Qed.
Lemma lookup_put : forall (a : env) f r g, lookup (put f r a) g = if g =? f then Some r else lookup a g.
Proof. reflexivity. Qed.
Lemma lookup_put_other : forall (a : env) f r g, g <> f -> lookup (put f r a) g = lookup a g.
Proof. intros a f r g H. rewrite lookup_put. destruct (g =? f) eqn:E; [apply Z.eqb_eq in E; congruence | reflexivity]. Qed.
Lemma lookup_put_same : forall (a : env) f r, lookup (put f r a) f = Some r.
Proof. intros. rewrite lookup_put, Z.eqb_refl. reflexivity. Qed.

(** ** The analysis of a cycle *)
Lemma initialize_ok : forall fs a a', initialize L U fs a = inl a' ->
  (forall g, ~ In g fs -> lookup a' g = lookup a g)
  /\ forall f, (In f fs \/ exists l, lookup a f = Some (Lifetimes L l)) -> exists l, lookup a' f = Some (Lifetimes L l).
Proof.
  induction fs as [|f0 fs IH]; cbn [initialize]; intros a a' H.
  - injection H as <-. split; [reflexivity|]. intros f [[]|Hl]; exact Hl.
  - destruct (disconnected L U f0) as [l0|e] eqn:E0; [|discriminate].
    apply IH in H. destruct H as [H1 H2]. split.
    + intros g Hg. rewrite H1 by (intro Hi; apply Hg; right; exact Hi). apply lookup_put_other. intros ->. apply Hg. left; reflexivity.
    + intros f Hf. apply H2. destruct (Z.eq_dec f f0) as [->|Hn].
      * right. rewrite lookup_put_same. exists l0. reflexivity.
      * rewrite lookup_put_other by exact Hn. destruct Hf as [[->|Hf]|Hf]; [congruence | left; exact Hf | right; exact Hf].
Qed.
Lemma round_ok : forall fs a b a' b', round L U fs a b = inl (a', b') ->
  (forall g, ~ In g fs -> lookup a' g = lookup a g)
  /\ (forall f l, lookup a f = Some (Lifetimes L l) -> exists l', lookup a' f = Some (Lifetimes L l'))
  /\ (b' = false -> b = false /\ a' = a /\ forall f l, In f fs -> lookup a f = Some (Lifetimes L l) -> exists l', single L U f a = Lifetimes L l' /\ isomorphic L U l l' = true).
Proof.
  induction fs as [|f0 fs IH]; cbn [round]; intros a b a' b' H.
  - injection H as <- <-. repeat split; auto. + intros f l Hl. exists l. exact Hl. + intros f l [].
  - destruct (single L U f0 a) as [l1|e] eqn:E1; [|discriminate].
    destruct (lookup a f0) as [[l0|e0]|] eqn:E0.
    + destruct (isomorphic L U l0 l1) eqn:EI.
      * apply IH in H. destruct H as (H1 & H2 & H3). repeat split.
        -- intros g Hg. apply H1. intro Hi. apply Hg. right. exact Hi.
        -- exact H2.
        -- apply H3. assumption.
        -- apply H3. assumption.
        -- intros f l [<-|Hf] Hl.
           ++ exists l1. rewrite E0 in Hl. injection Hl as <-. split; assumption.
           ++ apply H3; assumption.
      * apply IH in H. destruct H as (H1 & H2 & H3). repeat split.
        -- intros g Hg. rewrite H1 by (intro Hi; apply Hg; right; exact Hi). apply lookup_put_other. intros ->. apply Hg. left; reflexivity.
        -- intros f l Hl. destruct (Z.eq_dec f f0) as [->|Hn].
           ++ apply (H2 f0 l1). apply lookup_put_same.
           ++ apply (H2 f l). rewrite lookup_put_other by exact Hn. exact Hl.
        -- destruct (H3 H) as [Hx _]. discriminate.
        -- destruct (H3 H) as [Hx _]. discriminate.
        -- intros f l _ _. destruct (H3 H) as [Hx _]. discriminate.
    + apply IH in H. destruct H as (H1 & H2 & H3). repeat split.
      * intros g Hg. apply H1. intro Hi. apply Hg. right. exact Hi.
      * exact H2.
      * apply H3. assumption.
      * apply H3. assumption.
      * intros f l [<-|Hf] Hl; [congruence | apply H3; assumption].
    + apply IH in H. destruct H as (H1 & H2 & H3). repeat split.
      * intros g Hg. apply H1. intro Hi. apply Hg. right. exact Hi.
      * exact H2.
      * apply H3. assumption.
      * apply H3. assumption.
      * intros f l [<-|Hf] Hl; [congruence | apply H3; assumption].
Qed.
Lemma rounds_ok : forall n fs a a', rounds L U n fs a = inl a' -> (forall f, In f fs -> exists l, lookup a f = Some (Lifetimes L l)) ->
  (forall g, ~ In g fs -> lookup a' g = lookup a g)
  /\ forall f, In f fs -> exists l l', lookup a' f = Some (Lifetimes L l) /\ single L U f a' = Lifetimes L l' /\ isomorphic L U l l' = true.
Proof.
  induction n as [|n IH]; cbn [rounds]; intros fs a a' H Ha; [discriminate|].
  destruct (round L U fs a false) as [[a1 b1]|e] eqn:E1; [|discriminate].
  apply round_ok in E1. destruct E1 as (H1 & H2 & H3). destruct b1.
  - apply IH in H.
    + destruct H as [H4 H5]. split; [|exact H5]. intros g Hg. rewrite H4 by exact Hg. apply H1. exact Hg.
    + intros f Hf. destruct (Ha f Hf) as [l Hl]. apply (H2 f l Hl).
  - injection H as <-. destruct (H3 eq_refl) as (_ & -> & H4). split; [reflexivity|].
    intros f Hf. destruct (Ha f Hf) as [l Hl]. destruct (H4 f l Hf Hl) as (l' & Hs & Hi). exists l, l'. auto.
Qed.
Lemma fail_all : forall e fs (a : env) g, lookup (fold_left (fun a f => put f (Failed L e) a) fs a) g
  = if existsb (Z.eqb g) fs then Some (Failed L e) else lookup a g.
Proof.
  intros e. induction fs as [|f fs IH]; intros a g; cbn [fold_left existsb]; [reflexivity|].
  rewrite IH. rewrite lookup_put. destruct (existsb (Z.eqb g) fs); [rewrite orb_true_r; reflexivity|]. rewrite orb_false_r. reflexivity.
Qed.
Lemma analyze_cycle_ok : forall fs a, (forall g, ~ In g fs -> lookup (analyze_cycle L U fs a) g = lookup a g)
  /\ ((forall f, In f fs -> exists r, lookup (analyze_cycle L U fs a) f = Some r /\ follows_up_to_names U (analyze_cycle L U fs a) f r)
      \/ exists e, forall f, In f fs -> lookup (analyze_cycle L U fs a) f = Some (Failed L e)).
Proof.
  intros fs a. unfold analyze_cycle.
  destruct (match initialize L U fs a with inr e => inr e | inl a' => rounds L U (S (expected_iterations L U fs)) fs a' end) as [a'|e] eqn:E.
  - destruct (initialize L U fs a) as [a1|e1] eqn:E1; [|discriminate].
    apply initialize_ok in E1. destruct E1 as [H1 H2]. apply rounds_ok in E; [|intros f Hf; apply H2; left; exact Hf].
    destruct E as [H3 H4]. split.
    + intros g Hg. rewrite H3 by exact Hg. apply H1. exact Hg.
    + left. intros f Hf. destruct (H4 f Hf) as (l & l' & Hl & Hs & Hi). exists (Lifetimes L l). split; [exact Hl|]. exists l, l'. auto.
  - split.
    + intros g Hg. rewrite fail_all. destruct (existsb (Z.eqb g) fs) eqn:Ex; [|reflexivity].
      apply existsb_exists in Ex. destruct Ex as (x & Hx & Hxe). apply Z.eqb_eq in Hxe. subst x. contradiction.
    + right. exists e. intros f Hf. rewrite fail_all. replace (existsb (Z.eqb f) fs) with true; [reflexivity|].
      symmetry. apply existsb_exists. exists f. split; [exact Hf | apply Z.eqb_refl].
Qed.

(** ** The stack *)
Definition func (v : list entry) (i : nat) : option Z := nth_error (List.map e_func v) i.
Lemma func_lt : forall v i f, func v i = Some f -> (i < length v)%nat.
Proof. intros v i f H. unfold func in H. rewrite <- (map_length e_func v). apply nth_error_Some. congruence. Qed.
Lemma func_some : forall v i, (i < length v)%nat -> exists f, func v i = Some f.
Proof.
  intros v i H. unfold func. destruct (nth_error (List.map e_func v) i) as [f|] eqn:E; [exists f; reflexivity|].
  apply nth_error_None in E. rewrite map_length in E. lia.
Qed.
Lemma cyc_lt : forall v i, cycle_at v i = true -> (i < length v)%nat.
Proof.
  intros v i H. unfold cycle_at in H. destruct (nth_error v i) eqn:E; [|discriminate]. apply nth_error_Some. congruence.
Qed.
Lemma cyc_cons : forall e v i, cycle_at (e :: v) (S i) = cycle_at v i.
Proof. reflexivity. Qed.
Lemma map_mark_cyc : forall v i, (i < length v)%nat -> cycle_at (List.map mark v) i = true.
Proof.
  induction v as [|e v IH]; intros i H; cbn [length] in H; [lia|]. destruct i as [|i]; [reflexivity|].
  cbn [List.map]. rewrite cyc_cons. apply IH. lia.
Qed.
Lemma map_mark_func : forall v, List.map e_func (List.map mark v) = List.map e_func v.
Proof. intro v. rewrite map_map. reflexivity. Qed.
Lemma find_and_mark_none : forall v f, find_and_mark v f = None -> ~ In f (List.map e_func v).
Proof.
  induction v as [|e v IH]; cbn [find_and_mark List.map]; intros f H; [intros []|].
  destruct (find_and_mark v f) as [v''|] eqn:E; [discriminate|].
  destruct (e_func e =? f) eqn:Ee; [discriminate|]. apply Z.eqb_neq in Ee. intros [Hx|Hx]; [congruence | exact (IH f E Hx)].
Qed.
Lemma find_and_mark_some : forall v f v', find_and_mark v f = Some v' ->
  List.map e_func v' = List.map e_func v
  /\ (Forall (fun e => in_overrides e = false) v -> Forall (fun e => in_overrides e = false) v')
  /\ exists j, func v j = Some f
     /\ (forall i, cycle_at v i = true -> cycle_at v' i = true)
     /\ (forall i, (j <= i < length v)%nat -> cycle_at v' i = true)
     /\ (forall i, cycle_at v' i = true -> cycle_at v i = true \/ (j <= i < length v)%nat).
Proof.
  induction v as [|e v IH]; cbn [find_and_mark]; intros f v' H; [discriminate|].
  destruct (find_and_mark v f) as [v''|] eqn:E.
  - injection H as <-. destruct (IH f v'' E) as (H1 & H2 & j & H3 & H4 & H5 & H6). repeat split.
    + cbn [List.map]. rewrite H1. reflexivity.
    + intro Hf. inversion Hf; subst. constructor; auto.
    + exists (S j). repeat split.
      * exact H3.
      * intros [|i] Hi; [exact Hi|]. rewrite cyc_cons in *. apply H4. exact Hi.
      * intros [|i] Hi; [lia|]. rewrite cyc_cons. apply H5. cbn [length] in Hi. lia.
      * intros [|i] Hi; [left; exact Hi|]. rewrite cyc_cons in *. destruct (H6 i Hi) as [Hx|Hx]; [left; exact Hx | right; cbn [length]; lia].
  - destruct (e_func e =? f) eqn:Ee; [|discriminate]. injection H as <-. apply Z.eqb_eq in Ee. repeat split.
    + cbn [List.map]. rewrite map_mark_func. reflexivity.
    + intro Hf. inversion Hf; subst. constructor; [assumption|]. apply Forall_forall. intros x Hx. apply in_map_iff in Hx.
      destruct Hx as (y & <- & Hy). cbn [mark in_overrides]. match goal with HF : Forall _ v |- _ => rewrite Forall_forall in HF; apply HF; exact Hy end.
    + exists 0%nat. repeat split.
      * cbn. rewrite Ee. reflexivity.
      * intros i Hi. apply cyc_lt in Hi. apply (map_mark_cyc (e :: v)). exact Hi.
      * intros i Hi. apply (map_mark_cyc (e :: v)). lia.
      * intros i Hi. right. apply cyc_lt in Hi. cbn [length] in *. rewrite map_length in Hi. lia.
Qed.

(** ** Invariants *)
Variable R : Z -> Prop.
Variable F : list Z.
Hypothesis R_closed : forall f g, R f -> calls U f g -> R g.
Hypothesis R_F : forall f, R f -> In f F.
Hypothesis novirt : no_virtual U.
Hypothesis local : depends_on_callees U.

Definition to_recursion (f : Z) : Prop := exists g, reaches U f g /\ recursive U g.
Definition settled (a : env) (f : Z) (r : result L) : Prop :=
  follows U a f r \/ (to_recursion f /\ (follows_up_to_names U a f r \/ exists e, r = Failed L e)).
Definition closed (a : env) (g : Z) : Prop := builtin L U g = true \/ has a g = true.
Definition ext (a a' : env) : Prop := forall f r, lookup a f = Some r -> lookup a' f = Some r.
Definition result_ok (a : env) (f : Z) (r : result L) : Prop :=
  R f /\ builtin L U f = false /\ settled a f r /\ forall g, calls U f g -> closed a g.
Record inv (st : state) : Prop := Inv {
  i_nodup : NoDup (List.map e_func (visited st));
  i_stack : forall f, In f (List.map e_func (visited st)) -> R f /\ has_body U f /\ (exists cs, callees L U f = inl cs) /\ has (analyzed st) f = false;
  i_ov : Forall (fun e => in_overrides e = false) (visited st);
  i_res : forall f r, lookup (analyzed st) f = Some r -> result_ok (analyzed st) f r;
  i_cyc : forall i f, func (visited st) i = Some f -> cycle_at (visited st) i = true -> to_recursion f
}.
Definition explored (st : state) (i : nat) (c : Z) : Prop :=
  closed (analyzed st) c \/ exists j, func (visited st) j = Some c /\ forall m, (j <= m <= i)%nat -> cycle_at (visited st) m = true.
Definition arrived (st : state) (c : Z) : Prop :=
  closed (analyzed st) c \/ exists j, func (visited st) j = Some c /\ forall m, (j <= m < length (visited st))%nat -> cycle_at (visited st) m = true.
Record moves (st st' : state) : Prop := Moves {
  m_ext : ext (analyzed st) (analyzed st');
  m_len : (length (visited st) <= length (visited st'))%nat;
  m_func : forall i, (i < length (visited st))%nat -> func (visited st') i = func (visited st) i;
  m_cyc : forall i, cycle_at (visited st) i = true -> cycle_at (visited st') i = true;
  m_new : forall i, (length (visited st) <= i < length (visited st'))%nat -> cycle_at (visited st') i = true;
  m_below : (length (visited st) < length (visited st'))%nat -> exists k, length (visited st) = S k /\ cycle_at (visited st') k = true;
  m_done : forall i g c, (length (visited st) <= i)%nat -> func (visited st') i = Some g -> calls U g c -> explored st' i c;
  m_keep : forall i c, (i < length (visited st))%nat -> explored st i c -> explored st' i c
}.
Lemma ext_refl : forall a, ext a a.
Proof. intros a f r H. exact H. Qed.
Lemma ext_trans : forall a b c, ext a b -> ext b c -> ext a c.
Proof. intros a b c H1 H2 f r H. apply H2, H1, H. Qed.
Lemma ext_has : forall a b f, ext a b -> has a f = true -> has b f = true.
Proof. intros a b f He H. apply has_lookup in H. destruct H as [r Hr]. apply has_lookup. exists r. apply He. exact Hr. Qed.
Lemma ext_closed : forall a b f, ext a b -> closed a f -> closed b f.
Proof. intros a b f He [H|H]; [left; exact H | right; exact (ext_has a b f He H)]. Qed.
Lemma moves_refl : forall st, moves st st.
Proof.
  intro st. constructor.
  - apply ext_refl. - lia. - reflexivity. - auto. - intros i Hi. lia. - intro H. lia.
  - intros i g c Hi Hg _. apply func_lt in Hg. lia.
  - auto.
Qed.
Lemma moves_trans : forall s1 s2 s3, moves s1 s2 -> moves s2 s3 -> moves s1 s3.
Proof.
  intros s1 s2 s3 [a1 a2 a3 a4 a5 a6 a7 a8] [b1 b2 b3 b4 b5 b6 b7 b8]. constructor.
  - exact (ext_trans _ _ _ a1 b1).
  - lia.
  - intros i Hi. rewrite b3 by lia. apply a3. exact Hi.
  - auto.
  - intros i Hi. destruct (Nat.lt_ge_cases i (length (visited s2))); [apply b4, a5; lia | apply b5; lia].
  - intro H. destruct (Nat.lt_ge_cases (length (visited s1)) (length (visited s2))) as [Hl|Hl].
    + destruct (a6 Hl) as (k & Hk & Hc). exists k. split; [exact Hk | apply b4; exact Hc].
    + assert (Heq : length (visited s2) = length (visited s1)) by lia. rewrite Heq in b6. exact (b6 H).
  - intros i g c Hi Hg Hc. destruct (Nat.lt_ge_cases i (length (visited s2))) as [Hl|Hl].
    + apply b8; [exact Hl|]. apply (a7 i g c Hi); [|exact Hc]. rewrite <- b3 by exact Hl. exact Hg.
    + exact (b7 i g c Hl Hg Hc).
  - intros i c Hi He. apply b8; [lia|]. apply a8; assumption.
Qed.

(** Results stay right when results for other functions are added. *)
Lemma single_ext : forall a b f, ext a b -> (forall g r, lookup b g = Some r -> builtin L U g = false) -> (forall g, calls U f g -> closed a g) ->
  single L U f b = single L U f a.
Proof.
  intros a b f He Hb Hc. apply local. intros g Hg. destruct (Hc g Hg) as [H|H].
  - destruct (lookup b g) as [r|] eqn:E; [rewrite (Hb g r E) in H; discriminate|].
    destruct (lookup a g) as [r|] eqn:E2; [apply He in E2; congruence | reflexivity].
  - apply has_lookup in H. destruct H as [r Hr]. rewrite Hr. apply He. exact Hr.
Qed.
Lemma result_ok_ext : forall a b f r, ext a b -> (forall g r, lookup b g = Some r -> builtin L U g = false) -> result_ok a f r -> result_ok b f r.
Proof.
  intros a b f r He Hb (H1 & H2 & H3 & H4). split; [exact H1|]. split; [exact H2|]. split.
  - pose proof (single_ext a b f He Hb H4) as Hs. destruct H3 as [H3|[Ht H3]].
    + left. destruct H3 as [Hd|e Hd Hc|Hb' Hcs].
      * apply FDeclared. exact Hd.
      * apply FNoCallees; assumption.
      * rewrite <- Hs. apply FBody; assumption.
    + right. split; [exact Ht|]. destruct H3 as [(l & l' & E1 & E2 & E3)|H3]; [left | right; exact H3].
      exists l, l'. rewrite Hs. auto.
  - intros g Hg. exact (ext_closed a b g He (H4 g Hg)).
Qed.

(** Adding a result for a function that is not on the stack. *)
Lemma put_step : forall st f r, inv st -> has (analyzed st) f = false -> ~ In f (List.map e_func (visited st)) ->
  result_ok (put f r (analyzed st)) f r ->
  inv (State (put f r (analyzed st)) (visited st)) /\ moves st (State (put f r (analyzed st)) (visited st)) /\ arrived (State (put f r (analyzed st)) (visited st)) f.
Proof.
  intros st f r HI Hf Hn Hr.
  assert (He : ext (analyzed st) (put f r (analyzed st))).
  { intros g x Hg. rewrite lookup_put_other; [exact Hg|]. intros ->. apply has_false in Hf. congruence. }
  assert (Hb : forall g x, lookup (put f r (analyzed st)) g = Some x -> builtin L U g = false).
  { intros g x Hg. destruct (Z.eq_dec g f) as [->|Hne]; [exact (proj1 (proj2 Hr))|].
    rewrite lookup_put_other in Hg by exact Hne. exact (proj1 (proj2 (i_res _ HI g x Hg))). }
  split; [|split].
  - constructor; cbn [Model.visited Model.analyzed].
    + exact (i_nodup _ HI).
    + intros g Hg. destruct (i_stack _ HI g Hg) as (H1 & H2 & H3 & H4). repeat split; try assumption; try apply H2.
      apply has_false. rewrite lookup_put_other by (intros ->; exact (Hn Hg)). apply has_false. exact H4.
    + exact (i_ov _ HI).
    + intros g x Hg. destruct (Z.eq_dec g f) as [->|Hne].
      * rewrite lookup_put_same in Hg. injection Hg as <-. exact Hr.
      * rewrite lookup_put_other in Hg by exact Hne. apply (result_ok_ext (analyzed st)); [exact He | exact Hb | exact (i_res _ HI g x Hg)].
    + exact (i_cyc _ HI).
  - constructor; cbn [Model.visited Model.analyzed]; auto; try lia.
    + intros i g c Hi Hg _. apply func_lt in Hg. lia.
    + intros i c Hi [H|H]; [left; exact (ext_closed _ _ c He H) | right; exact H].
  - left. right. apply has_lookup. exists r. apply lookup_put_same.
Qed.

(** Loops over callees. *)
Lemma over_ok : forall (visit : Z -> state -> res state) cs st,
  inv st ->
  (forall c s, In c cs -> moves st s -> inv s -> exists s', visit c s = Done _ s' /\ inv s' /\ moves s s' /\ arrived s' c) ->
  exists st', over L visit cs st = Done _ st' /\ inv st' /\ moves st st' /\ forall c i, (i < length (visited st))%nat -> In c cs -> explored st' i c.
Proof.
  intros visit cs. induction cs as [|c cs IH]; intros st HI Hv.
  - exists st. cbn [over]. split; [reflexivity|]. split; [exact HI|]. split; [apply moves_refl | intros c i _ []].
  - cbn [over]. destruct (Hv c st (or_introl eq_refl) (moves_refl st) HI) as (s1 & E1 & I1 & M1 & A1).
    rewrite E1. cbn [bind]. destruct (IH s1 I1) as (s2 & E2 & I2 & M2 & X2).
    + intros c' s Hc' Hm Hs. apply Hv; [right; exact Hc' | exact (moves_trans _ _ _ M1 Hm) | exact Hs].
    + exists s2. split; [exact E2|]. split; [exact I2|]. split; [exact (moves_trans _ _ _ M1 M2)|].
      intros c' i Hi [<-|Hc'].
      * apply (m_keep _ _ M2); [pose proof (m_len _ _ M1); lia|].
        destruct A1 as [A|(j & Hj & Hm)]; [left; exact A | right]. exists j. split; [exact Hj|].
        intros m Hm'. apply Hm. pose proof (m_len _ _ M1). lia.
      * apply X2; [pose proof (m_len _ _ M1); lia | exact Hc'].
Qed.

Lemma nth_firstn : forall {A} (l : list A) k i, (i < k)%nat -> nth_error (firstn k l) i = nth_error l i.
Proof.
  intros A. induction l as [|x l IH]; intros k i H; [rewrite firstn_nil; reflexivity|].
  destruct k as [|k]; [lia|]. cbn [firstn]. destruct i as [|i]; [reflexivity|]. cbn [nth_error]. apply IH. lia.
Qed.
Lemma func_firstn : forall v k i, (i < k)%nat -> func (firstn k v) i = func v i.
Proof. intros v k i H. unfold func. rewrite <- firstn_map. apply nth_firstn. exact H. Qed.
Lemma cyc_firstn : forall v k i, (i < k)%nat -> cycle_at (firstn k v) i = cycle_at v i.
Proof. intros v k i H. unfold cycle_at. rewrite nth_firstn by exact H. reflexivity. Qed.
Lemma func_in : forall v i f, func v i = Some f -> In f (List.map e_func v).
Proof. intros v i f H. exact (nth_error_In _ _ H). Qed.
Lemma in_func : forall v f, In f (List.map e_func v) -> exists i, func v i = Some f.
Proof. intros v f H. apply In_nth_error in H. exact H. Qed.
Lemma func_inj : forall v i j f, NoDup (List.map e_func v) -> func v i = Some f -> func v j = Some f -> i = j.
Proof.
  intros v i j f Hn Hi Hj. apply (proj1 (NoDup_nth_error _) Hn); [|unfold func in *; congruence].
  apply nth_error_Some. unfold func in Hi. congruence.
Qed.
Lemma func_app : forall v e i, func (v ++ [e]) i = if (i =? length v)%nat then Some (e_func e) else func v i.
Proof.
  intros v e i. unfold func. rewrite map_app. cbn [List.map]. destruct (Nat.eqb_spec i (length v)) as [->|Hn].
  - rewrite nth_error_app2 by (rewrite map_length; lia). rewrite map_length, Nat.sub_diag. reflexivity.
  - destruct (Nat.lt_ge_cases i (length v)) as [H|H].
    + apply nth_error_app1. rewrite map_length. exact H.
    + rewrite nth_error_app2 by (rewrite map_length; lia). rewrite map_length.
      destruct (i - length v)%nat as [|[|n]] eqn:E; [lia| |]; cbn; symmetry; apply nth_error_None; rewrite map_length; lia.
Qed.
Lemma cyc_app : forall v f b i, cycle_at (v ++ [Entry f false b]) i = cycle_at v i.
Proof.
  intros v f b i. unfold cycle_at. destruct (Nat.lt_ge_cases i (length v)) as [H|H].
  - rewrite nth_error_app1 by exact H. reflexivity.
  - rewrite nth_error_app2 by exact H. rewrite (proj2 (nth_error_None v i) H).
    destruct (i - length v)%nat as [|[|n]]; reflexivity.
Qed.

(** The functions from a position on are done and leave the stack. *)
Lemma pop_ok : forall st s2 f a', inv st -> inv s2 -> let k := length (visited st) in
  (k < length (visited s2))%nat ->
  ext (analyzed st) (analyzed s2) ->
  (forall i, (i < k)%nat -> func (visited s2) i = func (visited st) i) ->
  (forall i, cycle_at (visited st) i = true -> cycle_at (visited s2) i = true) ->
  (forall i c, (i < k)%nat -> explored st i c -> explored s2 i c) ->
  func (visited s2) k = Some f ->
  ext (analyzed s2) a' ->
  (forall j g, (k <= j)%nat -> func (visited s2) j = Some g -> has a' g = true) ->
  (forall g r, lookup a' g = Some r -> lookup (analyzed s2) g = Some r \/ exists j, (k <= j)%nat /\ func (visited s2) j = Some g /\ result_ok a' g r) ->
  inv (State a' (firstn k (visited s2))) /\ moves st (State a' (firstn k (visited s2))) /\ arrived (State a' (firstn k (visited s2))) f.
Proof.
  intros st s2 f a' HI H2 k Hk He Hfu Hcy Hke Hf Ha Hg Hr.
  assert (Hlen : length (firstn k (visited s2)) = k) by (rewrite firstn_length; lia).
  assert (Hb : forall g r, lookup a' g = Some r -> builtin L U g = false).
  { intros g r Hl. destruct (Hr g r Hl) as [Hx|(j & _ & _ & Hx)]; [exact (proj1 (proj2 (i_res _ H2 g r Hx))) | exact (proj1 (proj2 Hx))]. }
  assert (Hin : forall g, In g (List.map e_func (firstn k (visited s2))) -> exists i, (i < k)%nat /\ func (visited s2) i = Some g).
  { intros g Hgi. apply in_func in Hgi. destruct Hgi as [i Hi]. pose proof (func_lt _ _ _ Hi) as Hlt. rewrite Hlen in Hlt.
    exists i. split; [exact Hlt|]. rewrite func_firstn in Hi by exact Hlt. exact Hi. }
  split; [|split].
  - constructor; cbn [Model.visited Model.analyzed].
    + pose proof (i_nodup _ H2) as Hn. rewrite <- (firstn_skipn k (visited s2)), map_app in Hn. 
      clear - Hn. induction (List.map e_func (firstn k (visited s2))) as [|x l IH]; [constructor|].
      cbn [app] in Hn. inversion Hn as [|? ? Hx Hn']; subst. constructor; [intro Hi; apply Hx; apply in_or_app; left; exact Hi | exact (IH Hn')].
    + intros g Hgi. destruct (Hin g Hgi) as (i & Hi & Hfi). destruct (i_stack _ H2 g (func_in _ _ _ Hfi)) as (P1 & P2 & P3 & P4).
      split; [exact P1|]. split; [exact P2|]. split; [exact P3|]. apply has_false. destruct (lookup a' g) as [r|] eqn:El; [exfalso | reflexivity].
      destruct (Hr g r El) as [Hx|(j & Hj & Hfj & _)].
      * apply has_false in P4. congruence.
      * pose proof (func_inj _ _ _ _ (i_nodup _ H2) Hfi Hfj). lia.
    + pose proof (i_ov _ H2) as Ho. rewrite <- (firstn_skipn k (visited s2)) in Ho. apply Forall_app in Ho. exact (proj1 Ho).
    + intros g r Hl. destruct (Hr g r Hl) as [Hx|(j & _ & _ & Hx)]; [|exact Hx].
      apply (result_ok_ext (analyzed s2)); [exact Ha | exact Hb | exact (i_res _ H2 g r Hx)].
    + intros i g Hi Hc. pose proof (func_lt _ _ _ Hi) as Hlt. rewrite Hlen in Hlt. rewrite func_firstn in Hi by exact Hlt.
      rewrite cyc_firstn in Hc by exact Hlt. exact (i_cyc _ H2 i g Hi Hc).
  - constructor; cbn [Model.visited Model.analyzed].
    + exact (ext_trans _ _ _ He Ha).
    + rewrite Hlen. unfold k. lia.
    + intros i Hi. fold k in Hi. rewrite func_firstn by exact Hi. apply Hfu. exact Hi.
    + intros i Hi. rewrite cyc_firstn by (apply cyc_lt in Hi; exact Hi). apply Hcy. exact Hi.
    + intros i Hi. rewrite Hlen in Hi. fold k in Hi. lia.
    + intro H. rewrite Hlen in H. fold k in H. lia.
    + intros i g c Hi Hgi _. apply func_lt in Hgi. rewrite Hlen in Hgi. fold k in Hi. lia.
    + intros i c Hi Hx. fold k in Hi. destruct (Hke i c Hi Hx) as [Hc|(j & Hj & Hm)].
      * left. exact (ext_closed _ _ c Ha Hc).
      * destruct (Nat.lt_ge_cases j k) as [Hjk|Hjk].
        -- right. exists j. cbn [Model.visited]. split; [rewrite func_firstn by exact Hjk; exact Hj|].
           intros m Hm'. rewrite cyc_firstn by lia. apply Hm. exact Hm'.
        -- left. right. exact (Hg j c Hjk Hj).
  - left. right. exact (Hg k f (le_n k) Hf).
Qed.

Lemma to_recursion_reaches : forall f g, reaches U f g -> to_recursion g -> to_recursion f.
Proof.
  intros f g Hr (h & H1 & H2). exists h. split; [|exact H2]. clear H2. induction Hr as [f|f g h' Hc Hr IH]; [exact H1|].
  exact (RCall U f g h Hc (IH H1)).
Qed.
Lemma reaches_snoc : forall f g h, reaches U f g -> calls U g h -> reaches U f h.
Proof.
  intros f g h Hr Hc. induction Hr as [f|f g h' Hc' Hr IH]; [exact (RCall U f h h Hc (RSelf U h))|].
  exact (RCall U f g h Hc' (IH Hc)).
Qed.

Theorem analyze_ok : forall fuel f st, inv st -> R f -> (length F < fuel + length (visited st))%nat ->
  (forall i g, func (visited st) i = Some g -> cycle_at (visited st) i = true \/ exists h, calls U g h /\ reaches U h f) ->
  exists st', analyze L U fuel f st = Done _ st' /\ inv st' /\ moves st st' /\ arrived st' f.
Proof.
  induction fuel as [|fuel IH]; intros f st HI HR Hfuel Hpath.
  { exfalso. assert (Hle : (length (List.map e_func (visited st)) <= length F)%nat).
    { apply NoDup_incl_length; [exact (i_nodup _ HI)|]. intros g Hg. apply R_F. exact (proj1 (i_stack _ HI g Hg)). }
    rewrite map_length in Hle. lia. }
  cbn [analyze]. destruct (builtin L U f) eqn:Eb.
  { exists st. split; [reflexivity|]. split; [exact HI|]. split; [apply moves_refl|]. left. left. exact Eb. }
  rewrite (novirt f). cbn [andb negb]. rewrite andb_true_r.
  assert (Hov : last_in_overrides (visited st) = false).
  { unfold last_in_overrides. destruct (rev (visited st)) as [|e l] eqn:Er; [reflexivity|].
    pose proof (i_ov _ HI) as Ho. rewrite Forall_forall in Ho. apply Ho. rewrite in_rev, Er. left. reflexivity. }
  rewrite Hov. cbn [negb]. rewrite andb_true_r.
  destruct (has (analyzed st) f) eqn:Eh.
  { cbn [negb]. rewrite andb_false_r. exists st. split; [reflexivity|]. split; [exact HI|]. split; [apply moves_refl|]. left. right. exact Eh. }
  cbn [negb]. rewrite andb_true_r.
  destruct (defined L U f) eqn:Ed.
  2:{ cbn [negb]. exists (State (put f (annotations L U f) (analyzed st)) (visited st)). split; [reflexivity|]. apply put_step; [exact HI | exact Eh | |].
      - intro Hi. destruct (i_stack _ HI f Hi) as (_ & [_ Hd] & _). congruence.
      - split; [exact HR|]. split; [exact Eb|]. split; [left; apply FDeclared; exact Ed|]. intros g [[_ Hd] _]. congruence. }
  cbn [negb].
  destruct (find_and_mark (visited st) f) as [v'|] eqn:Ef.
  { (* f is on the stack *)
    exists (State (analyzed st) v'). split; [reflexivity|].
    destruct (find_and_mark_some _ _ _ Ef) as (M1 & M2 & j & M3 & M4 & M5 & M6).
    assert (Ml : length v' = length (visited st)) by (rewrite <- (map_length e_func v'), M1, map_length; reflexivity).
    assert (Mf : forall i, func v' i = func (visited st) i) by (intro i; unfold func; rewrite M1; reflexivity).
    split; [|split].
    - constructor; cbn [Model.visited Model.analyzed].
      + rewrite M1. exact (i_nodup _ HI).
      + rewrite M1. exact (i_stack _ HI).
      + exact (M2 (i_ov _ HI)).
      + exact (i_res _ HI).
      + intros i g Hi Hc. rewrite Mf in Hi. destruct (M6 i Hc) as [Hc'|Hji]; [exact (i_cyc _ HI i g Hi Hc')|].
        assert (Ht : to_recursion f).
        { destruct (Hpath j f M3) as [Hcj|(h & H1 & H2)]; [exact (i_cyc _ HI j f M3 Hcj)|]. exists f. split; [apply RSelf | exists h; split; assumption]. }
        destruct (Hpath i g Hi) as [Hcj|(h & H1 & H2)]; [exact (i_cyc _ HI i g Hi Hcj)|].
        exact (to_recursion_reaches g f (RCall U g h f H1 H2) Ht).
    - constructor; cbn [Model.visited Model.analyzed].
      + apply ext_refl.
      + lia.
      + intros i _. apply Mf.
      + exact M4.
      + intros i Hi. lia.
      + intro H. lia.
      + intros i g c Hi Hg _. apply func_lt in Hg. lia.
      + intros i c Hi [H|(j' & Hj & Hm)]; [left; exact H | right]. exists j'. cbn [Model.visited]. rewrite Mf. split; [exact Hj|]. intros m Hm'. apply M4, Hm, Hm'.
    - right. exists j. cbn [Model.visited]. rewrite Mf. split; [exact M3|]. intros m Hm. apply M5. lia. }
  apply find_and_mark_none in Ef.
  destruct (callees L U f) as [cs|e] eqn:Ec.
  2:{ exists (State (put f (Failed L e) (analyzed st)) (visited st)). split; [reflexivity|]. apply put_step; [exact HI | exact Eh | exact Ef |].
      split; [exact HR|]. split; [exact Eb|]. split; [left; apply FNoCallees; assumption|]. intros g [_ (cs & Hcs & _)]. congruence. }
  (* f is pushed *)
  set (k := length (visited st)) in *.
  set (s1 := State (analyzed st) (visited st ++ [Entry f false false])).
  assert (Hbody : has_body U f) by (split; assumption).
  assert (I1 : inv s1).
  { constructor; cbn [Model.visited Model.analyzed s1].
    - rewrite map_app. cbn [List.map e_func]. clear - HI Ef. pose proof (i_nodup _ HI) as Hn. revert Ef Hn.
      generalize (List.map e_func (visited st)) as l. induction l as [|x l IHl]; intros Hx Hn; cbn [app].
      + constructor; [intros [] | constructor].
      + inversion Hn as [|? ? Hn1 Hn2]; subst. constructor.
        * rewrite in_app_iff. intros [Hi|[Hi|[]]]; [contradiction | apply Hx; left; congruence].
        * apply IHl; [intro Hi; apply Hx; right; exact Hi | exact Hn2].
    - intros g Hg. rewrite map_app, in_app_iff in Hg. destruct Hg as [Hg|[<-|[]]]; [exact (i_stack _ HI g Hg)|].
      cbn [e_func]. split; [exact HR|]. split; [exact Hbody|]. split; [exists cs; exact Ec | exact Eh].
    - apply Forall_app. split; [exact (i_ov _ HI)|]. constructor; [reflexivity | constructor].
    - exact (i_res _ HI).
    - intros i g Hi Hc. rewrite cyc_app in Hc. rewrite func_app in Hi. pose proof (cyc_lt _ _ Hc) as Hlt. 
      destruct (Nat.eqb_spec i (length (visited st))); [lia|]. exact (i_cyc _ HI i g Hi Hc). }
  assert (L1 : length (visited s1) = S k) by (cbn [Model.visited s1]; rewrite app_length; cbn; unfold k; lia).
  assert (F1 : forall i, (i < k)%nat -> func (visited s1) i = func (visited st) i).
  { intros i Hi. cbn [Model.visited s1]. rewrite func_app. destruct (Nat.eqb_spec i (length (visited st))); [unfold k in Hi; lia | reflexivity]. }
  assert (F1k : func (visited s1) k = Some f).
  { cbn [Model.visited s1]. rewrite func_app. unfold k. rewrite Nat.eqb_refl. reflexivity. }
  assert (C1 : forall i, cycle_at (visited s1) i = cycle_at (visited st) i) by (intro i; cbn [Model.visited s1]; apply cyc_app).
  assert (K1 : forall i c, (i < k)%nat -> explored st i c -> explored s1 i c).
  { intros i c Hi [H|(j & Hj & Hm)]; [left; exact H | right]. exists j. split.
    - rewrite F1 by exact (func_lt _ _ _ Hj). exact Hj.
    - intros m Hm'. rewrite C1. apply Hm. exact Hm'. }
  destruct (over_ok (fun c st => if has (analyzed st) c then Done _ st else analyze L U fuel c st) cs s1 I1) as (s2 & E2 & I2 & M2 & X2).
  { intros c s Hc Hm Hs. assert (Hfc : calls U f c) by (split; [exact Hbody | exists cs; split; [exact Ec | exact Hc]]).
    destruct (has (analyzed s) c) eqn:Ehc.
    - exists s. split; [reflexivity|]. split; [exact Hs|]. split; [apply moves_refl|]. left. right. exact Ehc.
    - apply IH; [exact Hs | exact (R_closed f c HR Hfc) | pose proof (m_len _ _ Hm); lia |].
      intros i g Hi. pose proof (func_lt _ _ _ Hi) as Hlt. destruct (Nat.lt_ge_cases i (S k)) as [Hik|Hik].
      + rewrite (m_func _ _ Hm) in Hi by lia. destruct (Nat.eq_dec i k) as [->|Hne].
        * rewrite F1k in Hi. injection Hi as <-. right. exists c. split; [exact Hfc | apply RSelf].
        * rewrite F1 in Hi by lia. destruct (Hpath i g Hi) as [Hcy|(h & H1 & H2)].
          -- left. apply (m_cyc _ _ Hm). rewrite C1. exact Hcy.
          -- right. exists h. split; [exact H1 | exact (reaches_snoc h f c H2 Hfc)].
      + left. apply (m_new _ _ Hm). lia. }
  rewrite E2. cbn [bind].
  pose proof (m_len _ _ M2) as L2. rewrite L1 in L2.
  assert (F2k : func (visited s2) k = Some f) by (rewrite (m_func _ _ M2) by lia; exact F1k).
  assert (F2 : forall i, (i < k)%nat -> func (visited s2) i = func (visited st) i).
  { intros i Hi. rewrite (m_func _ _ M2) by lia. apply F1. exact Hi. }
  assert (C2 : forall i, cycle_at (visited st) i = true -> cycle_at (visited s2) i = true).
  { intros i Hi. apply (m_cyc _ _ M2). rewrite C1. exact Hi. }
  assert (K2 : forall i c, (i < k)%nat -> explored st i c -> explored s2 i c).
  { intros i c Hi Hx. apply (m_keep _ _ M2); [lia | apply K1; assumption]. }
  assert (Xk : forall i g c, (k <= i)%nat -> func (visited s2) i = Some g -> calls U g c -> explored s2 i c).
  { intros i g c Hi Hg Hc. destruct (Nat.eq_dec i k) as [->|Hne].
    - rewrite F2k in Hg. injection Hg as <-. apply X2; [lia|]. destruct Hc as [_ (cs' & Hcs & Hin)]. congruence.
    - apply (m_done _ _ M2 i g c); [lia | exact Hg | exact Hc]. }
  unfold finish.
  assert (Hnth : exists e, nth_error (visited s2) k = Some e /\ e_func e = f).
  { unfold func in F2k. rewrite nth_error_map in F2k. destruct (nth_error (visited s2) k) as [e|] eqn:En; [|discriminate].
    exists e. split; [reflexivity|]. cbn in F2k. congruence. }
  destruct Hnth as (e & En & Ee). rewrite En, Ee, Z.eqb_refl. cbn [negb].
  assert (Hall : cycle_at (visited s2) k = true -> forall i, (k <= i < length (visited s2))%nat -> cycle_at (visited s2) i = true).
  { intros Hc i Hi. destruct (Nat.eq_dec i k) as [->|Hne]; [exact Hc|]. apply (m_new _ _ M2). lia. }
  assert (Hmore : (S k < length (visited s2))%nat -> cycle_at (visited s2) k = true).
  { intro Hl. destruct (m_below _ _ M2) as (k' & Hk' & Hc); [lia|]. rewrite L1 in Hk'. injection Hk' as <-. exact Hc. }
  assert (Hassert : (k <? length (visited s2) - 1)%nat && negb (forallb in_cycle (skipn k (visited s2))) = false).
  { destruct (k <? length (visited s2) - 1)%nat eqn:El; [|reflexivity]. apply Nat.ltb_lt in El. cbn [andb]. apply negb_false_iff. apply forallb_forall.
    intros x Hx. apply In_nth_error in Hx. destruct Hx as [i Hi]. 
    assert (Hi' : nth_error (visited s2) (k + i) = Some x).
    { rewrite <- Hi. rewrite <- (firstn_skipn k (visited s2)) at 1. rewrite nth_error_app2 by (rewrite firstn_length; lia). f_equal. rewrite firstn_length. lia. }
    assert (Hlt : (k + i < length (visited s2))%nat) by (apply nth_error_Some; congruence).
    assert (Hcy : cycle_at (visited s2) (k + i) = true) by (apply Hall; [apply Hmore; lia | lia]).
    unfold cycle_at in Hcy. rewrite Hi' in Hcy. exact Hcy. }
  rewrite Hassert.
  destruct ((0 <? k)%nat && cycle_at (visited s2) k && cycle_at (visited s2) (k - 1)) eqn:Edefer.
  { (* left on the stack *)
    apply andb_true_iff in Edefer. destruct Edefer as [Ed1 Ed2]. apply andb_true_iff in Ed1. destruct Ed1 as [Ed0 Ed1]. apply Nat.ltb_lt in Ed0.
    exists s2. split; [reflexivity|]. split; [exact I2|]. split.
    - constructor.
      + exact (m_ext _ _ M2).
      + fold k. lia.
      + exact F2.
      + exact C2.
      + intros i Hi. apply Hall; [exact Ed1 | exact Hi].
      + intros _. exists (k - 1)%nat. split; [fold k; lia | exact Ed2].
      + exact Xk.
      + exact K2.
    - right. exists k. split; [exact F2k|]. exact (Hall Ed1). }
  destruct (cycle_at (visited s2) k) eqn:Eck; cbn [negb bind].
  - (* a cycle *)
    assert (Hk0 : k = 0%nat \/ cycle_at (visited s2) (k - 1) = false).
    { rewrite andb_true_r in Edefer. apply andb_false_iff in Edefer. destruct Edefer as [Hx|Hx]; [left; apply Nat.ltb_ge in Hx; lia | right; exact Hx]. }
    set (fs := List.map e_func (skipn k (visited s2))). set (a' := analyze_cycle L U fs (analyzed s2)).
    assert (Hfs : forall g, In g fs <-> exists j, (k <= j)%nat /\ func (visited s2) j = Some g).
    { intro g. unfold fs. assert (Hsk : forall i, nth_error (List.map e_func (skipn k (visited s2))) i = func (visited s2) (k + i)).
      { intro i. unfold func. rewrite <- (firstn_skipn k (visited s2)) at 2. rewrite map_app, nth_error_app2 by (rewrite map_length, firstn_length; lia).
        f_equal. rewrite map_length, firstn_length. lia. }
      split.
      - intro Hg. apply In_nth_error in Hg. destruct Hg as [i Hi]. rewrite Hsk in Hi. exists (k + i)%nat. split; [lia | exact Hi].
      - intros (j & Hj & Hg). apply (nth_error_In _ (j - k)). rewrite Hsk. replace (k + (j - k))%nat with j by lia. exact Hg. }
    destruct (analyze_cycle_ok fs (analyzed s2)) as [A1 A2]. fold a' in A1, A2.
    assert (Hext : ext (analyzed s2) a').
    { intros g r Hl. rewrite A1; [exact Hl|]. intro Hi. apply Hfs in Hi. destruct Hi as (j & _ & Hj).
      destruct (i_stack _ I2 g (func_in _ _ _ Hj)) as (_ & _ & _ & Hh). apply has_false in Hh. congruence. }
    assert (Hhas : forall g, In g fs -> has a' g = true).
    { intros g Hg. apply has_lookup. destruct A2 as [A2|[e0 A2]].
      - destruct (A2 g Hg) as (r & Hr & _). exists r. exact Hr.
      - exists (Failed L e0). exact (A2 g Hg). }
    exists (State a' (firstn k (visited s2))). split; [reflexivity|].
    apply (pop_ok st s2 f a'); try assumption.
    + exact (m_ext _ _ M2).
    + intros j g Hj Hg. apply Hhas. apply Hfs. exists j. split; [exact Hj | exact Hg].
    + intros g r Hl. destruct (in_dec Z.eq_dec g fs) as [Hi|Hi]; [right | left; rewrite <- A1 by exact Hi; exact Hl].
      pose proof (proj1 (Hfs g) Hi) as (j & Hj & Hg). exists j. split; [exact Hj|]. split; [exact Hg|].
      destruct (i_stack _ I2 g (func_in _ _ _ Hg)) as (P1 & [P2 _] & P3 & P4).
      split; [exact P1|]. split; [exact P2|]. split.
      * right. split; [apply (i_cyc _ I2 j g Hg); apply Hall; [reflexivity | split; [exact Hj | exact (func_lt _ _ _ Hg)]]|].
        destruct A2 as [A2|[e0 A2]].
        -- destruct (A2 g Hi) as (r' & Hr' & Hu). left. congruence.
        -- right. exists e0. rewrite (A2 g Hi) in Hl. congruence.
      * intros c Hc. destruct (Xk j g c Hj Hg Hc) as [Hx|(j' & Hj' & Hm)]; [exact (ext_closed _ _ c Hext Hx)|].
        right. apply Hhas. apply Hfs. exists j'. split; [|exact Hj'].
        destruct (Nat.lt_ge_cases j' k) as [Hlt|Hge]; [exfalso | exact Hge].
        destruct Hk0 as [Hk0|Hk0]; [lia|]. rewrite Hm in Hk0 by lia. discriminate.
  - (* not in a cycle *)
    assert (Hl : length (visited s2) = S k).
    { destruct (Nat.lt_ge_cases (S k) (length (visited s2))) as [Hx|Hx]; [apply Hmore in Hx; discriminate | lia]. }
    assert (Hcl : forall c, calls U f c -> closed (analyzed s2) c).
    { intros c Hc. destruct (Xk k f c (le_n k) F2k Hc) as [Hx|(j & Hj & Hm)]; [exact Hx|]. exfalso.
      pose proof (func_lt _ _ _ Hj). rewrite Hm in Eck by lia. discriminate. }
    assert (Hnf : lookup (analyzed s2) f = None).
    { destruct (i_stack _ I2 f (func_in _ _ _ F2k)) as (_ & _ & _ & Hh). apply has_false. exact Hh. }
    set (a' := put f (single L U f (analyzed s2)) (analyzed s2)).
    assert (Hext : ext (analyzed s2) a').
    { intros g r Hg. unfold a'. rewrite lookup_put_other; [exact Hg|]. intros ->. congruence. }
    assert (Hb : forall g r, lookup a' g = Some r -> builtin L U g = false).
    { intros g r Hg. destruct (Z.eq_dec g f) as [->|Hne]; [exact Eb|]. unfold a' in Hg. rewrite lookup_put_other in Hg by exact Hne.
      exact (proj1 (proj2 (i_res _ I2 g r Hg))). }
    exists (State a' (firstn k (visited s2))). split; [reflexivity|].
    apply (pop_ok st s2 f a'); try assumption.
    + exact (m_ext _ _ M2).
    + intros j g Hj Hg. pose proof (func_lt _ _ _ Hg) as Hlt. fold k in Hj. replace j with k in Hg by lia. rewrite F2k in Hg. injection Hg as <-.
      apply has_lookup. eexists. apply lookup_put_same.
    + intros g r Hg. destruct (Z.eq_dec g f) as [->|Hne].
      * right. exists k. split; [apply le_n|]. split; [exact F2k|]. unfold a' in Hg. rewrite lookup_put_same in Hg. injection Hg as <-.
        split; [exact HR|]. split; [exact Eb|]. split.
        -- left. rewrite <- (single_ext (analyzed s2) a' f Hext Hb Hcl). apply FBody; [exact Hbody | exists cs; exact Ec].
        -- intros c Hc. exact (ext_closed _ _ c Hext (Hcl c Hc)).
      * left. unfold a' in Hg. rewrite lookup_put_other in Hg by exact Hne. exact Hg.
Qed.

Theorem analyze_all_ok : forall fuel definitions, (length F < fuel)%nat -> (forall f, In f definitions -> R f) ->
  exists st, analyze_all L U fuel definitions = Done _ st /\ visited st = []
    /\ (forall f, In f definitions -> closed (analyzed st) f)
    /\ forall f r, lookup (analyzed st) f = Some r -> result_ok (analyzed st) f r.
Proof.
  intros fuel definitions Hfuel HR. unfold analyze_all.
  assert (Hgen : forall ds st, (forall f, In f ds -> R f) -> inv st -> visited st = [] ->
    exists st', over L (analyze L U fuel) ds st = Done _ st' /\ inv st' /\ visited st' = [] /\ ext (analyzed st) (analyzed st') /\ forall f, In f ds -> closed (analyzed st') f).
  { induction ds as [|d ds IHd]; intros st Hd HI Hv; cbn [over].
    - exists st. split; [reflexivity|]. split; [exact HI|]. split; [exact Hv|]. split; [apply ext_refl | intros f []].
    - destruct (analyze_ok fuel d st HI) as (s1 & E1 & I1 & M1 & A1).
      + apply Hd. left. reflexivity.
      + rewrite Hv. cbn [length]. lia.
      + intros i g Hg. rewrite Hv in Hg. destruct i; discriminate.
      + assert (Hv1 : visited s1 = []).
        { destruct (visited s1) as [|x l] eqn:Ev; [reflexivity|]. exfalso. destruct (m_below _ _ M1) as (k & Hk & _); [rewrite Hv, Ev; cbn; lia|].
          rewrite Hv in Hk. discriminate. }
        rewrite E1. cbn [bind]. destruct (IHd s1) as (s2 & E2 & I2 & V2 & X2 & C2); [intros f Hf; apply Hd; right; exact Hf | exact I1 | exact Hv1|].
        exists s2. split; [exact E2|]. split; [exact I2|]. split; [exact V2|]. split; [exact (ext_trans _ _ _ (m_ext _ _ M1) X2)|].
        intros f [<-|Hf]; [|exact (C2 f Hf)]. apply (ext_closed (analyzed s1)); [exact X2|].
        destruct A1 as [A1|(j & Hj & _)]; [exact A1|]. rewrite Hv1 in Hj. destruct j; discriminate. }
  destruct (Hgen definitions (State [] []) HR) as (st & E & I & V & _ & C).
  - constructor; cbn [Model.visited Model.analyzed]; [constructor | intros f [] | constructor | intros f r H; discriminate | intros i f H; destruct i; discriminate].
  - reflexivity.
  - exists st. split; [exact E|]. split; [exact V|]. split; [exact C|]. exact (i_res _ I).
Qed.
End P.
