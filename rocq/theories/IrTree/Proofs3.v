(** The post-order is complete and children come first; the copied items are
    complete. *)
From Coq Require Import ZArith List Bool Permutation Lia Arith.
From Verif Require Import IrTree.Model IrTree.Spec IrTree.Proofs2.
Import ListNotations.
Local Open Scope Z_scope.
Local Open Scope list_scope.

Definition kids (m : child_map) (id : Z) : list Z := match children_of m id with Some l => l | None => [] end.
(** How many ids of [u] are not in [v]. *)
Fixpoint unseen (u v : list Z) : nat :=
  match u with [] => 0 | x :: u' => (if existsb (Z.eqb x) v then 0 else 1) + unseen u' v end%nat.
Lemma unseen_le u v : (unseen u v <= List.length u)%nat.
Proof. induction u as [|x u IH]; cbn [unseen List.length]; [lia|]. destruct (existsb (Z.eqb x) v); lia. Qed.
Lemma unseen_mono u v v' : incl v v' -> (unseen u v' <= unseen u v)%nat.
Proof.
  intros I. induction u as [|x u IH]; cbn [unseen]; [lia|]. destruct (existsb (Z.eqb x) v) eqn:E.
  - apply existsb_id in E. apply I in E. apply existsb_id in E. rewrite E. lia.
  - destruct (existsb (Z.eqb x) v'); lia.
Qed.
Lemma unseen_cons u v x : In x u -> ~ In x v -> (unseen u (x :: v) < unseen u v)%nat.
Proof.
  intros I N. induction u as [|y u IH]; [destruct I|]. cbn [unseen]. destruct (Z.eq_dec y x) as [->|Ny].
  - replace (existsb (Z.eqb x) (x :: v)) with true by (symmetry; apply existsb_id; left; reflexivity).
    replace (existsb (Z.eqb x) v) with false by (symmetry; apply not_true_iff_false; rewrite existsb_id; exact N).
    pose proof (unseen_mono u v (x :: v)) as M. assert (incl v (x :: v)) by (intros z Hz; right; exact Hz). specialize (M H). lia.
  - destruct I as [E|I]; [contradiction|]. specialize (IH I). destruct (existsb (Z.eqb y) v) eqn:E.
    + replace (existsb (Z.eqb y) (x :: v)) with true by (symmetry; apply existsb_id; right; apply existsb_id; exact E). lia.
    + replace (existsb (Z.eqb y) (x :: v)) with false; [lia|]. symmetry. apply not_true_iff_false. rewrite existsb_id.
      intros [K|K]; [congruence|]. apply existsb_id in K. congruence.
Qed.
Lemma children_in m id l : children_of m id = Some l -> In (id, l) m.
Proof.
  induction m as [|[k l'] m IH]; cbn [children_of]; [discriminate|]. destruct (Z.eqb_spec k id) as [->|N]; [intros [= ->]; left; reflexivity|].
  intros H. right. auto.
Qed.
Lemma kids_ids m id c : In c (kids m id) -> In c (ids_of m).
Proof.
  unfold kids. destruct (children_of m id) as [l|] eqn:E; [|intros []]. intros I. apply children_in in E.
  unfold ids_of. apply in_flat_map. exists (id, l). split; [exact E|]. right. exact I.
Qed.

Section Order.
Variable m : child_map.
Variable depth : Z -> nat.
Hypothesis Hdepth : forall id l c, children_of m id = Some l -> In c l -> (depth id < depth c)%nat.

(** Every id comes after its children. *)
Definition closed (o : list Z) : Prop := forall pre x post, o = pre ++ x :: post -> forall c, In c (kids m x) -> In c pre.
Lemma closed_snoc o id : closed o -> (forall c, In c (kids m id) -> In c o) -> closed (o ++ [id]).
Proof.
  intros C K pre x post E c I. destruct (exists_last (l := x :: post)) as (post' & y & Ey); [discriminate|].
  rewrite Ey in E. rewrite app_assoc in E. apply app_inj_tail in E. destruct E as [E <-]. destruct post' as [|x' post'].
  - cbn [app] in Ey. injection Ey as -> _. rewrite app_nil_r in E. subst o. auto.
  - cbn [app] in Ey. injection Ey as <- _. apply (C pre x post' E c I).
Qed.
Record post (id : Z) (st st' : list Z * list Z) : Prop := {
  p_in : In id (snd st');
  p_seen : incl (fst st) (fst st');
  p_old : incl (snd st) (snd st');
  p_done : forall x, In x (fst st') -> In x (fst st) \/ In x (snd st');
  p_visited : incl (snd st') (fst st');
  p_closed : closed (snd st') }.
Lemma collect_post fuel : forall id st, (unseen (ids_of m) (fst st) < fuel)%nat -> In id (ids_of m) ->
  (forall x, In x (fst st) -> In x (snd st) \/ (depth x < depth id)%nat) ->
  incl (snd st) (fst st) -> closed (snd st) -> post id st (collect fuel m id st).
Proof.
  induction fuel as [|fuel IH]; intros id st Hf Hid Hg Hv Hc; [lia|]. cbn [collect].
  destruct (existsb (Z.eqb id) (fst st)) eqn:E.
  - apply existsb_id in E. constructor; try assumption; try (intros x I; tauto).
    destruct (Hg id E); [assumption|lia].
  - assert (N : ~ In id (fst st)) by (rewrite <- existsb_id; congruence). fold (kids m id).
    assert (Loop : forall l, (forall c, In c l -> In c (kids m id)) -> forall s,
      (unseen (ids_of m) (fst s) < fuel)%nat -> (forall x, In x (fst s) -> In x (snd s) \/ (depth x <= depth id)%nat) ->
      incl (snd s) (fst s) -> closed (snd s) ->
      let s' := fold_left (fun s c => collect fuel m c s) l s in
      (forall c, In c l -> In c (snd s')) /\ incl (fst s) (fst s') /\ incl (snd s) (snd s') /\
      (forall x, In x (fst s') -> In x (fst s) \/ In x (snd s')) /\ incl (snd s') (fst s') /\ closed (snd s')).
    { induction l as [|c l IHl]; intros Hl s Sf Sg Sv Sc; cbn [fold_left].
      - cbv zeta. repeat split; try assumption; try (intros x I; tauto). intros c [].
      - assert (Dc : (depth id < depth c)%nat).
        { assert (K : In c (kids m id)) by (apply Hl; left; reflexivity). unfold kids in K. destruct (children_of m id) as [l'|] eqn:El; [|destruct K]. exact (Hdepth id l' c El K). }
        destruct (IH c s) as [P1 P2 P3 P4 P5 P6]; try assumption.
        + apply (kids_ids m id). apply Hl. left. reflexivity.
        + intros x I. destruct (Sg x I); [auto|right; lia].
        + destruct (IHl (fun c' I => Hl c' (or_intror I)) (collect fuel m c s)) as (Q1 & Q2 & Q3 & Q4 & Q5 & Q6); try assumption.
          * pose proof (unseen_mono (ids_of m) _ _ P2). lia.
          * intros x I. destruct (P4 x I) as [I'|I']; [|auto]. destruct (Sg x I'); auto.
          * cbv zeta. split; [intros c' [<-|I]; [apply Q3; exact P1|apply Q1; exact I]|].
            split; [intros x I; auto|]. split; [intros x I; auto|]. split; [|auto].
            intros x I. destruct (Q4 x I) as [I'|I']; [|auto]. destruct (P4 x I'); auto. }
    destruct (Loop (kids m id) (fun c I => I) (id :: fst st, snd st)) as (Q1 & Q2 & Q3 & Q4 & Q5 & Q6); cbn [fst snd] in *; try assumption.
    + pose proof (unseen_cons (ids_of m) (fst st) id Hid N). lia.
    + intros x [<-|I]; [right; lia|]. destruct (Hg x I); [auto|right; lia].
    + intros x I. right. auto.
    + remember (fold_left (fun s c => collect fuel m c s) (kids m id) (id :: fst st, snd st)) as s' eqn:Es. clear Es.
      constructor; cbn [fst snd].
      * apply in_or_app. right. left. reflexivity.
      * intros x I. apply Q2. right. exact I.
      * intros x I. apply in_or_app. left. auto.
      * intros x I. destruct (Q4 x I) as [[<-|I']|I']; [right; apply in_or_app; right; left; reflexivity|left; exact I'|right; apply in_or_app; left; exact I'].
      * intros x I. apply in_app_or in I. destruct I as [I|[<-|[]]]; [auto|]. apply Q2. left. reflexivity.
      * apply closed_snoc; assumption.
Qed.
Lemma post_order_ok : closed (post_order m) /\ forall id l, In (id, l) m -> In id (post_order m).
Proof.
  assert (Loop : forall es, incl es m -> forall s, incl (snd s) (fst s) -> incl (fst s) (snd s) -> closed (snd s) ->
    let s' := fold_left (fun s e => collect (S (List.length (ids_of m))) m (fst e) s) es s in
    closed (snd s') /\ incl (snd s) (snd s') /\ forall id l, In (id, l) es -> In id (snd s')).
  { induction es as [|[id l] es IH]; intros Hes s H1 H2 H3; cbn [fold_left fst].
    - cbv zeta. split; [exact H3|]. split; [intros x I; exact I|intros ? ? []].
    - destruct (collect_post (S (List.length (ids_of m))) id s) as [P1 P2 P3 P4 P5 P6]; try assumption.
      + pose proof (unseen_le (ids_of m) (fst s)). lia.
      + unfold ids_of. apply in_flat_map. exists (id, l). split; [apply Hes; left; reflexivity|left; reflexivity].
      + intros x I. left. auto.
      + destruct (IH (fun e I => Hes e (or_intror I)) (collect (S (List.length (ids_of m))) m id s)) as (Q1 & Q2 & Q3); try assumption.
        * intros x I. destruct (P4 x I); auto.
        * cbv zeta. split; [exact Q1|]. split; [intros x I; auto|]. intros id' l' [[= <- <-]|I]; [auto|eauto]. }
  destruct (Loop m (fun e I => I) ([], [])) as (Q1 & _ & Q3); cbn [fst snd]; [intros x []|intros x []|intros pre x q E; destruct pre; discriminate E|].
  split; [exact Q1|exact Q3].
Qed.
End Order.

(** The store. *)
Lemma find_set s id t : forall x, find_item (set_item s id t) x = if x =? id then match find_item s id with Some _ => Some t | None => None end else find_item s x.
Proof.
  induction s as [|[k t'] s IH]; intros x; cbn [set_item find_item]; [destruct (x =? id); reflexivity|].
  destruct (Z.eqb_spec k id) as [->|N]; cbn [find_item].
  - rewrite (Z.eqb_sym id x). destruct (x =? id); reflexivity.
  - destruct (Z.eqb_spec k x) as [->|N']; [|apply IH]. destruct (Z.eqb_spec x id); [contradiction|reflexivity].
Qed.
Lemma copies_complete m s0 s l : (forall c, In c l -> match find_item s c with Some t => complete m s0 c t | None => find_item s0 c = None end) ->
  complete_list m s0 l (copies s l).
Proof.
  unfold copies. induction l as [|c l IH]; intros H; cbn [flat_map]; [constructor|].
  pose proof (H c (or_introl eq_refl)) as Hc. assert (H' : complete_list m s0 l (copies s l)) by (apply IH; intros c' I; apply H; right; exact I).
  unfold copies in H'. destruct (find_item s c) as [t|]; cbn [app]; [apply CompleteCons; assumption|apply CompleteMissing; assumption].
Qed.
Definition built (m : child_map) (s0 s : store) (done : list Z) : Prop :=
  forall id, (In id done -> match find_item s id with Some t => complete m s0 id t | None => find_item s0 id = None end)
          /\ (~ In id done -> find_item s id = find_item s0 id).
(** In either case the id and kind are the initial ones. *)
Lemma complete_head m s0 id i k cs : complete m s0 id (Node i k cs) -> exists cs0, find_item s0 id = Some (Node i k cs0).
Proof. inversion 1; subst; eauto. Qed.
Lemma built_head m s0 s done id : built m s0 s done ->
  match find_item s id with Some (Node i k _) => exists cs0, find_item s0 id = Some (Node i k cs0) | None => find_item s0 id = None end.
Proof.
  intros B. destruct (B id) as [B1 B2]. destruct (in_dec Z.eq_dec id done) as [I|N].
  - specialize (B1 I). destruct (find_item s id) as [[i k cs]|]; [eapply complete_head; exact B1|exact B1].
  - rewrite (B2 N). destruct (find_item s0 id) as [[i k cs]|]; [eauto|reflexivity].
Qed.
Lemma copy_built m s0 s done x : built m s0 s done -> (forall c, In c (kids m x) -> In c done) ->
  built m s0 (copy_children m s x) (done ++ [x]).
Proof.
  intros B K. pose proof (built_head m s0 s done x B) as Hx.
  assert (Same : (match find_item s x with Some t => complete m s0 x t | None => find_item s0 x = None end) -> built m s0 s (done ++ [x])).
  { intros C id. split; [|intros N; apply B; intros I; apply N; apply in_or_app; left; exact I].
    intros I. apply in_app_or in I. destruct I as [I|[<-|[]]]; [apply B; exact I|exact C]. }
  unfold copy_children. unfold kids in K. destruct (children_of m x) as [l|] eqn:El.
  - destruct (find_item s x) as [[i k cs]|] eqn:Ef; [|apply Same; exact Hx]. destruct Hx as (cs0 & E0).
    assert (Put : k = IRecord \/ k = INamespace -> built m s0 (set_item s x (Node i k (copies s l))) (done ++ [x])).
    { intros Hk id. rewrite find_set, Ef. destruct (Z.eqb_spec id x) as [->|N].
      - split; [intros _|intros N; exfalso; apply N; apply in_or_app; right; left; reflexivity].
        eapply CompleteContainer; [exact E0|exact Hk|exact El|]. apply copies_complete. intros c I. apply B. auto.
      - split; [intros I; apply B; apply in_app_or in I; destruct I as [I|[E|[]]]; [exact I|congruence]|].
        intros N'. apply B. intros I. apply N'. apply in_or_app. left. exact I. }
    assert (Keep : k <> IRecord /\ k <> INamespace -> built m s0 s (done ++ [x])).
    { intros Hk. apply Same. destruct (in_dec Z.eq_dec x done) as [I|N].
      - pose proof (proj1 (B x) I) as C. rewrite Ef in C. exact C.
      - pose proof (proj2 (B x) N) as C. rewrite Ef in C. apply CompleteLeaf; [congruence|right; exact Hk]. }
    destruct k; [apply Put; left; reflexivity|apply Put; right; reflexivity|apply Keep; split; discriminate|apply Keep; split; discriminate].
  - apply Same. destruct (in_dec Z.eq_dec x done) as [I|N]; [exact (proj1 (B x) I)|]. pose proof (proj2 (B x) N) as C. rewrite C.
    destruct (find_item s0 x) as [[i k cs]|] eqn:E0; [|reflexivity]. apply CompleteLeaf; [exact E0|left; exact El].
Qed.
Lemma fold_built m s0 o : closed m o -> forall done rest s, o = done ++ rest -> built m s0 s done ->
  built m s0 (fold_left (copy_children m) rest s) o.
Proof.
  intros C done rest. revert done. induction rest as [|x rest IH]; intros done s E B; cbn [fold_left].
  - rewrite app_nil_r in E. subst. exact B.
  - apply (IH (done ++ [x])); [rewrite <- app_assoc; exact E|]. apply copy_built; [exact B|]. intros c I. exact (C done x rest E c I).
Qed.
Lemma build_complete m s id : nested m -> match find_item (build m s) id with Some t => complete m s id t | None => find_item s id = None end.
Proof.
  intros (depth & Hd). destruct (post_order_ok m depth Hd) as [C O].
  assert (B : built m s (build m s) (post_order m)).
  { apply (fold_built m s (post_order m) C [] (post_order m) s eq_refl). intros x. split; [intros []|reflexivity]. }
  destruct (B id) as [B1 B2]. destruct (in_dec Z.eq_dec id (post_order m)) as [I|N]; [exact (B1 I)|]. rewrite (B2 N).
  destruct (find_item s id) as [[i k cs]|] eqn:E; [|reflexivity]. apply CompleteLeaf; [exact E|].
  left. destruct (children_of m id) as [l|] eqn:El; [|reflexivity]. exfalso. apply N. apply (O id l). apply children_in. exact El.
Qed.
(** Complete items are unique. *)
Scheme complete_ind2 := Minimality for complete Sort Prop
  with complete_list_ind2 := Minimality for complete_list Sort Prop.
Combined Scheme complete_both from complete_ind2, complete_list_ind2.
Lemma complete_found m s id t : complete m s id t -> exists t0, find_item s id = Some t0.
Proof. destruct 1; eauto. Qed.
Lemma complete_same m m' s s' : (forall id, children_of m id = children_of m' id) -> (forall id, find_item s id = find_item s' id) ->
  (forall id t, complete m s id t -> forall t', complete m' s' id t' -> t = t') /\
  (forall l ts, complete_list m s l ts -> forall ts', complete_list m' s' l ts' -> ts = ts').
Proof.
  intros Hm Hs. apply complete_both.
  - intros id i k l cs0 cs E0 Hk El _ IH t' H'. inversion H' as [? i' k' l' cs0' cs' E0' Hk' El' Hcs|? i' k' cs0' E0' Hk']; subst.
    + rewrite <- Hs in E0'. rewrite <- Hm in El'. rewrite E0 in E0'. rewrite El in El'. injection E0' as <- <- <-. injection El' as <-. f_equal. apply IH. exact Hcs.
    + rewrite <- Hs in E0'. rewrite <- Hm in Hk'. rewrite E0 in E0'. injection E0' as <- <- <-. rewrite El in Hk'. destruct Hk' as [?|[? ?]]; [discriminate|]. tauto.
  - intros id i k cs0 E0 Hk t' H'. inversion H' as [? i' k' l' cs0' cs' E0' Hk' El' Hcs|? i' k' cs0' E0' Hk']; subst.
    + rewrite <- Hs in E0'. rewrite <- Hm in El'. rewrite E0 in E0'. injection E0' as <- <- <-. rewrite El' in Hk. destruct Hk as [?|[? ?]]; [discriminate|]. tauto.
    + rewrite <- Hs in E0'. rewrite E0 in E0'. congruence.
  - intros ts' H'. inversion H'. reflexivity.
  - intros c l ts Ec _ IH ts' H'. inversion H' as [|? ? ? Ec' Hl|? ? t' ts'' Ht Hl]; subst; [apply IH; exact Hl|].
    apply complete_found in Ht. destruct Ht as (t0 & Et). rewrite <- Hs in Et. congruence.
  - intros c l t ts Hc IHc _ IH ts' H'. inversion H' as [|? ? ? Ec' Hl|? ? t' ts'' Ht Hl]; subst.
    + apply complete_found in Hc. destruct Hc as (t0 & Et). rewrite <- Hs in Ec'. congruence.
    + f_equal; auto.
Qed.
