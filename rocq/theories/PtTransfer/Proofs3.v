(** The constraints of an assignment. *)
From Coq Require Import List Arith ZArith Bool Lia.
From Verif.Lifetimes Require Model.
From Verif.PointsTo Require Import Model Spec Proofs.
From Verif.PtTransfer Require Import Model Spec Proofs.
Import ListNotations.
Local Open Scope Z_scope.

(** * Constraint sets *)
Lemma has_constraint_spec q c : Lifetimes.Model.has_constraint q c = true <-> In q c.
Proof.
  unfold Lifetimes.Model.has_constraint. rewrite existsb_exists. split.
  - intros ([x y] & I & H). apply andb_true_iff in H. destruct H as [H1 H2]. apply Z.eqb_eq in H1. apply Z.eqb_eq in H2. destruct q; cbn in *; subst; exact I.
  - intros I. exists q. split; [exact I|]. rewrite !Z.eqb_refl. reflexivity.
Qed.
Lemma insert_in p c q : In q (fst (Lifetimes.Model.insert p c)) <-> In q c \/ q = p.
Proof.
  unfold Lifetimes.Model.insert. destruct (Lifetimes.Model.has_constraint p c) eqn:E; cbn [fst].
  - apply has_constraint_spec in E. split; [auto|intros [H| ->]; assumption].
  - cbn [In]. split; intros [H|H]; auto.
Qed.
Lemma join_loop_in other : forall c b q, In q (fst (Lifetimes.Model.join_loop c b other)) <-> In q c \/ In q other.
Proof.
  induction other as [|p other IH]; intros c b q; cbn [Lifetimes.Model.join_loop fst In]; [tauto|].
  pose proof (insert_in p c q) as H. destruct (Lifetimes.Model.insert p c) as [c' sec]. cbn [fst] in H. rewrite IH, H.
  split; [intros [[K| ->]|K]; auto | intros [K|[->|K]]; auto].
Qed.
Lemma cjoin_in c other q : In q (fst (Lifetimes.Model.join c other)) <-> In q c \/ In q other.
Proof. apply join_loop_in. Qed.

Section Repo.
Variable R : repo.
Lemma single_in o n c q : In q (single_assignment R o n c) <-> In q c \/ replaces R o n q.
Proof.
  unfold single_assignment, replaces. rewrite insert_in.
  destruct (func R o) as [fo|] eqn:Eo; [destruct (func R n) as [fn|] eqn:En|].
  - rewrite cjoin_in. split.
    + intros [[H|H]|H]; [auto|right; right; exists fo, fn; auto|auto].
    + intros [H|[H|(fo' & fn' & [= <-] & [= <-] & H)]]; auto.
  - split; [intros [H|H]; auto | intros [H|[H|(fo' & fn' & _ & E & _)]]; auto; discriminate].
  - split; [intros [H|H]; auto | intros [H|[H|(fo' & fn' & E & _)]]; auto; discriminate].
Qed.
Lemma fold_one (f : object -> Lifetimes.Model.constraints -> Lifetimes.Model.constraints) (P : object -> Z * Z -> Prop) :
  (forall n c q, In q (f n c) <-> In q c \/ P n q) ->
  forall ns c q, In q (fold_left (fun c n => f n c) ns c) <-> In q c \/ exists n, In n ns /\ P n q.
Proof.
  intros Hf. induction ns as [|n ns IH]; intros c q; cbn [fold_left].
  - split; [auto|intros [H|(n & [] & _)]; exact H].
  - rewrite IH, Hf. split.
    + intros [[H|H]|(x & I & H)]; [auto|right; exists n; cbn; auto|right; exists x; cbn; auto].
    + intros [H|(x & [<-|I] & H)]; [auto|auto|right; eauto].
Qed.
Lemma fold_two (f : object -> object -> Lifetimes.Model.constraints -> Lifetimes.Model.constraints) (P : object -> object -> Z * Z -> Prop) :
  (forall o n c q, In q (f o n c) <-> In q c \/ P o n q) ->
  forall ns os c q, In q (fold_left (fun c o => fold_left (fun c n => f o n c) ns c) os c) <-> In q c \/ exists o n, In o os /\ In n ns /\ P o n q.
Proof.
  intros Hf ns os c q.
  rewrite (fold_one (fun o c => fold_left (fun c n => f o n c) ns c) (fun o q => exists n, In n ns /\ P o n q)).
  - split; [intros [H|(o & I & n & J & K)]; [auto|right; exists o, n; auto] | intros [H|(o & n & I & J & K)]; [auto|right; exists o; eauto]].
  - intros o c' q'. rewrite (fold_one (f o) (P o) (Hf o)). reflexivity.
Qed.
Lemma non_recursive_in olds news inv c q : In q (non_recursive R olds news inv c) <->
  In q c \/ (exists o n, In o olds /\ In n news /\ replaces R o n q) \/ (inv = true /\ exists o n, In o olds /\ In n news /\ replaces R n o q).
Proof.
  unfold non_recursive. set (c1 := fold_left _ olds c).
  assert (H1 : In q c1 <-> In q c \/ exists o n, In o olds /\ In n news /\ replaces R o n q).
  { unfold c1. apply (fold_two (fun o n c => single_assignment R o n c) (fun o n => replaces R o n)). intros. apply single_in. }
  destruct inv.
  - rewrite (fold_two (fun o n c => single_assignment R n o c) (fun o n => replaces R n o)); [|intros; apply single_in]. rewrite H1. tauto.
  - rewrite H1. split; [tauto|]. intros [H|[H|[H _]]]; auto; discriminate.
Qed.

(** * Seen pairs *)
Lemma pair_seen_spec seen p n : pair_seen seen p n = true <-> In (p, n) seen.
Proof.
  unfold pair_seen. rewrite existsb_exists. split.
  - intros ([x y] & I & H). apply andb_true_iff in H. destruct H as [H1 H2]. apply Z.eqb_eq in H1. apply Z.eqb_eq in H2. cbn in *; subst; exact I.
  - intros I. exists (p, n). split; [exact I|]. cbn. rewrite !Z.eqb_refl. reflexivity.
Qed.
Lemma see_app seen p n : exists l, see seen p n = l ++ seen /\ forall x, In x (see seen p n) <-> In x seen \/ x = (p, n).
Proof.
  unfold see. destruct (pair_seen seen p n) eqn:E.
  - exists []. split; [reflexivity|]. apply pair_seen_spec in E. intros x. split; [auto|intros [H| ->]; assumption].
  - exists [(p, n)]. split; [reflexivity|]. intros x. cbn [In]. split; intros [H|H]; auto.
Qed.
Lemma see_row p ns : forall seen, exists l, fold_left (fun seen n => see seen p n) ns seen = l ++ seen /\
  forall x, In x (fold_left (fun seen n => see seen p n) ns seen) <-> In x seen \/ exists n, In n ns /\ x = (p, n).
Proof.
  induction ns as [|n ns IH]; intros seen; cbn [fold_left].
  - exists []. split; [reflexivity|]. intros x. split; [auto|intros [H|(n & [] & _)]; exact H].
  - destruct (see_app seen p n) as (l1 & E1 & H1). destruct (IH (see seen p n)) as (l2 & E2 & H2). exists (l2 ++ l1).
    split; [rewrite E2, E1, app_assoc; reflexivity|]. intros x. rewrite H2, H1. split.
    + intros [[H|H]|(y & I & H)]; [auto|right; exists n; cbn; auto|right; exists y; cbn; auto].
    + intros [H|(y & [<-|I] & H)]; [auto|auto|right; eauto].
Qed.
Lemma see_all_spec ns ps : forall seen, exists l, see_all ps ns seen = l ++ seen /\
  forall x, In x (see_all ps ns seen) <-> In x seen \/ exists p n, In p ps /\ In n ns /\ x = (p, n).
Proof.
  unfold see_all. induction ps as [|p ps IH]; intros seen; cbn [fold_left].
  - exists []. split; [reflexivity|]. intros x. split; [auto|intros [H|(p & n & [] & _)]; exact H].
  - destruct (see_row p ns seen) as (l1 & E1 & H1). destruct (IH (fold_left (fun seen n => see seen p n) ns seen)) as (l2 & E2 & H2).
    exists (l2 ++ l1). split; [rewrite E2, E1, app_assoc; reflexivity|]. intros x. rewrite H2, H1. split.
    + intros [[H|(n & I & H)]|(y & n & I & J & H)]; [auto|right; exists p, n; cbn; auto|right; exists y, n; cbn; auto].
    + intros [H|(y & n & [<-|I] & J & H)]; [auto|left; right; eauto|right; eauto].
Qed.
Lemma see_all_none ps ns seen : length seen = length (see_all ps ns seen) -> see_all ps ns seen = seen.
Proof. destruct (see_all_spec ns ps seen) as (l & E & _). rewrite E, app_length. intros H. destruct l; [reflexivity|cbn in H; lia]. Qed.

(** * Pushed visits *)
Lemma pointee_of_spec t c t' : pointee_of t = Some (c, t') <-> t = TPtr c t' \/ t = TRef c t'.
Proof.
  split; [destruct t; cbn; intros H; inversion H; auto|intros [-> | ->]; reflexivity].
Qed.
Lemma field_visits_in l : forall o n vs, field_visits R l o n = Done vs -> forall v, In v vs <->
  exists f t o' n', In (f, t) l /\ field_objects R o f = Done o' /\ field_objects R n f = Done n' /\ v = Visit t o' n'.
Proof.
  induction l as [|[f t] l IH]; intros o n vs E v; cbn [field_visits] in E.
  - injection E as <-. split; [intros []|intros (f & t & o' & n' & [] & _)].
  - apply bind_done in E. destruct E as (o' & Eo & E). apply bind_done in E. destruct E as (n' & En & E). apply bind_done in E. destruct E as (rest & Er & E).
    injection E as <-. cbn [In]. rewrite (IH _ _ _ Er). split.
    + intros [<-|(g & t' & a & b & I & H)]; [exists f, t, o', n'; auto|exists g, t', a, b; intuition].
    + intros (g & t' & a & b & [[= <- <-]|I] & Ha & Hb & ->); [left; congruence|right; exists g, t', a, b; auto].
Qed.
Lemma field_visits_all l : forall o n vs, field_visits R l o n = Done vs -> forall f t, In (f, t) l ->
  exists o' n', field_objects R o f = Done o' /\ field_objects R n f = Done n' /\ In (Visit t o' n') vs.
Proof.
  induction l as [|[f t] l IH]; intros o n vs E g t' I; [destruct I|]; cbn [field_visits] in E.
  apply bind_done in E. destruct E as (o' & Eo & E). apply bind_done in E. destruct E as (n' & En & E). apply bind_done in E. destruct E as (rest & Er & E).
  injection E as <-. destruct I as [[= <- <-]|I]; [exists o', n'; cbn; auto|]. destruct (IH _ _ _ Er g t' I) as (a & b & Ha & Hb & H). exists a, b. cbn. auto.
Qed.
Lemma base_visits_in l : forall o n vs, base_visits R l o n = Done vs -> forall v, In v vs <->
  exists b o' n', In b l /\ base_objects R o b = Done o' /\ base_objects R n b = Done n' /\ v = Visit (TRec b) o' n'.
Proof.
  induction l as [|f l IH]; intros o n vs E v; cbn [base_visits] in E.
  - injection E as <-. split; [intros []|intros (f & o' & n' & [] & _)].
  - apply bind_done in E. destruct E as (o' & Eo & E). apply bind_done in E. destruct E as (n' & En & E). apply bind_done in E. destruct E as (rest & Er & E).
    injection E as <-. cbn [In]. rewrite (IH _ _ _ Er). split.
    + intros [<-|(g & a & b & I & H)]; [exists f, o', n'; auto|exists g, a, b; intuition].
    + intros (g & a & b & [<-|I] & Ha & Hb & ->); [left; congruence|right; exists g, a, b; auto].
Qed.
Lemma base_visits_all l : forall o n vs, base_visits R l o n = Done vs -> forall f, In f l ->
  exists o' n', base_objects R o f = Done o' /\ base_objects R n f = Done n' /\ In (Visit (TRec f) o' n') vs.
Proof.
  induction l as [|f l IH]; intros o n vs E g I; [destruct I|]; cbn [base_visits] in E.
  apply bind_done in E. destruct E as (o' & Eo & E). apply bind_done in E. destruct E as (n' & En & E). apply bind_done in E. destruct E as (rest & Er & E).
  injection E as <-. destruct I as [<-|I]; [exists o', n'; cbn; auto|]. destruct (IH _ _ _ Er g I) as (a & b & Ha & Hb & H). exists a, b. cbn. auto.
Qed.

(** * The recursion *)
Section Walk.
Variables (m : pmap) (ps0 ns0 : oset) (t0 : ty).
Notation asg := (assigned R m ps0 ns0 t0).
(** A pair that has been dealt with. *)
Definition dealt (c : Lifetimes.Model.constraints) (seen : list (object * object)) (x : object * object) : Prop :=
  exists i t, asg i (fst x) (snd x) t /\
    (forall old q, points_somewhere t -> points m (Pointer (fst x)) old -> replaces R old (snd x) q -> In q c) /\
    (forall old q, i = true -> points_somewhere t -> points m (Pointer (fst x)) old -> replaces R (snd x) old q -> In q c) /\
    (forall k pointee old t' p' y n', t = TPtr k pointee \/ t = TRef k pointee -> points m (Pointer (fst x)) old ->
       component R pointee old (snd x) t' p' y -> t' <> TIncomplete -> points m (Pointer y) n' -> In (p', n') seen).
Lemma dealt_mono c c' seen seen' x : incl c c' -> incl seen seen' -> dealt c seen x -> dealt c' seen' x.
Proof.
  intros Hc Hs (i & t & Ha & H1 & H2 & H3). exists i, t. split; [exact Ha|]. split; [|split].
  - intros. apply Hc. eapply H1; eauto.
  - intros. apply Hc. eapply H2; eauto.
  - intros. apply Hs. eapply H3; eauto.
Qed.
(** Precondition and postcondition of a pending visit. *)
Definition pending (inv : bool) (v : visit_info) : Prop :=
  forall old x t' p' y n', In old (v_old v) -> In x (v_new v) -> component R (v_type v) old x t' p' y -> t' <> TIncomplete ->
    points m (Pointer y) n' -> asg inv p' n' t'.
Definition visited (seen : list (object * object)) (v : visit_info) : Prop :=
  forall old x t' p' y n', In old (v_old v) -> In x (v_new v) -> component R (v_type v) old x t' p' y -> t' <> TIncomplete ->
    points m (Pointer y) n' -> In (p', n') seen.
(** Every new constraint is demanded. *)
Definition only (c c' : Lifetimes.Model.constraints) : Prop := forall q, In q c' -> In q c \/ demanded R m ps0 ns0 t0 q.

Lemma component_rec r a b t' x y : component R (TRec r) a b t' x y ->
  (exists f t a' b', In (f, t) (fields R r) /\ field_object R a f = Some a' /\ field_object R b f = Some b' /\ component R t a' b' t' x y) \/
  (exists base a' b', In base (bases R r) /\ base_object R a base = Some a' /\ base_object R b base = Some b' /\ component R (TRec base) a' b' t' x y).
Proof.
  intros H. inversion H; subst.
  - exfalso. match goal with N : forall r0, TRec r <> TRec r0 |- _ => exact (N r eq_refl) end.
  - left. do 4 eexists. eauto.
  - right. do 3 eexists. eauto.
Qed.
Lemma component_other t a b t' x y : (forall r, t <> TRec r) -> component R t a b t' x y -> t' = t /\ x = a /\ y = b.
Proof. intros N H. inversion H; subst; auto; exfalso; eapply N; reflexivity. Qed.

Lemma pushed_pending inv r o n fs bs : pending inv (Visit (TRec r) o n) ->
  field_visits R (fields R r) o n = Done fs -> base_visits R (bases R r) o n = Done bs -> forall v, In v (fs ++ bs) -> pending inv v.
Proof.
  intros Hp Ef Eb v I. apply in_app_or in I. destruct I as [I|I].
  - apply (field_visits_in _ _ _ _ Ef) in I. destruct I as (f & t & o' & n' & I & Eo & En & ->).
    intros old x t' p' y n1 Io Ix Hc Ht Hy. cbn [v_old v_new v_type] in *.
    apply (map_objects_in _ _ _ _ Eo) in Io. destruct Io as [[]|(a & Ia & Ea)]. apply (map_objects_in _ _ _ _ En) in Ix. destruct Ix as [[]|(b & Ib & Ec)].
    apply (Hp a b t' p' y n1 Ia Ib); auto. eapply CField; eauto.
  - apply (base_visits_in _ _ _ _ Eb) in I. destruct I as (f & o' & n' & I & Eo & En & ->).
    intros old x t' p' y n1 Io Ix Hc Ht Hy. cbn [v_old v_new v_type] in *.
    apply (map_objects_in _ _ _ _ Eo) in Io. destruct Io as [[]|(a & Ia & Ea)]. apply (map_objects_in _ _ _ _ En) in Ix. destruct Ix as [[]|(b & Ib & Ec)].
    apply (Hp a b t' p' y n1 Ia Ib); auto. eapply CBase; eauto.
Qed.
Lemma pushed_visited r o n fs bs seen :
  field_visits R (fields R r) o n = Done fs -> base_visits R (bases R r) o n = Done bs -> (forall v, In v (fs ++ bs) -> visited seen v) ->
  visited seen (Visit (TRec r) o n).
Proof.
  intros Ef Eb H old x t' p' y n1 Io Ix Hc Ht Hy. cbn [v_old v_new v_type] in *.
  apply component_rec in Hc. destruct Hc as [(f & t & a & b & I & Ea & Ec & Hc)|(base & a & b & I & Ea & Ec & Hc)].
  - destruct (field_visits_all _ _ _ _ Ef f t I) as (o' & n' & Eo & En & J).
    apply (H (Visit t o' n') (in_or_app _ _ _ (or_introl J)) a b t' p' y n1); cbn [v_old v_new v_type]; auto.
    + apply (map_objects_in _ _ _ _ Eo). eauto.
    + apply (map_objects_in _ _ _ _ En). eauto.
  - destruct (base_visits_all _ _ _ _ Eb base I) as (o' & n' & Eo & En & J).
    apply (H (Visit (TRec base) o' n') (in_or_app _ _ _ (or_intror J)) a b t' p' y n1); cbn [v_old v_new v_type]; auto.
    + apply (map_objects_in _ _ _ _ Eo). eauto.
    + apply (map_objects_in _ _ _ _ En). eauto.
Qed.

Definition result (c : Lifetimes.Model.constraints) (seen : list (object * object)) c' seen' : Prop :=
  incl c c' /\ incl seen seen' /\ (forall x, In x seen' -> In x seen \/ dealt c' seen' x) /\ only c c'.
Lemma result_refl c seen : result c seen c seen.
Proof. repeat split; try apply incl_refl; auto. intros q; auto. Qed.
Lemma result_trans c seen c1 seen1 c2 seen2 : result c seen c1 seen1 -> result c1 seen1 c2 seen2 -> result c seen c2 seen2.
Proof.
  intros (A1 & B1 & D1 & O1) (A2 & B2 & D2 & O2). split; [eapply incl_tran; eauto|]. split; [eapply incl_tran; eauto|]. split.
  - intros x I. destruct (D2 x I) as [J|J]; [|auto]. destruct (D1 x J) as [K|K]; [auto|]. right. eapply dealt_mono; eauto.
  - intros q I. destruct (O2 q I) as [J|J]; [apply O1; exact J|auto].
Qed.

Lemma walk : forall fuel,
  (forall ps ns t inv c seen c' seen', (forall p n, In p ps -> In n ns -> asg inv p n t) ->
     recursive R fuel m ps ns t inv c seen = Done (c', seen') ->
     result c seen c' seen' /\ forall p n, In p ps -> In n ns -> In (p, n) seen') /\
  (forall calls inv c seen c' seen', (forall v, In v calls -> pending inv v) ->
     visits R fuel m calls inv c seen = Done (c', seen') ->
     result c seen c' seen' /\ forall v, In v calls -> visited seen' v).
Proof.
  induction fuel as [|fuel [IHr IHv]]; [split; intros; discriminate|]. split.
  - intros ps ns t inv c seen c' seen' Hp E.
    change (recursive R (Datatypes.S fuel) m ps ns t inv c seen) with
      (let seen1 := see_all ps ns seen in
       if Nat.eqb (length seen) (length seen1) then Done (c, seen1) else
       match pointee_of t with
       | None => Done (c, seen1)
       | Some (is_const, pointee) =>
           visits R fuel m [Visit pointee (get_many m ps) ns] (negb is_const) (non_recursive R (get_many m ps) ns inv c) seen1
       end) in E.
    cbv zeta in E. destruct (see_all_spec ns ps seen) as (added & Es & Hs).
    assert (Hin : forall p n, In p ps -> In n ns -> In (p, n) (see_all ps ns seen)) by (intros p n I J; apply Hs; right; eauto).
    destruct (Nat.eqb (length seen) (length (see_all ps ns seen))) eqn:El.
    + apply Nat.eqb_eq in El. injection E as <- <-. split; [|exact Hin]. rewrite (see_all_none _ _ _ El). apply result_refl.
    + destruct (pointee_of t) as [[k pointee]|] eqn:Et.
      * set (c1 := non_recursive R (get_many m ps) ns inv c) in *. set (seen1 := see_all ps ns seen) in *.
        apply pointee_of_spec in Et.
        apply IHv in E.
        2:{ intros v [<-|[]] old x t' p' y n' Io Ix Hc Ht Hy. cbn [v_old v_new v_type] in *. apply get_many_in in Io. destruct Io as (p & Ip & Hpo).
            apply (ADeeper R m ps0 ns0 t0 inv p x t k pointee old t' p' y n'); auto. }
        destruct E as ((Hc & Hse & Hd & Ho) & Hv). specialize (Hv _ (or_introl eq_refl)).
        assert (Hc1 : incl c c1) by (intros q I; apply non_recursive_in; auto).
        assert (Hs1 : incl seen seen1) by (intros x I; apply Hs; auto).
        split; [|intros p n I J; apply Hse; apply Hin; assumption]. split; [eapply incl_tran; eauto|]. split; [eapply incl_tran; eauto|]. split.
        -- intros x I. destruct (Hd x I) as [J|J]; [|auto]. apply Hs in J. destruct J as [J|(p & n & Ip & In_ & ->)]; [auto|]. right.
           exists inv, t. cbn [fst snd]. split; [apply Hp; assumption|]. split; [|split].
           ++ intros old q _ Hpo Hr. apply Hc. apply non_recursive_in. right. left. exists old, n. split; [apply get_many_in; eauto|auto].
           ++ intros old q Hi _ Hpo Hr. apply Hc. apply non_recursive_in. right. right. split; [exact Hi|]. exists old, n. split; [apply get_many_in; eauto|auto].
           ++ intros k' pointee' old t' p' y n' Et' Hpo Hco Ht Hy.
              assert (pointee' = pointee) by (destruct Et as [-> | ->]; destruct Et' as [E'|E']; congruence). subst pointee'.
              apply (Hv old n t' p' y n'); cbn [v_old v_new v_type]; auto. apply get_many_in. eauto.
        -- intros q I. destruct (Ho q I) as [J|J]; [|auto]. apply non_recursive_in in J. destruct J as [J|[(o & n & Io & In_ & Hr)|(Hi & o & n & Io & In_ & Hr)]]; [auto| |].
           ++ right. left. apply get_many_in in Io. destruct Io as (p & Ip & Hpo). exists inv, p, n, t, o. split; [apply Hp; assumption|]. split; [exists k, pointee; exact Et|auto].
           ++ right. right. apply get_many_in in Io. destruct Io as (p & Ip & Hpo). exists p, n, t, o. subst inv. split; [apply Hp; assumption|]. split; [exists k, pointee; exact Et|auto].
      * injection E as <- <-. split; [|exact Hin]. split; [apply incl_refl|]. split; [intros x I; apply Hs; auto|]. split; [|intros q; auto].
        intros x I. apply Hs in I. destruct I as [I|(p & n & Ip & In_ & ->)]; [auto|]. right. exists inv, t. cbn [fst snd]. split; [apply Hp; assumption|].
        assert (Np : forall k pointee, ~ (t = TPtr k pointee \/ t = TRef k pointee)) by (intros k pointee H; apply pointee_of_spec in H; congruence).
        split; [|split].
        -- intros old q (k & pt & H). exfalso. exact (Np _ _ H).
        -- intros old q _ (k & pt & H). exfalso. exact (Np _ _ H).
        -- intros k pt old t' p' y n' H. exfalso. exact (Np _ _ H).
  - intros calls inv c seen c' seen' Hp E.
    change (visits R (Datatypes.S fuel) m calls inv c seen) with
      (match calls with
       | [] => Done (c, seen)
       | Visit t o n :: calls =>
          match t with
          | TIncomplete => visits R fuel m calls inv c seen
          | TRec r =>
              do fs <- field_visits R (fields R r) o n;
              do bs <- base_visits R (bases R r) o n;
              visits R fuel m (rev (fs ++ bs) ++ calls) inv c seen
          | _ =>
              do (c, seen) <- recursive R fuel m o (get_many m n) t inv c seen;
              visits R fuel m calls inv c seen
          end
       end) in E.
    destruct calls as [|[t o n] calls]; [injection E as <- <-; split; [apply result_refl|intros v []]|].
    assert (Hrest : forall v, In v calls -> pending inv v) by (intros v I; apply Hp; right; exact I).
    assert (Hhead : pending inv (Visit t o n)) by (apply Hp; left; reflexivity).
    assert (Plain : (forall r, t <> TRec r) -> t <> TIncomplete ->
       (do (c, seen) <- recursive R fuel m o (get_many m n) t inv c seen; visits R fuel m calls inv c seen) = Done (c', seen') ->
       result c seen c' seen' /\ forall v, In v (Visit t o n :: calls) -> visited seen' v).
    { intros Nr Ni H. apply bind_done in H. destruct H as ([c1 seen1] & E1 & E2).
      apply IHr in E1.
      2:{ intros p x Ip Ix. apply get_many_in in Ix. destruct Ix as (y & Iy & Hy). apply (Hhead p y t p y x); cbn [v_old v_new v_type]; auto. apply CSelf. exact Nr. }
      destruct E1 as [Hr1 Hin]. apply (IHv calls inv c1 seen1 c' seen' Hrest) in E2. destruct E2 as [Hr2 Hv2].
      split; [eapply result_trans; eauto|]. intros v [<-|I]; [|apply Hv2; exact I].
      intros old x t' p' y n' Io Ix Hc Ht Hy. cbn [v_old v_new v_type] in *. apply component_other in Hc; [|exact Nr]. destruct Hc as (-> & -> & ->).
      apply (proj1 (proj2 Hr2)). apply Hin; [exact Io|]. apply get_many_in. eauto. }
    destruct t; try (apply Plain; [congruence|congruence|exact E]).
    + apply bind_done in E. destruct E as (fs & Ef & E). apply bind_done in E. destruct E as (bs & Eb & E).
      apply IHv in E.
      2:{ intros v I. apply in_app_or in I. destruct I as [I|I]; [|apply Hrest; exact I]. apply in_rev in I. eapply pushed_pending; eauto. }
      destruct E as [Hres Hv]. split; [exact Hres|]. intros v [<-|I]; [|apply Hv; apply in_or_app; right; exact I].
      eapply pushed_visited; eauto. intros v I. apply Hv. apply in_or_app. left. apply in_rev. rewrite rev_involutive. exact I.
    + apply (IHv calls inv c seen c' seen' Hrest) in E. destruct E as [Hr Hv]. split; [exact Hr|]. intros v [<-|I]; [|apply Hv; exact I].
      intros old x t' p' y n' Io Ix Hc Ht Hy. cbn [v_old v_new v_type] in *. apply component_other in Hc; [|congruence]. destruct Hc as (-> & _). congruence.
Qed.
End Walk.

Theorem assignment_forward fuel m ps ns t c c' : for_assignment R fuel m ps ns t c = Done c' -> one_type R m ps ns t ->
  forall q, demanded_forward R m ps ns t q -> In q c'.
Proof.
  unfold for_assignment. intros E One. apply bind_done in E. destruct E as ([c1 seen] & E & Ec). injection Ec as ->.
  apply (proj1 (walk m ps ns t fuel)) in E; [|intros; apply ARoot; assumption]. destruct E as ((_ & _ & Hd & _) & Hin).
  assert (All : forall i p n t', assigned R m ps ns t i p n t' -> In (p, n) seen).
  { induction 1 as [p n Ip In_|i p n t1 k pointee old t' p' y n' Ha IH Ht Hpo Hc Hn Hy]; [apply Hin; assumption|].
    destruct (Hd _ IH) as [[]|(i2 & t2 & Ha2 & _ & _ & H3)]. cbn [fst snd] in *. assert (t2 = t1) by (eapply One; eauto). subst t2. eapply H3; eauto. }
  intros q (i & p & n & t' & old & Ha & Hs & Hpo & Hr). destruct (Hd _ (All _ _ _ _ Ha)) as [[]|(i2 & t2 & Ha2 & H1 & _)]. cbn [fst snd] in *.
  assert (t2 = t') by (eapply One; eauto). subst t2. eapply H1; eauto.
Qed.
Theorem assignment_all fuel m ps ns t c c' : for_assignment R fuel m ps ns t c = Done c' -> one_type R m ps ns t -> one_variance R m ps ns t ->
  forall q, demanded R m ps ns t q -> In q c'.
Proof.
  intros E One Var q [H|(p & n & t' & old & Ha & Hs & Hpo & Hr)]; [eapply assignment_forward; eauto|].
  unfold for_assignment in E. apply bind_done in E. destruct E as ([c1 seen] & E & Ec). injection Ec as ->.
  apply (proj1 (walk m ps ns t fuel)) in E; [|intros; apply ARoot; assumption]. destruct E as ((_ & _ & Hd & _) & Hin).
  assert (All : forall i p n t', assigned R m ps ns t i p n t' -> In (p, n) seen).
  { induction 1 as [p1 n1 Ip In_|i p1 n1 t1 k pointee old1 t1' p' y n' Ha1 IH Ht Hpo1 Hc Hn Hy]; [apply Hin; assumption|].
    destruct (Hd _ IH) as [[]|(i2 & t2 & Ha2 & _ & _ & H3)]. cbn [fst snd] in *. assert (t2 = t1) by (eapply One; eauto). subst t2. eapply H3; eauto. }
  destruct (Hd _ (All _ _ _ _ Ha)) as [[]|(i2 & t2 & Ha2 & _ & H2 & _)]. cbn [fst snd] in *.
  assert (t2 = t') by (eapply One; eauto). assert (i2 = true) by (eapply Var; eauto). subst. eapply H2; eauto.
Qed.
Theorem assignment_only fuel m ps ns t c c' : for_assignment R fuel m ps ns t c = Done c' ->
  (forall q, In q c -> In q c') /\ forall q, In q c' -> In q c \/ demanded R m ps ns t q.
Proof.
  unfold for_assignment. intros E. apply bind_done in E. destruct E as ([c1 seen] & E & Ec). injection Ec as ->.
  apply (proj1 (walk m ps ns t fuel)) in E; [|intros; apply ARoot; assumption]. destruct E as ((Hc & _ & _ & Ho) & _). split; [exact Hc|exact Ho].
Qed.
(** At the outermost level nothing is cut off, whatever the types. *)
Theorem assignment_root fuel m ps ns t c c' p n old q : for_assignment R fuel m ps ns t c = Done c' ->
  In p ps -> In n ns -> points_somewhere t -> points m (Pointer p) old -> replaces R old n q -> In q c'.
Proof.
  unfold for_assignment. intros E Ip In_ (k & pt & Ht) Hpo Hr. apply bind_done in E. destruct E as ([c1 seen] & E & Ec). injection Ec as ->.
  destruct fuel as [|fuel]; [discriminate|].
  change (recursive R (Datatypes.S fuel) m ps ns t false c []) with
      (let seen1 := see_all ps ns [] in
       if Nat.eqb (length (@nil (object * object))) (length seen1) then Done (c, seen1) else
       match pointee_of t with
       | None => Done (c, seen1)
       | Some (is_const, pointee) =>
           visits R fuel m [Visit pointee (get_many m ps) ns] (negb is_const) (non_recursive R (get_many m ps) ns false c) seen1
       end) in E.
  cbv zeta in E. destruct (see_all_spec ns ps []) as (added & Es & Hs).
  assert (Hin : In (p, n) (see_all ps ns [])) by (apply Hs; right; eauto).
  destruct (Nat.eqb (length (@nil (object * object))) (length (see_all ps ns []))) eqn:El.
  - apply Nat.eqb_eq in El. destruct (see_all ps ns []); [destruct Hin|discriminate].
  - apply pointee_of_spec in Ht. rewrite Ht in E. apply (proj2 (walk m ps ns t fuel)) in E.
    + destruct E as ((Hc & _) & _). apply Hc. apply non_recursive_in. right. left. exists old, n. split; [apply get_many_in; eauto|auto].
    + intros v [<-|[]] o x t' p' y n' Io Ix Hc Ht' Hy. cbn [v_old v_new v_type] in *. apply get_many_in in Io. destruct Io as (p1 & Ip1 & Hpo1).
      apply pointee_of_spec in Ht. apply (ADeeper R m ps ns t false p1 x t k pt o t' p' y n'); auto. apply ARoot; assumption.
Qed.
End Repo.
