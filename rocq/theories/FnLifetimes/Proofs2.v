(** Extending a meaning, restricted constraints, substitution in trees. *)
From Coq Require Import List ZArith Bool Lia Relations.
From Verif.Lifetimes Require Import Model Spec Reach.
From Verif.FnLifetimes Require Import Model Spec Proofs.
Import ListNotations.
Local Open Scope Z_scope.

Lemma nl_refl t : no_later t t.
Proof. destruct t; cbn; auto with arith. Qed.
Lemma nl_trans s t u : no_later s t -> no_later t u -> no_later s u.
Proof. destruct s, t, u; cbn; intuition lia. Qed.
Lemma nl_antisym s t : no_later s t -> no_later t s -> s = t.
Proof. destruct s, t; cbn; try tauto. intros. f_equal. lia. Qed.

Definition later (s t : time) : time :=
  match s, t with Never, _ | _, Never => Never | Dies m, Dies n => Dies (Nat.max m n) end.
Definition sup (l : list time) : time := fold_right later (Dies 0) l.
Lemma sup_ub l t : In t l -> no_later t (sup l).
Proof.
  induction l as [|a l IH]; intros []; cbn [sup fold_right].
  - subst. destruct t, (fold_right later (Dies 0) l); cbn; auto. lia.
  - eapply nl_trans; [apply IH; assumption|]. fold (sup l). destruct a, (sup l); cbn; auto. lia.
Qed.
Lemma sup_least l u : (forall t, In t l -> no_later t u) -> no_later (sup l) u.
Proof.
  induction l as [|a l IH]; intro H; [destruct u; cbn; auto; lia|].
  cbn [sup fold_right]. fold (sup l). pose proof (H a (or_introl eq_refl)) as A. specialize (IH (fun t I => H t (or_intror I))).
  destruct a, (sup l), u; cbn in *; auto. lia.
Qed.

Definition reach (E : constraints) (x y : lifetime) : bool :=
  match outliving E x with Some out => mem y (x :: out) | None => false end.
Lemma reach_iff E x y : reach E x y = true <-> outlives E x y.
Proof.
  unfold reach. destruct (C33_outliving_is_transitive_closure E x) as (out & -> & _ & H). rewrite mem_spec. cbn [In]. rewrite H.
  destruct (Z.eq_dec x y) as [->|N].
  - split; [intros _; apply rt_refl|auto].
  - split; [intros [K|(_ & K)]; [contradiction|exact K]|intro K; right; split; [congruence|exact K]].
Qed.

Lemma sat_outlives r E x y : Sat r E -> outlives E x y -> no_later (r x) (r y).
Proof. intros S O. induction O as [x y I|x|x y z A IHA B IHB]; [now apply S|apply nl_refl|eapply nl_trans; eauto]. Qed.

Lemma extend E X (r : meaning) :
  (forall x x', In x X -> In x' X -> outlives E x x' -> no_later (r x) (r x')) ->
  exists s : meaning, (forall x, In x X -> s x = r x) /\ Sat s E.
Proof.
  intro H. exists (fun y => sup (map r (filter (fun x => reach E x y) X))). split.
  - intros x I. apply nl_antisym.
    + apply sup_least. intros t J. apply in_map_iff in J. destruct J as (z & <- & J). apply filter_In in J. destruct J as (J & K).
      apply H; auto. now apply reach_iff.
    + apply sup_ub. apply in_map. apply filter_In. split; [exact I|]. apply reach_iff, rt_refl.
  - intros y z I. apply sup_least. intros t J. apply in_map_iff in J. destruct J as (x & <- & J). apply filter_In in J. destruct J as (J & K).
    apply sup_ub. apply in_map. apply filter_In. split; [exact J|]. apply reach_iff. apply reach_iff in K.
    eapply rt_trans; [exact K|]. now apply rt_step.
Qed.

Lemma extend_proper E X (r : meaning) : proper r ->
  (forall x y, In (x, y) E -> x = Static \/ y = Static -> In Static X) ->
  (forall x x', In x X -> In x' X -> outlives E x x' -> no_later (r x) (r x')) ->
  exists s : meaning, proper s /\ (forall x, In x X -> s x = r x) /\ Sat s E.
Proof.
  intros P St H. destruct (extend E X r H) as (s & A & S).
  destruct (in_dec Z.eq_dec Static X) as [I|N].
  - exists s. split; [unfold proper; now rewrite (A _ I)|auto].
  - exists (fun y => if Z.eqb y Static then Never else s y). split; [reflexivity|]. split.
    + intros x I. destruct (Z.eqb_spec x Static) as [->|_]; [contradiction|auto].
    + intros x y I. destruct (Z.eqb_spec x Static) as [->|_]; [exfalso; eauto|].
      destruct (Z.eqb_spec y Static) as [->|_]; [exfalso; eauto|]. now apply S.
Qed.

Lemma rev_outlives c c' x y : reversed c c' -> outlives c x y -> outlives c' y x.
Proof.
  intros R O. induction O as [x y I|x|x y z A IHA B IHB]; [apply rt_step; now apply R|apply rt_refl|eapply rt_trans; eassumption].
Qed.
Lemma full_rev_outlives f g x y : type_f f = type_f g -> (outlives (substitution_full f g) x y <-> outlives (substitution_full g f) y x).
Proof.
  intro T. split; apply rev_outlives; intros a b; [now apply full_rev|]. symmetry in T. now apply full_rev.
Qed.

(** Traverse visits the lifetimes. *)
Lemma map_snd_const {A} (va : A) (lps : list (bool * lifetime)) : map fst (map (fun p => (snd p, va)) lps) = map snd lps.
Proof. rewrite map_map. reflexivity. Qed.
Lemma trav_all :
  (forall v va, map fst (trav_v va v) = lifetimes_v v) /\ (forall o va, map fst (trav_o va o) = lifetimes_o o) /\
  (forall a va, map fst (trav_args va a) = lifetimes_args a) /\ (forall f, map fst (trav_f f) = lifetimes_f f).
Proof.
  apply tree_ind; intros; cbn [trav_v trav_o trav_args trav_f lifetimes_v lifetimes_o lifetimes_args lifetimes_f];
    rewrite ?map_app, ?map_snd_const; cbn [map fst]; congruence.
Qed.
Lemma in_lifetime_set f l : In l (lifetime_set f) <-> In l (lifetimes_f f).
Proof. unfold lifetime_set. rewrite nodup_In. now rewrite (proj2 (proj2 (proj2 trav_all))). Qed.

Lemma in_restrict_inner all l p : forall out ret, In p (restrict_inner all l out ret) <-> In p ret \/ exists m, In m out /\ In m all /\ p = (l, m).
Proof.
  induction out as [|m out IH]; intro ret; cbn [restrict_inner].
  - split; [auto|intros [I|(m & [] & _)]; exact I].
  - rewrite IH. destruct (mem m all) eqn:M.
    + apply mem_spec in M. rewrite in_add_outlives. split.
      * intros [[->|I]|(m' & A & B)]; [right; exists m; cbn; auto|auto|right; exists m'; cbn; tauto].
      * intros [I|(m' & [->|A] & B & ->)]; [auto|auto|right; exists m'; auto].
    + apply mem_false in M. split.
      * intros [I|(m' & A & B)]; [auto|right; exists m'; cbn; tauto].
      * intros [I|(m' & [->|A] & B & ->)]; [auto|contradiction|right; exists m'; auto].
Qed.
Lemma in_restrict_loop c all p : forall ls ret, In p (restrict_loop c all ls ret) <->
  In p ret \/ exists l m, In l ls /\ In m all /\ m <> l /\ outlives c l m /\ p = (l, m).
Proof.
  induction ls as [|l ls IH]; intro ret; cbn [restrict_loop].
  - split; [auto|intros [I|(? & ? & [] & _)]; exact I].
  - destruct (C33_outliving_is_transitive_closure c l) as (out & -> & _ & H). rewrite IH, in_restrict_inner. split.
    + intros [[I|(m & A & B & ->)]|(l' & m & A & B)]; [auto| |right; exists l', m; cbn; tauto].
      apply H in A. right. exists l, m. cbn. tauto.
    + intros [I|(l' & m & [->|A] & B & N & O & ->)]; [auto| |right; exists l', m; auto].
      left. right. exists m. split; [now apply H|auto].
Qed.
Lemma in_substitution f g x y : In (x, y) (substitution f g) <->
  x <> y /\ In x (lifetimes_f f) /\ In y (lifetimes_f f) /\ outlives (substitution_full f g) x y.
Proof.
  unfold substitution. rewrite in_restrict_loop. split.
  - intros [[]|(l & m & A & B & N & O & E)]. injection E as -> ->. apply in_lifetime_set in A, B. auto.
  - intros (N & A & B & O). right. exists x, y. rewrite !in_lifetime_set. auto 8.
Qed.
Lemma sat_substitution r f g : Sat r (substitution f g) <->
  (forall x x', In x (lifetimes_f f) -> In x' (lifetimes_f f) -> outlives (substitution_full f g) x x' -> no_later (r x) (r x')).
Proof.
  split.
  - intros S x y A B O. destruct (Z.eq_dec x y) as [->|N]; [apply nl_refl|]. apply S. now apply in_substitution.
  - intros H x y I. apply in_substitution in I. destruct I as (_ & A & B & O). auto.
Qed.

(** A use depends only on the meaning of the lifetimes that occur. *)
Scheme Use_mind := Minimality for Use Sort Prop
with Useo_mind := Minimality for Use_o Sort Prop
with Usea_mind := Minimality for Use_args Sort Prop
with Usef_mind := Minimality for Use_f Sort Prop.
Combined Scheme use_ind from Use_mind, Useo_mind, Usea_mind, Usef_mind.

Definition mapped {A} (lt : A -> list lifetime) (sub : (lifetime -> lifetime) -> A -> A)
  (use : meaning -> meaning -> A -> A -> Prop) (r r' : meaning) (v v' : A) : Prop :=
  forall (r1 r1' : meaning) g g', (forall l, In l (lt v) -> r l = r1 (g l)) -> (forall l, In l (lt v') -> r' l = r1' (g' l)) ->
  use r1 r1' (sub g v) (sub g' v').

Lemma read_only_subst g v : read_only v -> read_only (subst_v g v).
Proof. destruct v; cbn; auto. Qed.

Lemma use_map :
  (forall r r' v v', Use r r' v v' -> mapped lifetimes_v subst_v Use r r' v v') /\
  (forall r r' v v', Use_o r r' v v' -> mapped lifetimes_o subst_o Use_o r r' v v') /\
  (forall r r' v v', Use_args r r' v v' -> mapped lifetimes_args subst_args Use_args r r' v v') /\
  (forall r r' v v', Use_f r r' v v' -> mapped lifetimes_f subst_f Use_f r r' v v').
Proof.
  apply use_ind; unfold mapped.
  - intros. constructor.
  - intros r r' q l l' v v' N R U IH r1 r1' g g' A B. cbn [subst_v lifetimes_v] in *. apply use_read.
    + rewrite <- A, <- B by (apply in_app_iff; cbn; auto). exact N.
    + now apply read_only_subst.
    + apply IH; intros; [apply A|apply B]; apply in_app_iff; auto.
  - intros r r' q l l' v v' N U IH U' IH' r1 r1' g g' A B. cbn [subst_v lifetimes_v] in *. apply use_write.
    + rewrite <- A, <- B by (apply in_app_iff; cbn; auto). exact N.
    + apply IH; intros; [apply A|apply B]; apply in_app_iff; auto.
    + apply IH'; intros; [apply B|apply A]; apply in_app_iff; auto.
  - intros r r' q ta ta' lps lps' U IH U' IH' F r1 r1' g g' A B. cbn [subst_v lifetimes_v] in *. apply use_rec.
    + apply IH; intros; [apply A|apply B]; apply in_app_iff; auto.
    + apply IH'; intros; [apply B|apply A]; apply in_app_iff; auto.
    + assert (A' : forall l, In l (map snd lps) -> r l = r1 (g l)) by (intros; apply A, in_app_iff; auto).
      assert (B' : forall l, In l (map snd lps') -> r' l = r1' (g' l)) by (intros; apply B, in_app_iff; auto).
      clear - F A' B'. induction F as [|p p' l l' (E & L & M) F IH]; [constructor|]. cbn [map fst snd] in *. constructor.
      * cbn [fst snd]. rewrite <- A', <- B' by (now left). auto.
      * apply IH; intros; [apply A'|apply B']; now right.
  - intros r r' f f' U IH r1 r1' g g' A B. cbn [subst_v lifetimes_v] in *. apply use_fun. auto.
  - intros. constructor.
  - intros r r' f f' U IH r1 r1' g g' A B. cbn [subst_o lifetimes_o] in *. apply use_some. auto.
  - intros. constructor.
  - intros r r' o o' a a' U IH U' IH' r1 r1' g g' A B. cbn [subst_args lifetimes_args] in *. apply use_cons.
    + apply IH; intros; [apply A|apply B]; apply in_app_iff; auto.
    + apply IH'; intros; [apply A|apply B]; apply in_app_iff; auto.
  - intros r r' ps res th ps' res' th' U1 IH1 U2 IH2 U3 IH3 r1 r1' g g' A B. cbn [subst_f lifetimes_f] in *. apply use_fl.
    + apply IH1; intros; [apply B|apply A]; rewrite !in_app_iff; auto.
    + apply IH2; intros; [apply A|apply B]; rewrite !in_app_iff; auto.
    + apply IH3; intros; [apply B|apply A]; rewrite !in_app_iff; auto.
Qed.

Lemma map_id_lps (lps : list (bool * lifetime)) : map (fun p => (fst p, snd p)) lps = lps.
Proof. induction lps as [|[] l IH]; cbn; congruence. Qed.
Lemma subst_id :
  (forall v, subst_v (fun l => l) v = v) /\ (forall v, subst_o (fun l => l) v = v) /\
  (forall v, subst_args (fun l => l) v = v) /\ (forall v, subst_f (fun l => l) v = v).
Proof.
  apply tree_ind; intros; cbn [subst_v subst_o subst_args subst_f]; rewrite ?map_id_lps; congruence.
Qed.
Lemma use_agree r r' r1 r1' f f' : (forall l, In l (lifetimes_f f) -> r l = r1 l) -> (forall l, In l (lifetimes_f f') -> r' l = r1' l) ->
  Use_f r r' f f' -> Use_f r1 r1' f f'.
Proof.
  intros A B U. pose proof (proj2 (proj2 (proj2 use_map)) _ _ _ _ U r1 r1' (fun l => l) (fun l => l) A B) as H.
  now rewrite !(proj2 (proj2 (proj2 subst_id))) in H.
Qed.

Lemma subst_lifetimes g :
  (forall v, lifetimes_v (subst_v g v) = map g (lifetimes_v v)) /\ (forall v, lifetimes_o (subst_o g v) = map g (lifetimes_o v)) /\
  (forall v, lifetimes_args (subst_args g v) = map g (lifetimes_args v)) /\ (forall v, lifetimes_f (subst_f g v) = map g (lifetimes_f v)).
Proof.
  apply tree_ind; intros; cbn [subst_v subst_o subst_args subst_f lifetimes_v lifetimes_o lifetimes_args lifetimes_f];
    rewrite ?map_app, ?map_map; cbn [map fst snd]; congruence.
Qed.
Lemma subst_type g :
  (forall v, type_v (subst_v g v) = type_v v) /\ (forall v, type_o (subst_o g v) = type_o v) /\
  (forall v, type_args (subst_args g v) = type_args v) /\ (forall v, type_f (subst_f g v) = type_f v).
Proof.
  apply tree_ind; intros; cbn [subst_v subst_o subst_args subst_f type_v type_o type_args type_f]; rewrite ?map_map; cbn [fst]; congruence.
Qed.
