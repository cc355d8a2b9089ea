(** C150-C154: substituting callables and traversing lifetimes. *)
From Coq Require Import List ZArith Bool Lia Relations.
From Verif.Lifetimes Require Import Model Spec Reach Apply.
From Verif.FnLifetimes Require Import Model Spec Proofs Proofs2 Proofs3.
Import ListNotations.
Local Open Scope Z_scope.

(** Some functions: [int* l], [const int* l], and functions of one parameter or result. *)
Definition ptr (l : lifetime) : vl := VPtr false l (VPlain false).
Definition void : vl := VPlain false.
Definition takes (v : vl) : fl := FL (ACons (OSome v) ANil) void ONone.
Definition gives (v : vl) : fl := FL ANil v ONone.
Definition id_fn (l : lifetime) : fl := FL (ACons (OSome (ptr l)) ANil) (ptr l) ONone.
Definition two_fn (l m : lifetime) : fl := FL (ACons (OSome (ptr l)) ANil) (ptr m) ONone.
(** l dies at 1, everything else earlier. *)
Definition only (l : lifetime) : meaning := fun k => if k =? Static then Never else if k =? l then Dies 1 else Dies 0.

(** ** C150 *)
(** C150 (1): if the constraints computed for (callable, replacement) hold, the first
    function can be used where the second is required (classes use their lifetime
    parameters covariantly). *)
Theorem C150_full_sound_partial f g r : type_f f = type_f g -> covariant_f f ->
  Sat r (substitution_full f g) -> Use_f r r f g.
Proof. intros T C S. apply (proj2 (proj2 (proj2 sound_all)) f g Le [] r T C S). discriminate. Qed.
Print Assumptions C150_full_sound_partial.
(** C150 (2): and nothing more is demanded than that (there are no pointers to functions). *)
Theorem C150_full_complete_partial f g r : type_f f = type_f g -> no_fp_f f ->
  Use_f r r f g -> Sat r (substitution_full f g).
Proof.
  intros T N U. apply (proj2 (proj2 (proj2 complete_all)) f g Le [] r T N); auto; [intros ? ? []|]. intro H. now contradiction H.
Qed.
Print Assumptions C150_full_complete_partial.
Example C150_nontrivial : type_f (two_fn 2 3) = type_f (id_fn 4) /\ covariant_f (two_fn 2 3) /\ no_fp_f (two_fn 2 3) /\
  substitution_full (two_fn 2 3) (id_fn 4) = [(4, 3); (2, 4)] /\ Sat (only 3) (substitution_full (two_fn 2 3) (id_fn 4)).
Proof.
  split; [reflexivity|]. split; [cbn; auto|]. split; [cbn; repeat split; intros; discriminate|]. split; [reflexivity|].
  intros s l [E|[E|[]]]; injection E as <- <-; cbn; lia.
Qed.

(** C150 (3): FALSE of the code: the documented direction ("allow `replacement_callable`
    to be used where `callable` is requested"). *)
Theorem C150_documented_direction_refuted :
  ~ (forall f g r, type_f f = type_f g -> covariant_f f -> no_fp_f f -> Sat r (substitution_full f g) -> Use_f r r g f).
Proof.
  intro H. specialize (H (gives (ptr 2)) (gives (ptr 3)) (only 2) eq_refl).
  assert (U : Use_f (only 2) (only 2) (gives (ptr 3)) (gives (ptr 2))).
  { apply H; [cbn; auto|cbn; repeat split; intros; discriminate|]. intros s l [E|[]]. injection E as <- <-. cbn. lia. }
  apply use_fl_inv in U. destruct U as (_ & U & _). apply use_ptr_inv in U. destruct U as (U & _). cbn in U. lia.
Qed.
Print Assumptions C150_documented_direction_refuted.
(** C150 (4): FALSE of the code: with a lifetime parameter that a class uses invariantly,
    the constraints do not suffice. *)
Theorem C150_invariant_parameter_refuted :
  ~ (forall f g r, type_f f = type_f g -> no_fp_f f -> Sat r (substitution_full f g) -> Use_f r r f g).
Proof.
  intro H. set (c := fun l => VRec false ANil [(false, l)]).
  assert (U : Use_f (only 2) (only 2) (gives (c 2)) (gives (c 3))).
  { apply H; [reflexivity|cbn; auto|]. intros s l [E|[]]. injection E as <- <-. cbn. lia. }
  apply use_fl_inv in U. destruct U as (_ & U & _). unfold c in U. inversion U as [| | |? ? ? ? ? ? ? ? ? F|]; subst.
  inversion F as [|? ? ? ? (_ & _ & A) _]; subst. specialize (A eq_refl). cbn in A. lia.
Qed.
Print Assumptions C150_invariant_parameter_refuted.
(** C150 (5): FALSE of the code: with a pointer to a function, callables that fit are
    turned down (the function pointed to is compared as if it could be assigned). *)
Theorem C150_function_pointer_refuted :
  ~ (forall f g r, type_f f = type_f g -> covariant_f f -> Use_f r r f g -> Sat r (substitution_full f g)).
Proof.
  intro H. set (c := fun l => gives (VPtr false Static (VFun (gives (ptr l))))).
  assert (S : Sat (only 2) (substitution_full (c 2) (c 3))).
  { apply H; [reflexivity|cbn; auto|]. apply use_fl; [constructor| |constructor].
    apply use_read; [cbn; auto|cbn; auto|]. apply use_fun. apply use_fl; [constructor| |constructor].
    apply use_write; [cbn; lia|constructor|constructor]. }
  specialize (S 2 3). cbn in S. assert (F : (1 <= 0)%nat); [|lia]. apply S. auto.
Qed.
Print Assumptions C150_function_pointer_refuted.

(** ** C151 *)
(** C151 (1): the constraints on the callable alone are exactly what the lifetimes of the
    other function leave over: a meaning of the callable's lifetimes fulfils them if and
    only if it can be completed so that the functions fit. *)
Theorem C151_projection_partial f g r : type_f f = type_f g -> covariant_f f -> no_fp_f f -> proper r ->
  (In Static (lifetimes_f g) -> In Static (lifetimes_f f)) ->
  (Sat r (substitution f g) <->
   exists s, proper s /\ (forall l, In l (lifetimes_f f) -> s l = r l) /\ Use_f s s f g).
Proof.
  intros T C N P St. rewrite sat_substitution. split.
  - intro H. destruct (extend_proper (substitution_full f g) (lifetimes_f f) r P) as (s & P' & A & S).
    + intros x y I D. apply full_within in I. destruct D as [-> | ->]; tauto.
    + exact H.
    + exists s. split; [exact P'|]. split; [exact A|]. now apply full_iff.
  - intros (s & P' & A & U) x x' I J O. rewrite <- (A x I), <- (A x' J). eapply sat_outlives; [|exact O]. now apply full_iff.
Qed.
Print Assumptions C151_projection_partial.
(** C151 (2): exactly: one pair for every two different lifetimes of the callable of which
    the second has to outlive the first. *)
Theorem C151_pairs f g x y : In (x, y) (substitution f g) <->
  x <> y /\ In x (lifetimes_f f) /\ In y (lifetimes_f f) /\ outlives (substitution_full f g) x y.
Proof. apply in_substitution. Qed.
Print Assumptions C151_pairs.
Example C151_nontrivial : substitution (two_fn 2 3) (id_fn 4) = [(2, 3)] /\
  Sat (only 3) (substitution (two_fn 2 3) (id_fn 4)) /\ ~ Sat (only 2) (substitution (two_fn 2 3) (id_fn 4)).
Proof.
  assert (E : substitution (two_fn 2 3) (id_fn 4) = [(2, 3)]) by reflexivity. rewrite E. split; [reflexivity|]. split.
  - intros s l [K|[]]. injection K as <- <-. cbn. lia.
  - intro S. specialize (S 2 3 (or_introl eq_refl)). cbn in S. lia.
Qed.
(** C151 (3): FALSE of the code when the other function has 'static and the callable has
    not: the constraint that the callable's lifetime be 'static is lost. *)
Theorem C151_static_lost_refuted :
  ~ (forall f g r, type_f f = type_f g -> covariant_f f -> no_fp_f f -> proper r ->
     Sat r (substitution f g) -> exists s, proper s /\ (forall l, In l (lifetimes_f f) -> s l = r l) /\ Use_f s s f g).
Proof.
  intro H. destruct (H (gives (ptr 2)) (gives (ptr Static)) (only 2) eq_refl) as (s & P & A & U).
  - cbn; auto.
  - cbn; repeat split; intros; discriminate.
  - reflexivity.
  - intros x y [].
  - apply use_fl_inv in U. destruct U as (_ & U & _). apply use_ptr_inv in U. destruct U as (U & _).
    rewrite P, (A 2) in U by (cbn; auto). exact U.
Qed.
Print Assumptions C151_static_lost_refuted.

(** ** C152 *)
(** C152 (1): for functions without 'static and without common lifetimes, "isomorphic"
    means that each can be used for the other. *)
Theorem C152_isomorphic_partial f g : type_f f = type_f g -> covariant_f f -> no_fp_f f -> apart f g ->
  ~ In Static (lifetimes_f f) -> ~ In Static (lifetimes_f g) ->
  (is_isomorphic f g = true <-> UsableAs f g /\ UsableAs g f).
Proof.
  intros T C N Ap Sf Sg. rewrite <- (empty_usable f g); auto.
  rewrite <- (empty_usable g f); auto.
  - unfold is_isomorphic. destruct (substitution f g), (substitution g f); intuition congruence.
  - eapply (proj2 (proj2 (proj2 cov_type))); eassumption.
  - eapply (proj2 (proj2 (proj2 nf_type))); eassumption.
  - intros l I J. now apply Ap.
Qed.
Print Assumptions C152_isomorphic_partial.
Example C152_nontrivial : is_isomorphic (id_fn 2) (id_fn 3) = true /\ is_isomorphic (id_fn 2) (two_fn 3 4) = false /\
  UsableAs (two_fn 3 4) (id_fn 2) /\ ~ UsableAs (id_fn 2) (two_fn 3 4) /\ apart (id_fn 2) (two_fn 3 4).
Proof.
  assert (A : apart (id_fn 2) (two_fn 3 4)) by (intros l [<-|[<-|[]]] [K|[K|[]]]; discriminate K).
  assert (S1 : ~ In Static (lifetimes_f (id_fn 2))) by (intros [K|[K|[]]]; discriminate K).
  assert (S2 : ~ In Static (lifetimes_f (two_fn 3 4))) by (intros [K|[K|[]]]; discriminate K).
  split; [reflexivity|]. split; [reflexivity|].
  assert (N : forall l m, no_fp_f (two_fn l m)) by (intros; cbn; repeat split; intros; discriminate).
  split; [|split; [|exact A]].
  - apply (empty_usable (id_fn 2) (two_fn 3 4)); auto; [cbn; auto|apply (N 2 2)].
  - intro U. apply (empty_usable (two_fn 3 4) (id_fn 2)) in U; auto; [discriminate U|cbn; auto|].
    intros l I J. now apply A.
Qed.
(** C152 (2): FALSE of the code with 'static: a function that takes anything and one that
    only takes 'static pointers are "isomorphic", so a recursive function's lifetimes
    are not updated to the latter. *)
Theorem C152_static_refuted :
  ~ (forall f g, type_f f = type_f g -> covariant_f f -> no_fp_f f -> apart f g -> is_isomorphic f g = true -> UsableAs g f).
Proof.
  intro H. assert (U : UsableAs (takes (ptr Static)) (takes (ptr 2))).
  { apply H; [reflexivity|cbn; auto|cbn; repeat split; intros; discriminate| |reflexivity]. intros l [<-|[]] [K|[]]. discriminate K. }
  destruct (U (only 2) eq_refl) as (s & P & V). apply use_fl_inv in V. destruct V as (V & _). apply use_cons_inv in V. destruct V as (V & _).
  apply use_some_inv in V. apply use_ptr_inv in V. destruct V as (V & _). rewrite P in V. exact V.
Qed.
Print Assumptions C152_static_refuted.
(** C152 (3): FALSE of the code: that functions are only isomorphic if one is the other
    with renamed lifetimes ("only where and how often a given Lifetime repeats is
    meaningful"). *)
Theorem C152_renaming_refuted :
  ~ (forall f g, is_isomorphic f g = true -> exists h, f = subst_f h g).
Proof.
  intro H. set (c := fun l m => FL (ACons (OSome (ptr l)) (ACons (OSome (ptr m)) ANil)) void ONone).
  destruct (H (c 2 3) (c 4 4) eq_refl) as (h & E). cbn in E. injection E as A B. lia.
Qed.
Print Assumptions C152_renaming_refuted.

(** ** C153 *)
(** C153 (1): after a virtual function has been constrained by the functions that override
    it, each of these can be used for it; this never fails, whatever could be used before
    still can, no lifetimes are added, and if all overrides could be used already, nothing
    changes. *)
Theorem C153_overrides_usable_partial f os : (forall l, In l (lifetimes_f f) -> is_variable l = true) ->
  covariant_f f -> no_fp_f f ->
  (forall o, In o os -> type_f f = type_f o /\ ~ In Static (lifetimes_f o) /\ apart f o) ->
  (exists out, update f os out) /\
  (forall out, update f os out -> exists f', out = Some f' /\ (forall o, In o os -> UsableAs o f') /\
    (forall o, UsableAs o f -> UsableAs o f') /\
    type_f f' = type_f f /\ incl (lifetimes_f f') (lifetimes_f f) /\
    ((forall o, In o os -> UsableAs o f) -> f' = f)).
Proof.
  intros V C N F. split; [now apply update_total|]. intros out U. now apply (update_spec f os out).
Qed.
Print Assumptions C153_overrides_usable_partial.
Example C153_nontrivial : forall f', constrain (two_fn 2 3) (id_fn 4) (Some f') -> f' <> two_fn 2 3 /\ UsableAs (id_fn 4) f'.
Proof.
  assert (V : forall l, In l (lifetimes_f (two_fn 2 3)) -> is_variable l = true) by (intros l [<-|[<-|[]]]; reflexivity).
  assert (N : no_fp_f (two_fn 2 3)) by (cbn; repeat split; intros; discriminate).
  assert (A : apart (two_fn 2 3) (id_fn 4)) by (intros l [<-|[<-|[]]] [K|[K|[]]]; discriminate K).
  assert (S1 : ~ In Static (lifetimes_f (id_fn 4))) by (intros [K|[K|[]]]; discriminate K).
  intros f' K. assert (U : UsableAs (id_fn 4) f') by (apply (constrained_usable (two_fn 2 3) (id_fn 4)); auto; cbn; auto).
  split; [|exact U]. intros ->. apply (empty_usable (two_fn 2 3) (id_fn 4)) in U; auto; [discriminate U|cbn; auto|].
  intros [J|[J|[]]]; discriminate J.
Qed.
(** C153 (2): FALSE of the code when an override demands 'static. *)
Theorem C153_static_override_refuted :
  ~ (forall f o f', (forall l, In l (lifetimes_f f) -> is_variable l = true) -> covariant_f f -> no_fp_f f ->
     type_f f = type_f o -> apart f o -> constrain f o (Some f') -> UsableAs o f').
Proof.
  intro H. assert (V : forall l, In l (lifetimes_f (takes (ptr 2))) -> is_variable l = true) by (intros l [<-|[]]; reflexivity).
  destruct (constrain_total (takes (ptr 2)) (takes (ptr Static)) V) as ((f' & K) & _).
  assert (U : UsableAs (takes (ptr Static)) f').
  { apply (H (takes (ptr 2))); auto; [cbn; auto|cbn; repeat split; intros; discriminate|]. intros l [<-|[]] [J|[]]. discriminate J. }
  apply fixed_of_empty in K; [|exact V|reflexivity]. subst f'.
  destruct (U (only 2) eq_refl) as (s & P & W). apply use_fl_inv in W. destruct W as (W & _). apply use_cons_inv in W. destruct W as (W & _).
  apply use_some_inv in W. apply use_ptr_inv in W. destruct W as (W & _). rewrite P in W. exact W.
Qed.
Print Assumptions C153_static_override_refuted.

(** ** C154 *)
(** C154 (1): a traversal visits exactly the lifetimes that occur, in post-order; *)
Theorem C154_visits f : map fst (trav_f f) = lifetimes_f f.
Proof. apply trav_all. Qed.
Print Assumptions C154_visits.

Lemma tmap_all (g : lifetime -> variance -> lifetime) :
  (forall v va, trav_v va (tmap_v g va v) = map (fun p => (g (fst p) (snd p), snd p)) (trav_v va v) /\ type_v (tmap_v g va v) = type_v v) /\
  (forall v va, trav_o va (tmap_o g va v) = map (fun p => (g (fst p) (snd p), snd p)) (trav_o va v) /\ type_o (tmap_o g va v) = type_o v) /\
  (forall v va, trav_args va (tmap_args g va v) = map (fun p => (g (fst p) (snd p), snd p)) (trav_args va v) /\ type_args (tmap_args g va v) = type_args v) /\
  (forall f, trav_f (tmap_f g f) = map (fun p => (g (fst p) (snd p), snd p)) (trav_f f) /\ type_f (tmap_f g f) = type_f f).
Proof.
  apply tree_ind; intros; cbn [tmap_v tmap_o tmap_args tmap_f trav_v trav_o trav_args trav_f type_v type_o type_args type_f]; auto.
  - destruct (H (if q then Covariant else Invariant)) as (-> & ->). rewrite map_app. auto.
  - destruct (H Invariant) as (-> & ->). rewrite map_app, !map_map. auto.
  - destruct H as (-> & ->). auto.
  - destruct (H va) as (-> & ->). auto.
  - destruct (H va) as (-> & ->), (H0 va) as (-> & ->). rewrite map_app. auto.
  - destruct (H Covariant) as (-> & ->), (H0 Covariant) as (-> & ->), (H1 Covariant) as (-> & ->). rewrite !map_app. auto.
Qed.
(** C154 (2): what the visitor makes of them is what is there afterwards, at the same
    places of the same type; *)
Theorem C154_replaces g f :
  trav_f (tmap_f g f) = map (fun p => (g (fst p) (snd p), snd p)) (trav_f f) /\ type_f (tmap_f g f) = type_f f.
Proof. apply tmap_all. Qed.
Print Assumptions C154_replaces.

Lemma has_all p :
  (forall v, has_v p v = existsb p (lifetimes_v v)) /\ (forall v, has_o p v = existsb p (lifetimes_o v)) /\
  (forall v, has_args p v = existsb p (lifetimes_args v)) /\ (forall f, has_f p f = existsb p (lifetimes_f f)).
Proof.
  apply tree_ind; intros; cbn [has_v has_o has_args has_f lifetimes_v lifetimes_o lifetimes_args lifetimes_f];
    rewrite ?existsb_app; cbn [existsb]; auto.
  - rewrite H, orb_false_r. apply orb_comm.
  - rewrite H. f_equal. clear. induction lps as [|[b l] lps IH]; cbn; [reflexivity|]. now rewrite IH.
  - now rewrite H, H0.
  - rewrite H, H0, H1. now rewrite orb_assoc.
Qed.
(** C154 (3): [HasAny] asks whether one of them has the property; *)
Theorem C154_has_any p f : has_f p f = true <-> exists l, In l (lifetimes_f f) /\ p l = true.
Proof. rewrite (proj2 (proj2 (proj2 (has_all p)))). apply existsb_exists. Qed.
Print Assumptions C154_has_any.
(** C154 (4): a substitution replaces each of them and nothing else. *)
Theorem C154_substitutes g f : lifetimes_f (subst_f g f) = map g (lifetimes_f f) /\ type_f (subst_f g f) = type_f f.
Proof. split; [apply subst_lifetimes|apply subst_type]. Qed.
Print Assumptions C154_substitutes.

Lemma use_refl r :
  (forall v, Use r r v v) /\ (forall v, Use_o r r v v) /\ (forall v, Use_args r r v v) /\ (forall v, Use_f r r v v).
Proof.
  apply tree_ind; intros; try (constructor; auto; fail).
  - apply use_write; auto. apply nl_refl.
  - apply use_rec; auto. induction lps; constructor; auto. split; [reflexivity|]. split; [apply nl_refl|intros _; apply nl_refl].
Qed.
Lemma tmap_inv g : (forall l, g l Invariant = l) ->
  (forall v, simple_v v -> tmap_v g Invariant v = v) /\ (forall v, simple_o v -> tmap_o g Invariant v = v) /\
  (forall v, simple_args v -> tmap_args g Invariant v = v) /\ (forall f : fl, True).
Proof.
  intro G. apply tree_ind; intros; cbn [tmap_v tmap_o tmap_args simple_v simple_o simple_args] in *; auto; try contradiction.
  - destruct H0 as (-> & S). rewrite H, G; auto.
  - rewrite H by auto. f_equal. rewrite <- (map_id_lps lps) at 2. apply map_ext. intros [b l]. cbn. now rewrite G.
  - rewrite H; auto.
  - destruct H1. rewrite H, H0; auto.
Qed.
(** C154 (5): the variance told to the visitor is right for values without functions and
    without const-qualified pointers: where covariant lifetimes are shortened and invariant
    ones kept, the old value can be used for the new one. *)
Theorem C154_variance_partial g r v : simple_v v -> covariant_v v ->
  (forall l, g l Invariant = l) -> (forall l, no_later (r (g l Covariant)) (r l)) ->
  Use r r v (tmap_v g Covariant v).
Proof.
  intros S C G H. destruct v as [q|q l v|q ta lps|f]; cbn [tmap_v simple_v covariant_v] in *.
  - constructor.
  - destruct S as (-> & S). rewrite (proj1 (tmap_inv g G) v S). apply use_write; auto; apply use_refl.
  - destruct C as (_ & C). rewrite (proj1 (proj2 (proj2 (tmap_inv g G))) ta S). apply use_rec; try apply use_refl.
    induction C as [|p lps E C IH]; constructor; auto. cbn. split; [reflexivity|]. split; [apply H|congruence].
  - contradiction.
Qed.
Print Assumptions C154_variance_partial.
Definition shrink (l : lifetime) (va : variance) : lifetime := match va with Covariant => if l =? 3 then 4 else l | Invariant => l end.
Lemma shrink_ok l : no_later (only 3 (shrink l Covariant)) (only 3 l).
Proof.
  unfold shrink. destruct (Z.eqb_spec l 3) as [->|_]; [cbn; lia|apply nl_refl].
Qed.
Example C154_nontrivial :
  let v := VPtr false 3 (VRec false (ACons (OSome (ptr 3)) ANil) [(true, 3)]) in
  simple_v v /\ covariant_v v /\ tmap_v shrink Covariant v = VPtr false 4 (VRec false (ACons (OSome (ptr 3)) ANil) [(true, 3)])
  /\ trav_v Covariant v = [(3, Invariant); (3, Invariant); (3, Covariant)].
Proof. cbn. split; [auto 10|]. split; [|auto]. split; [auto|repeat constructor]. Qed.
(** C154 (6): FALSE of the code: with a const-qualified pointer ([int ** const]) what it
    points to is reported covariant although it can be assigned ... *)
Theorem C154_const_pointer_refuted :
  ~ (forall g r v, covariant_v v -> (forall f, v <> VFun f) -> no_fp_v v ->
     (forall l, g l Invariant = l) -> (forall l, no_later (r (g l Covariant)) (r l)) -> Use r r v (tmap_v g Covariant v)).
Proof.
  intro H. specialize (H shrink (only 3) (VPtr true 2 (ptr 3))). cbn in H.
  assert (U : Use (only 3) (only 3) (VPtr true 2 (ptr 3)) (VPtr true 2 (ptr 4))).
  { apply H; auto; [discriminate|repeat split; intros; discriminate|exact shrink_ok]. }
  apply use_ptr_inv in U. destruct U as (_ & _ & [K|U]); [discriminate K|]. apply use_ptr_inv in U. destruct U as (U & _). cbn in U. lia.
Qed.
Print Assumptions C154_const_pointer_refuted.
(** ... and (7) so are the parameters of functions. *)
Theorem C154_parameters_refuted :
  ~ (forall g r f, covariant_f f -> no_fp_f f ->
     (forall l, g l Invariant = l) -> (forall l, no_later (r (g l Covariant)) (r l)) -> Use_f r r f (tmap_f g f)).
Proof.
  intro H. assert (U : Use_f (only 3) (only 3) (takes (ptr 3)) (takes (ptr 4))).
  { apply (H shrink (only 3) (takes (ptr 3))); [cbn; auto|cbn; repeat split; intros; discriminate|reflexivity|exact shrink_ok]. }
  apply use_fl_inv in U. destruct U as (U & _). apply use_cons_inv in U. destruct U as (U & _). apply use_some_inv in U.
  apply use_ptr_inv in U. destruct U as (U & _). cbn in U. lia.
Qed.
Print Assumptions C154_parameters_refuted.
