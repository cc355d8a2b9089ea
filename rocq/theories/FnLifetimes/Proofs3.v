(** One callable for another: the whole relation, isomorphism, overrides. *)
From Coq Require Import List ZArith Bool Lia Relations.
From Verif.Lifetimes Require Import Model Spec Reach Apply.
From Verif.FnLifetimes Require Import Model Spec Proofs Proofs2.
Import ListNotations.
Local Open Scope Z_scope.

(** The conditions depend only on the type. *)
Lemma cov_type :
  (forall v v', type_v v = type_v v' -> covariant_v v -> covariant_v v') /\
  (forall v v', type_o v = type_o v' -> covariant_o v -> covariant_o v') /\
  (forall v v', type_args v = type_args v' -> covariant_args v -> covariant_args v') /\
  (forall v v', type_f v = type_f v' -> covariant_f v -> covariant_f v').
Proof.
  apply tree_ind.
  - intros q [] T; cbn in *; try discriminate T; auto.
  - intros q l v IH [] T; cbn [type_v covariant_v] in *; try discriminate T. injection T as _ T. auto.
  - intros q ta IH lps [] T; cbn [type_v covariant_v] in *; try discriminate T. injection T as _ T E.
    intros (A & B). split; [auto|]. eapply cov_fst; [apply fst_map; exact E|exact B].
  - intros f IH [] T; cbn [type_v covariant_v] in *; try discriminate T. injection T as T. auto.
  - intros [] T; cbn in *; try discriminate T; auto.
  - intros v IH [] T; cbn [type_o covariant_o] in *; try discriminate T. injection T as T. auto.
  - intros [] T; cbn in *; try discriminate T; auto.
  - intros o IHo a IHa [] T; cbn [type_args covariant_args] in *; try discriminate T. injection T as T1 T2. intros (A & B). auto.
  - intros ps IHp r IHr th IHt [] T; cbn [type_f covariant_f] in *. injection T as T1 T2 T3. intros (A & B & C). auto.
Qed.
Lemma nf_type :
  (forall v v', type_v v = type_v v' -> no_fp_v v -> no_fp_v v') /\
  (forall v v', type_o v = type_o v' -> no_fp_o v -> no_fp_o v') /\
  (forall v v', type_args v = type_args v' -> no_fp_args v -> no_fp_args v') /\
  (forall v v', type_f v = type_f v' -> no_fp_f v -> no_fp_f v').
Proof.
  apply tree_ind.
  - intros q [] T; cbn in *; try discriminate T; auto.
  - intros q l v IH [] T; cbn [type_v no_fp_v] in *; try discriminate T. injection T as _ T. intros (A & B). split; [|auto].
    intros f ->. destruct v; cbn in T; try discriminate T. exact (A _ eq_refl).
  - intros q ta IH lps [] T; cbn [type_v no_fp_v] in *; try discriminate T. injection T as _ T E. auto.
  - intros f IH [] T; cbn [type_v no_fp_v] in *; try discriminate T. injection T as T. auto.
  - intros [] T; cbn in *; try discriminate T; auto.
  - intros v IH [] T; cbn [type_o no_fp_o] in *; try discriminate T. injection T as T. auto.
  - intros [] T; cbn in *; try discriminate T; auto.
  - intros o IHo a IHa [] T; cbn [type_args no_fp_args] in *; try discriminate T. injection T as T1 T2. intros (A & B). auto.
  - intros ps IHp r IHr th IHt [] T; cbn [type_f no_fp_f] in *. injection T as T1 T2 T3. intros (A & B & C). auto.
Qed.

(** [b] fits with meanings of [a] that respect what is implied. *)
Lemma fits a b r : type_f a = type_f b -> covariant_f a -> no_fp_f a -> proper r ->
  (In Static (lifetimes_f b) -> In Static (lifetimes_f a)) ->
  (forall x x', In x (lifetimes_f a) -> In x' (lifetimes_f a) -> outlives (substitution_full a b) x' x -> no_later (r x) (r x')) ->
  exists s, proper s /\ (forall x, In x (lifetimes_f a) -> s x = r x) /\ Use_f s s b a.
Proof.
  intros T C N P St H.
  destruct (extend_proper (substitution_full b a) (lifetimes_f a) r P) as (s & P' & A & S).
  - intros x y I D. apply full_within in I. destruct D as [-> | ->]; tauto.
  - intros x x' I J O. apply H; auto. now apply full_rev_outlives.
  - exists s. split; [exact P'|]. split; [exact A|]. apply full_iff; auto.
    + eapply (proj2 (proj2 (proj2 cov_type))); eassumption.
    + eapply (proj2 (proj2 (proj2 nf_type))); eassumption.
Qed.

Lemma empty_usable a b : type_f a = type_f b -> covariant_f a -> no_fp_f a -> apart a b ->
  ~ In Static (lifetimes_f a) -> ~ In Static (lifetimes_f b) ->
  (substitution a b = [] <-> UsableAs b a).
Proof.
  intros T C N Ap Sa Sb. split.
  - intros E r P. destruct (fits a b r T C N P) as (s & P' & A & U); [tauto| |].
    + intros x x' I J O. destruct (Z.eq_dec x' x) as [->|D]; [apply nl_refl|].
      assert (K : In (x', x) (substitution a b)) by (apply in_substitution; auto). rewrite E in K. destruct K.
    + exists s. split; [exact P'|]. eapply use_agree; [reflexivity|exact A|exact U].
  - intro U. destruct (substitution a b) as [|[x y] rest] eqn:E; [reflexivity|]. exfalso.
    assert (I : In (x, y) (substitution a b)) by (rewrite E; now left). apply in_substitution in I. destruct I as (D & I & J & O).
    set (r := fun l : lifetime => if Z.eqb l Static then Never else if Z.eqb l y then Dies 1 else Dies 0).
    destruct (U r eq_refl) as (s & P & V).
    set (t := fun l : lifetime => if in_dec Z.eq_dec l (lifetimes_f b) then s l else r l).
    assert (V' : Use_f t t b a).
    { eapply use_agree; [| |exact V].
      - intros l K. unfold t. destruct (in_dec Z.eq_dec l (lifetimes_f b)); [reflexivity|contradiction].
      - intros l K. unfold t. destruct (in_dec Z.eq_dec l (lifetimes_f b)) as [K'|_]; [|reflexivity].
        exfalso. rewrite (Ap _ K K') in K. contradiction. }
    apply full_iff in V'; [|now symmetry|eapply (proj2 (proj2 (proj2 cov_type))); eassumption|eapply (proj2 (proj2 (proj2 nf_type))); eassumption].
    apply (full_rev_outlives a b x y T) in O. pose proof (sat_outlives _ _ _ _ V' O) as Q.
    unfold t in Q. destruct (in_dec Z.eq_dec y (lifetimes_f b)) as [K|_]; [rewrite (Ap _ J K) in J; contradiction|].
    destruct (in_dec Z.eq_dec x (lifetimes_f b)) as [K|_]; [rewrite (Ap _ I K) in I; contradiction|].
    unfold r in Q. rewrite Z.eqb_refl in Q. destruct (Z.eqb_spec y Static) as [->|_]; [contradiction|].
    destruct (Z.eqb_spec x Static) as [->|_]; [contradiction|]. destruct (Z.eqb_spec x y) as [->|_]; [contradiction|].
    cbn in Q. lia.
Qed.

(** The substitution computed for a base function. *)
Lemma set_signature f : (forall l, In l (lifetimes_f f) -> is_variable l = true) -> signature (lifetime_set f).
Proof.
  intro V. split; [apply NoDup_nodup|]. intros l I. left. apply V. now apply in_lifetime_set.
Qed.
Lemma outlives_in f g x y : outlives (substitution f g) x y -> x = y \/ (In x (lifetimes_f f) /\ In y (lifetimes_f f)).
Proof.
  intro O. induction O as [x y I|x|x y z A IHA B IHB]; auto.
  - apply in_substitution in I. tauto.
  - destruct IHA as [->|IHA]; [exact IHB|]. destruct IHB as [<-|IHB]; [auto|]. tauto.
Qed.
Section Constrain.
  Variables f g : fl.
  Hypothesis V : forall l, In l (lifetimes_f f) -> is_variable l = true.
  Lemma var_not_static l : is_variable l = true -> l <> Static.
  Proof. intros H ->. discriminate H. Qed.
  Lemma var_not_local l : is_variable l = true -> is_local l = false.
  Proof. unfold is_variable, is_local. intro H. apply Z.ltb_lt in H. apply Z.leb_gt. lia. Qed.
  Lemma not_forced_static l : In l (lifetimes_f f) -> ~ forced_static (substitution f g) l.
  Proof.
    intros I O. apply outlives_in in O. destruct O as [<-|(A & _)]; [apply V in I; discriminate I|apply V in A; discriminate A].
  Qed.
  Lemma not_forced_local l : In l (lifetimes_f f) -> ~ forced_local (substitution f g) l.
  Proof.
    intros I (x & L & D & O). apply outlives_in in O. destruct O as [->|(_ & A)]; [contradiction|].
    apply V, var_not_local in A. congruence.
  Qed.
  Lemma no_static_local x : is_local x = true -> ~ outlives (substitution f g) Static x.
  Proof.
    intros L O. apply outlives_in in O. destruct O as [<-|(A & _)]; [discriminate L|apply V in A; discriminate A].
  Qed.
  Lemma constrain_total : (exists f', constrain f g (Some f')) /\ ~ constrain f g None.
  Proof.
    pose proof (set_signature f V) as S.
    destruct (C48_error_exactly_when_local_outlives_static (substitution f g) _ S) as (_ & Er & Ok). split.
    - destruct (proj2 Ok) as (m & A); [intros (x & L & O); exact (no_static_local x L O)|].
      assert (F : forall ls, (forall l, In l ls -> In l (lifetime_set f)) -> exists h, forall l, In l ls -> substitute m l (h l)).
      { induction ls as [|l ls IH]; intro Sub; [exists (fun l => l); intros l []|].
        destruct IH as (h & H); [intros; apply Sub; now right|].
        destruct (C48_what_each_lifetime_becomes _ _ _ S A l (Sub l (or_introl eq_refl))) as (r & R & _).
        exists (fun k => if Z.eqb k l then r else h k). intros k [->|I].
        - rewrite Z.eqb_refl. now apply R.
        - destruct (Z.eqb_spec k l) as [->|_]; [now apply R|auto]. }
      destruct (F (lifetime_set f)) as (h & H); [auto|]. exists (subst_f h f). eapply constrain_ok; eassumption.
    - intro K. inversion K as [|A]; subst. apply Er in A. destruct A as (x & L & O). exact (no_static_local x L O).
  Qed.
  Lemma constrain_spec f' : constrain f g (Some f') -> exists h, f' = subst_f h f /\
    (forall l, In l (lifetimes_f f) -> In (h l) (lifetimes_f f) /\ connected (substitution f g) (lifetime_set f) l (h l)) /\
    (forall l l', In l (lifetimes_f f) -> In l' (lifetimes_f f) -> outlives (substitution f g) l l' -> h l = h l').
  Proof.
    pose proof (set_signature f V) as S. intro K. inversion K as [m h A H E|]; subst. exists h. split; [reflexivity|].
    split.
    - intros l I. apply in_lifetime_set in I. destruct (C48_what_each_lifetime_becomes _ _ _ S A l I) as (r & R & _ & _ & Q).
      pose proof (H l I) as B. apply R in B. rewrite B. apply in_lifetime_set in I.
      destruct Q as (Q & _ & Cn); [now apply not_forced_static|now apply not_forced_local|]. split; [now apply in_lifetime_set|exact Cn].
    - intros l l' I J O. pose proof (proj2 (in_lifetime_set _ _) I) as I'. pose proof (proj2 (in_lifetime_set _ _) J) as J'.
      apply (proj2 (C48_identified_exactly_when_connected _ _ _ S A l l' _ _ I' J' (not_forced_static l I) (not_forced_local l I) (not_forced_static l' J) (not_forced_local l' J) (H l I') (H l' J'))).
      apply rst_step. unfold linked. split; [exact I'|]. split; [exact J'|]. split; [exact O|]. split; [now apply not_forced_static|now apply not_forced_local].
  Qed.
End Constrain.

Lemma fixed_of_empty f g f' : (forall l, In l (lifetimes_f f) -> is_variable l = true) -> substitution f g = [] ->
  constrain f g (Some f') -> f' = f.
Proof.
  intros V E K. destruct (constrain_spec f g V f' K) as (h & -> & H & _).
  assert (F : forall l, In l (lifetimes_f f) -> h l = l).
  { intros l I. destruct (H l I) as (_ & Cn). rewrite E in Cn. clear - Cn.
    assert (G : forall x y, connected [] (lifetime_set f) x y -> x = y).
    { intros x y Q. induction Q as [x y (_ & _ & O & _)|x|x y _ IH|x y z _ IH1 _ IH2]; try congruence.
      clear - O. induction O as [x y []|x|x y z _ IH1 _ IH2]; congruence. }
    symmetry. now apply G. }
  clear - F. rewrite <- (proj2 (proj2 (proj2 subst_id)) f) at 2.
  revert F. generalize f. clear f.
  assert (L : (forall v, (forall l, In l (lifetimes_v v) -> h l = l) -> subst_v h v = subst_v (fun l => l) v) /\
    (forall v, (forall l, In l (lifetimes_o v) -> h l = l) -> subst_o h v = subst_o (fun l => l) v) /\
    (forall v, (forall l, In l (lifetimes_args v) -> h l = l) -> subst_args h v = subst_args (fun l => l) v) /\
    (forall v, (forall l, In l (lifetimes_f v) -> h l = l) -> subst_f h v = subst_f (fun l => l) v)).
  { apply tree_ind; intros; cbn [subst_v subst_o subst_args subst_f lifetimes_v lifetimes_o lifetimes_args lifetimes_f] in *; try reflexivity.
    - rewrite H, H0; [reflexivity|rewrite in_app_iff; cbn; auto|intros; apply H0, in_app_iff; auto].
    - rewrite H by (intros; apply H0, in_app_iff; auto). f_equal. apply map_ext_in. intros [b l] I. cbn. rewrite H0; [reflexivity|].
      apply in_app_iff. right. change l with (snd (b, l)). now apply in_map.
    - rewrite H; auto.
    - rewrite H; auto.
    - rewrite H, H0; auto; intros; apply H1, in_app_iff; auto.
    - rewrite H, H0, H1; auto; intros; apply H2; rewrite !in_app_iff; auto. }
  apply L.
Qed.

Lemma usable_subst o f h : (forall l, In l (lifetimes_f f) -> is_variable l = true) -> UsableAs o f -> UsableAs o (subst_f h f).
Proof.
  intros V U r P. destruct (U (fun l => if Z.eqb l Static then Never else r (h l)) eq_refl) as (s & P' & W).
  exists s. split; [exact P'|].
  pose proof (proj2 (proj2 (proj2 use_map)) _ _ _ _ W s r (fun l => l) h) as M. rewrite (proj2 (proj2 (proj2 subst_id))) in M.
  apply M; [reflexivity|]. intros l I. apply V in I. destruct (Z.eqb_spec l Static) as [->|_]; [discriminate I|reflexivity].
Qed.

Lemma constrained_usable f g f' : (forall l, In l (lifetimes_f f) -> is_variable l = true) -> ~ In Static (lifetimes_f g) ->
  type_f f = type_f g -> covariant_f f -> no_fp_f f -> constrain f g (Some f') -> apart f g -> UsableAs g f'.
Proof.
  intros V Sg T C N K Ap. destruct (constrain_spec f g V f' K) as (h & -> & H & Q). intros r P.
  set (r1 := fun l : lifetime => if Z.eqb l Static then Never else r (h l)).
  destruct (fits f g r1 T C N eq_refl) as (s & P' & A & U); [tauto| |].
  - intros x x' I J O. assert (E : h x' = h x).
    { apply Q; auto. destruct (Z.eq_dec x' x) as [->|D]; [apply rt_refl|]. apply rt_step. now apply in_substitution. }
    unfold r1. apply V in I, J. destruct (Z.eqb_spec x Static) as [->|_]; [discriminate I|].
    destruct (Z.eqb_spec x' Static) as [->|_]; [discriminate J|]. rewrite E. apply nl_refl.
  - exists s. split; [exact P'|].
    pose proof (proj2 (proj2 (proj2 use_map)) _ _ _ _ U s r (fun l => l) h) as M. rewrite (proj2 (proj2 (proj2 subst_id))) in M.
    apply M; [reflexivity|]. intros l I. rewrite (A l I). unfold r1. apply V in I. destruct (Z.eqb_spec l Static) as [->|_]; [discriminate I|reflexivity].
Qed.

Lemma constrain_keeps f g f' : (forall l, In l (lifetimes_f f) -> is_variable l = true) -> constrain f g (Some f') ->
  type_f f' = type_f f /\ incl (lifetimes_f f') (lifetimes_f f).
Proof.
  intros V K. destruct (constrain_spec f g V f' K) as (h & -> & H & Q). split; [apply subst_type|].
  intros l I. rewrite (proj2 (proj2 (proj2 (subst_lifetimes h)))) in I. apply in_map_iff in I. destruct I as (k & <- & I). now apply H.
Qed.

(** What is asked of an override. *)
Definition fine (f o : fl) : Prop := type_f f = type_f o /\ ~ In Static (lifetimes_f o) /\ apart f o.
Lemma fine_keeps f f' o : type_f f' = type_f f -> incl (lifetimes_f f') (lifetimes_f f) -> fine f o -> fine f' o.
Proof.
  intros T I (A & B & C). split; [congruence|]. split; [exact B|]. intros l K L. apply C; auto.
Qed.

Lemma update_spec f os out : update f os out -> (forall l, In l (lifetimes_f f) -> is_variable l = true) ->
  covariant_f f -> no_fp_f f -> (forall o, In o os -> fine f o) ->
  exists f', out = Some f' /\ (forall o, In o os -> UsableAs o f') /\
    (forall o, UsableAs o f -> UsableAs o f') /\
    type_f f' = type_f f /\ incl (lifetimes_f f') (lifetimes_f f) /\
    ((forall o, In o os -> UsableAs o f) -> f' = f).
Proof.
  intro U. induction U as [f|f o os f1 out K U IH|f o os K]; intros V C N F.
  - exists f. split; [reflexivity|]. split; [intros o []|]. split; [auto|]. split; [reflexivity|]. split; [apply incl_refl|auto].
  - destruct (constrain_keeps f o f1 V K) as (T & I).
    assert (V1 : forall l, In l (lifetimes_f f1) -> is_variable l = true) by (intros l J; apply V; auto).
    assert (C1 : covariant_f f1) by (eapply (proj2 (proj2 (proj2 cov_type))); [symmetry; exact T|exact C]).
    assert (N1 : no_fp_f f1) by (eapply (proj2 (proj2 (proj2 nf_type))); [symmetry; exact T|exact N]).
    destruct (IH V1 C1 N1) as (f' & E & A & B & T' & I' & Fx).
    { intros o' J. apply (fine_keeps f); auto. apply F. now right. }
    destruct (F o (or_introl eq_refl)) as (To & So & Ao).
    assert (Uo : UsableAs o f1) by (exact (constrained_usable f o f1 V So To C N K Ao)).
    assert (Keep : forall o', UsableAs o' f -> UsableAs o' f1).
    { intros o' W. destruct (constrain_spec f o V f1 K) as (h & -> & _). now apply usable_subst. }
    exists f'. split; [exact E|]. split; [intros o' [->|J]; auto|]. split; [auto|]. split; [congruence|].
    split; [eapply incl_tran; eassumption|]. intro W.
    assert (E1 : f1 = f).
    { apply (fixed_of_empty f o f1 V); [|exact K]. apply empty_usable; auto; [|apply W; now left].
      intro J. apply V in J. discriminate J. }
    subst f1. apply Fx. intros o' J. apply W. now right.
  - exfalso. exact (proj2 (constrain_total f o V) K).
Qed.
Lemma update_total : forall os f, (forall l, In l (lifetimes_f f) -> is_variable l = true) -> exists out, update f os out.
Proof.
  induction os as [|o os IH]; intros f V; [exists (Some f); constructor|].
  destruct (constrain_total f o V) as ((f1 & K) & _). destruct (constrain_keeps f o f1 V K) as (_ & I).
  destruct (IH f1) as (out & U); [intros l J; apply V; auto|]. exists out. eapply update_step; eassumption.
Qed.
