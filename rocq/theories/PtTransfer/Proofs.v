(** The statements of the analysis against the machine. *)
From Coq Require Import List Arith ZArith Bool Lia.
From Verif.Lifetimes Require Model.
From Verif.PointsTo Require Import Model Spec Proofs.
From Verif.PtTransfer Require Import Model Spec.
Import ListNotations.
Local Open Scope Z_scope.

Lemma found_done {A} (o : option A) a : found o = Done a -> o = Some a.
Proof. destruct o; cbn; congruence. Qed.
Lemma bind_done {A B} (r : res A) (f : A -> res B) b : bind r f = Done b -> exists a, r = Done a /\ f a = Done b.
Proof. destruct r; cbn; try discriminate. eauto. Qed.

Lemma points_set_expr m e s x o : points (set_expr m e s) x o <-> (x = Expr e /\ In o s) \/ (x <> Expr e /\ points m x o).
Proof.
  unfold points, entry, set_expr. destruct x as [p|e']; cbn [pointers exprs].
  - split; [intros (s' & E & I); right; split; [congruence|eauto] | intros [[E _]|[_ H]]; [discriminate|exact H]].
  - rewrite (lookup_update expr_eqb expr_eqb_spec). destruct (expr_eqb e' e) eqn:E.
    + apply expr_eqb_spec in E. subst. split.
      * intros (s' & E & I). left. injection E as <-. auto.
      * intros [[_ I]|[N _]]; [eauto|congruence].
    + split.
      * intros H. right. split; [|exact H]. intros [= ->]. assert (expr_eqb e e = true) by (apply expr_eqb_spec; reflexivity). congruence.
      * intros [[[= ->] _]|[_ H]]; [|exact H]. assert (expr_eqb e e = true) by (apply expr_eqb_spec; reflexivity). congruence.
Qed.
Lemma zeqb_spec a b : (a =? b) = true <-> a = b. Proof. apply Z.eqb_eq. Qed.
Lemma points_set m p s x o : points (set m p s) x o <-> (x = Pointer p /\ In o s) \/ (x <> Pointer p /\ points m x o).
Proof.
  unfold points, entry, set. destruct x as [p'|e]; cbn [pointers exprs].
  - rewrite (lookup_update Z.eqb zeqb_spec). destruct (p' =? p) eqn:E.
    + apply Z.eqb_eq in E. subst. split.
      * intros (s' & E & I). left. injection E as <-. auto.
      * intros [[_ I]|[N _]]; [eauto|congruence].
    + apply Z.eqb_neq in E. split; [intros H; right; split; [congruence|exact H] | intros [[[= ->] _]|[_ H]]; [congruence|exact H]].
  - split; [intros H; right; split; [congruence|exact H] | intros [[E _]|[_ H]]; [discriminate|exact H]].
Qed.
Lemma points_extend m p s x o : points (extend m p s) x o <-> points m x o \/ (x = Pointer p /\ In o s).
Proof.
  unfold points, entry, extend. destruct x as [p'|e]; cbn [pointers exprs].
  - rewrite (lookup_update Z.eqb zeqb_spec). destruct (p' =? p) eqn:E.
    + apply Z.eqb_eq in E. subst. split.
      * intros (s' & E & I). injection E as <-. apply add_all_in in I. destruct I as [I|I]; [left|right; auto].
        destruct (lookup Z.eqb p (pointers m)); cbn in I; [eauto|destruct I].
      * intros [(s' & E & I)|[_ I]]; eexists; (split; [reflexivity|]); apply add_all_in; [left|right; exact I]. rewrite E. exact I.
    + apply Z.eqb_neq in E. split; [intros H; left; exact H | intros [H|[[= ->] _]]; [exact H|congruence]].
  - split; [auto | intros [H|[E _]]; [exact H|discriminate]].
Qed.
Lemma points_extend_all ns ps : forall m x o, points (extend_all m ps ns) x o <-> points m x o \/ exists p, In p ps /\ x = Pointer p /\ In o ns.
Proof.
  unfold extend_all. induction ps as [|p ps IH]; intros m x o; cbn [fold_left].
  - split; [auto|intros [H|(p & [] & _)]; exact H].
  - rewrite IH, points_extend. split.
    + intros [[H|[E I]]|(q & Iq & E & I)]; [auto|right; exists p; cbn; auto|right; exists q; cbn; auto].
    + intros [H|(q & [<-|Iq] & E & I)]; [auto|auto|right; exists q; auto].
Qed.
Lemma points_get m p o : In o (get m p) <-> points m (Pointer p) o.
Proof.
  unfold get, points, entry. destruct (lookup Z.eqb p (pointers m)); [split; [eauto|intros (s & [= <-] & I); exact I]|].
  split; [intros []|intros (s & E & _); discriminate].
Qed.
Lemma get_many_in m ps o : In o (get_many m ps) <-> exists p, In p ps /\ points m (Pointer p) o.
Proof. unfold get_many. rewrite get_many_gen. cbn. split; [intros [[]|H]; exact H|auto]. Qed.
Lemma set_known m p s x : known m x -> known (set m p s) x.
Proof.
  unfold known, entry, set. destruct x; cbn [pointers exprs]; [|auto]. rewrite (lookup_update Z.eqb zeqb_spec).
  destruct (p0 =? p); [discriminate|auto].
Qed.

(** * Parenthesized expressions are never keys *)
Definition clean (m : pmap) : Prop := forall e, ~ known m (Expr (Paren e)).
Lemma get_expr_leaf m e s : clean m -> get_expr m e = Some s -> entry m (Expr (Leaf (operand e))) = Some s.
Proof.
  intros C. unfold get_expr. destruct e as [i|[i|e]]; cbn [operand]; [auto|auto|].
  intros E. exfalso. apply (C e). unfold known, entry. congruence.
Qed.

Section Sound.
Variables (abs : Z -> object) (R : repo) (L : layout).
Hypothesis rep : represents abs R L.

Lemma get_expr_covers m s e l v : clean m -> covers abs m s -> get_expr m e = Some l -> In v (value s e) -> In (abs v) l.
Proof.
  intros C [_ Hr] E I. apply (get_expr_leaf m e l C) in E. destruct (Hr _ _ I) as (l' & E' & I'). congruence.
Qed.
Lemma eval_covers m s id o v : covers abs m s -> (forall x, In x v -> In (abs x) o) -> covers abs (set_expr m (Leaf id) o) (eval s id v).
Proof.
  intros [Hm Hr] H. split; cbn [mem reg eval].
  - intros l x E. apply points_set_expr. right. split; [discriminate|auto].
  - intros i x. unfold upd. destruct (Z.eq_dec i id) as [->|N]; intros I; apply points_set_expr.
    + left. auto.
    + right. split; [congruence|auto].
Qed.
(** Strong update of one object, weak update of any set that includes the written object. *)
Lemma write_strong m s (here : Z -> Prop) v o ns s' : covers abs m s -> (forall x, abs x = o -> here x) -> writes s here v s' ->
  (forall x, here x -> abs x = o) -> (forall x, In x v -> In (abs x) ns) -> covers abs (set m o ns) s'.
Proof.
  intros [Hm Hr] One (Er & Hw & Ho) Hh Hv. split.
  - intros l x E. apply points_set. destruct (Z.eq_dec (abs l) o) as [El|Nl].
    + left. split; [congruence|]. specialize (Hw l (One l El)). rewrite E in Hw. apply Hv. exact Hw.
    + right. split; [congruence|]. apply Hm. rewrite <- E. symmetry. apply Ho. intros H. apply Nl. apply Hh. exact H.
  - intros i x I. apply points_set. right. split; [discriminate|]. apply Hr. rewrite <- Er. exact I.
Qed.
Lemma write_weak m s here v ps ns s' : covers abs m s -> writes s here v s' ->
  (forall x, here x -> In (abs x) ps) -> (forall x, In x v -> In (abs x) ns) -> covers abs (extend_all m ps ns) s'.
Proof.
  intros [Hm Hr] (Er & Hw & Ho) Hh Hv. split.
  - intros l x E. apply points_extend_all. destruct (In_dec Z.eq_dec (abs l) ps) as [Hl|Nl].
    + destruct (In_dec Z.eq_dec (abs x) ns) as [Ix|Nx]; [right; eauto|]. left.
      apply Hm. rewrite <- E. symmetry. apply Ho. intros H. apply Nx. apply Hv. specialize (Hw l H). rewrite E in Hw. exact Hw.
    + left. apply Hm. rewrite <- E. symmetry. apply Ho. auto.
  - intros i x I. apply points_extend_all. left. apply Hr. rewrite <- Er. exact I.
Qed.

Lemma covers_ext m s s' : covers abs m s -> (forall x, mem s' x = mem s x) -> reg s' = reg s -> covers abs m s'.
Proof. intros [Hm Hr] Em Er. split; [intros l v; rewrite Em; apply Hm|intros i v; rewrite Er; apply Hr]. Qed.

(** What an initializer does to the points-to map, for types of pointers only. *)
Definition strip (t : ty) : ty := match t with TArr t' => t' | _ => t end.
Definition tracked_type (t : ty) : bool := match strip t with TPtr _ _ | TRef _ _ => true | _ => false end.
Lemma initializer_pointers fuel dest t i keep m c m' c' : pointers_only t ->
  initializer R fuel dest t i keep m c = Done (m', c') ->
  if tracked_type t
  then exists s, get_expr m (init_expr i) = Some s /\ m' = (if keep then extend_all m [dest] s else set m dest s)
  else m' = m.
Proof.
  unfold tracked_type, strip. intros Hp E.
  assert (G : forall t', (match t' with TPtr _ _ | TRef _ _ => True | _ => False end) ->
    (do s <- found (get_expr m (init_expr i)); if keep then extension R fuel [dest] s t' m c else Done (set m dest s, c)) = Done (m', c') ->
    exists s, get_expr m (init_expr i) = Some s /\ m' = (if keep then extend_all m [dest] s else set m dest s)).
  { intros t' Hn H. apply bind_done in H. destruct H as (s & Es & H). apply found_done in Es. exists s. split; [exact Es|].
    destruct keep; [|congruence]. unfold extension in H. destruct (is_record t'); [discriminate|]. apply bind_done in H. destruct H as (c1 & _ & H). congruence. }
  destruct t as [|b t|b t|r|t|]; cbn [pointers_only] in Hp; try contradiction; destruct i as [e|id is_]; cbn in E;
    try congruence; try (apply (G (TPtr b t) Logic.I); exact E); try (apply (G (TRef b t) Logic.I); exact E).
  all: destruct t; try contradiction; cbn in E |- *; try congruence;
    try (apply (G (TPtr pointee_const t) Logic.I); exact E); try (apply (G (TRef pointee_const t) Logic.I); exact E).
Qed.
Lemma cells_tracked t l : pointers_only t -> tracked_type t = false -> forall x, ~ cells L t l x.
Proof. intros Hp Ht x H. destruct t as [|b t|b t|r|t|]; cbn in *; try contradiction; try discriminate. destruct t; cbn in *; try contradiction; discriminate. Qed.
Lemma cells_abs t l x : cells L t l x -> abs x = abs l.
Proof.
  intros H. destruct t as [|b t|b t|r|t|]; cbn in H; try contradiction; try congruence.
  destruct t; try contradiction; destruct H as [->|H]; try reflexivity; exact (rep_array _ _ _ rep _ _ H).
Qed.
Lemma cells_root t l : tracked_type t = true -> cells L t l l.
Proof. destruct t as [|b t|b t|r|t|]; cbn; try discriminate; auto. destruct t; cbn; try discriminate; auto. Qed.

(** Declarations. *)
Lemma clean_set m p s : clean m -> clean (set m p s).
Proof. intros C e. apply (C e). Qed.
Lemma clean_extend_all ns ps : forall m, clean m -> clean (extend_all m ps ns).
Proof. unfold extend_all. induction ps as [|p ps IH]; intros m C; cbn [fold_left]; [exact C|]. apply IH. exact C. Qed.
Lemma clean_set_expr m i s : clean m -> clean (set_expr m (Leaf i) s).
Proof.
  intros C e H. apply (C e). unfold known, entry, set_expr in *. cbn [exprs] in *. rewrite (lookup_update expr_eqb expr_eqb_spec) in H. exact H.
Qed.

Lemma declares_sound vars s s' : declares L (fields R) vars s s' ->
  (forall d t i x, In (d, t, Some i) vars -> (exists l, cells L t (var_at L d) l) -> abs x = decl_object R d -> cells L t (var_at L d) x) ->
  forall fuel m c m' c', clean m -> covers abs m s -> decls R fuel vars m c = Done (m', c') -> clean m' /\ covers abs m' s'.
Proof.
  induction 1 as [s|d t rest s s' H IH|d r i rest s s' H IH|d t i rest s s1 s' Hp Hi H IH]; intros Own fuel m c m' c' C Cov E; cbn [decls] in E.
  - injection E as <- <-. auto.
  - eapply IH; eauto. intros; eapply Own; [right|..]; eauto.
  - cbn [is_record bind] in E. eapply IH; eauto. intros; eapply Own; [right|..]; eauto.
  - apply bind_done in E. destruct E as ([m1 c1] & E1 & E).
    assert (Hr : is_record t = false) by (destruct t; cbn in Hp |- *; try contradiction; reflexivity). rewrite Hr in E1.
    inversion Hi as [l t0 i0 s0 s0' Hp' Hw|l r id is_ s0 s0' Hf]; subst; [|destruct Hp].
    pose proof (initializer_pointers _ _ _ _ _ _ _ _ _ Hp E1) as Hm. 
    assert (K : clean m1 /\ covers abs m1 s1).
    { destruct (tracked_type t) eqn:Et.
      - destruct Hm as (o & Eo & ->). split; [apply clean_set; exact C|].
        apply (write_strong m s (cells L t (var_at L d)) (value s (init_expr i)) (decl_object R d) o s1 Cov).
        + intros x Ex. apply (Own d t i x); [left; reflexivity| exists (var_at L d); apply cells_root; exact Et | exact Ex].
        + exact Hw.
        + intros x Hx. rewrite (cells_abs _ _ _ Hx). apply (rep_var _ _ _ rep).
        + intros x Hx. apply (get_expr_covers m s (init_expr i)); auto.
      - subst m1. split; [exact C|]. destruct Hw as (Er & _ & Ho). apply (covers_ext m s); [exact Cov| |exact Er].
        intros x. apply Ho. apply cells_tracked; assumption. }
    destruct K as [C1 Cov1]. apply (fun Own' => IH Own' fuel m1 c1 m' c' C1 Cov1 E). intros; eapply Own; [right|..]; eauto.
Qed.

(** Aggregates. *)
Scheme initializes_ind2 := Minimality for initializes Sort Prop with init_fields_ind2 := Minimality for init_fields Sort Prop.
Combined Scheme init_all from initializes_ind2, init_fields_ind2.
Fixpoint over_fields (fuel : nat) (dest : object) (l : list (Z * ty)) (is_ : list init) (keep : bool) (m : pmap) (c : Lifetimes.Model.constraints) {struct is_} :=
  match is_, l with
  | _, [] => Done (m, c)
  | i :: is', (f, ft) :: l' =>
      do d <- found (field_object R dest f);
      do (m, c) <- initializer R fuel d ft i keep m c; over_fields fuel dest l' is' keep m c
  | [], _ :: _ => Crash
  end.
Lemma initializer_record fuel dest r id is_ keep m c :
  initializer R fuel dest (TRec r) (IList id is_) keep m c = over_fields fuel dest (fields R r) is_ keep m c.
Proof.
  cbn [initializer]. generalize (fields R r). revert m c. induction is_ as [|i is_ IH]; intros m c l; destruct l as [|[f ft] l]; try reflexivity.
  cbn [over_fields]. destruct (field_object R dest f) as [d|]; cbn [found bind]; [|reflexivity].
  destruct (initializer R fuel d ft i keep m c) as [| |[m1 c1]]; cbn [bind]; try reflexivity. apply IH.
Qed.
Lemma aggregates_sound :
  (forall l t i s s', initializes L (fields R) l t i s s' -> forall fuel m c m' c', clean m -> covers abs m s ->
     initializer R fuel (abs l) t i true m c = Done (m', c') -> clean m' /\ covers abs m' s') /\
  (forall l fs is_ s s', init_fields L (fields R) l fs is_ s s' -> forall fuel m c m' c', clean m -> covers abs m s ->
     over_fields fuel (abs l) fs is_ true m c = Done (m', c') -> clean m' /\ covers abs m' s').
Proof.
  apply init_all.
  - intros l t i s s' Hp Hw fuel m c m' c' C Cov E. pose proof (initializer_pointers _ _ _ _ _ _ _ _ _ Hp E) as Hm.
    destruct (tracked_type t) eqn:Et.
    + destruct Hm as (o & Eo & ->). split; [apply clean_extend_all; exact C|].
      apply (write_weak m s (cells L t l) (value s (init_expr i)) [abs l] o s' Cov Hw).
      * intros x Hx. left. symmetry. apply (cells_abs _ _ _ Hx).
      * intros x Hx. apply (get_expr_covers m s (init_expr i)); auto.
    + subst m'. split; [exact C|]. destruct Hw as (Er & _ & Ho). apply (covers_ext m s); [exact Cov| |exact Er].
      intros x. apply Ho. apply cells_tracked; assumption.
  - intros l r id is_ s s' _ IH fuel m c m' c' C Cov E. rewrite initializer_record in E. eapply IH; eauto.
  - intros l s fuel m c m' c' C Cov E. cbn in E. injection E as <- <-. auto.
  - intros l f t fs i is_ s s1 s' _ IH1 _ IH2 fuel m c m' c' C Cov E. cbn [over_fields] in E.
    apply bind_done in E. destruct E as (d & Ed & E). apply found_done in Ed.
    apply bind_done in E. destruct E as ([m1 c1] & E1 & E).
    rewrite <- (rep_field _ _ _ rep l f d Ed) in E1. destruct (IH1 _ _ _ _ _ C Cov E1) as [C1 Cov1].
    apply (IH2 _ _ _ _ _ C1 Cov1 E).
Qed.

(** Field objects of a set. *)
Lemma map_objects_in f s : forall acc r, map_objects f s acc = Done r ->
  forall o, In o r <-> In o acc \/ exists x, In x s /\ f x = Some o.
Proof.
  induction s as [|x s IH]; intros acc r E o; cbn [map_objects] in E.
  - injection E as <-. split; [auto|intros [H|(x & [] & _)]; exact H].
  - apply bind_done in E. destruct E as (y & Ey & E). apply found_done in Ey. rewrite (IH _ _ E o), add1_in. split.
    + intros [[H| ->]|(z & Iz & Ez)]; [auto|right; exists x; cbn; auto|right; exists z; cbn; auto].
    + intros [H|(z & [<-|Iz] & Ez)]; [auto|left; right; congruence|right; eauto].
Qed.
Lemma map_objects_total f s : forall acc r, map_objects f s acc = Done r -> forall x, In x s -> exists o, f x = Some o.
Proof.
  induction s as [|x s IH]; intros acc r E y; [intros []|]; cbn [map_objects] in E.
  apply bind_done in E. destruct E as (z & Ez & E). apply found_done in Ez. intros [<-|I]; [eauto|eapply IH; eauto].
Qed.
Lemma union_inits_in m l : forall acc r, union_inits m l acc = Done r ->
  match r with
  | Some t => forallb snd l = true /\ (forall o, In o acc -> In o t) /\ forall e b s o, In (e, b) l -> get_expr m e = Some s -> In o s -> In o t
  | None => forallb snd l = false
  end.
Proof.
  induction l as [|[e b] l IH]; intros acc r E; cbn [union_inits forallb snd] in *.
  - injection E as <-. split; [reflexivity|]. split; [auto|intros ? ? ? ? []].
  - destruct b; [|injection E as <-; reflexivity]. apply bind_done in E. destruct E as (s & Es & E). apply found_done in Es.
    specialize (IH _ _ E). destruct r as [t|]; cbn [andb]; [|exact IH]. destruct IH as (F & A & B). split; [exact F|]. split.
    + intros o I. apply A. apply add_all_in. auto.
    + intros e' b' s' o [[= <- <-]|I] Es' Io; [apply A; apply add_all_in; right; congruence|eapply B; eauto].
Qed.
Lemma union_inits_known m l : forall acc t, union_inits m l acc = Done (Some t) -> forall e b, In (e, b) l -> exists s, get_expr m e = Some s.
Proof.
  induction l as [|[e b] l IH]; intros acc t E e' b' I; [destruct I|]. cbn [union_inits] in E. destruct b; [|discriminate].
  apply bind_done in E. destruct E as (s & Es & E). apply found_done in Es. destruct I as [[= <- <-]|I]; [eauto|eapply IH; eauto].
Qed.
End Sound.
