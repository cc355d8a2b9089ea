(** C181: what a call passes to the function it calls. *)
From Coq Require Import List ZArith Bool Lia.
From Verif.Lifetimes Require Model.
From Verif.PointsTo Require Import Model Spec.
From Verif.PtTransfer Require Import Model Spec Proofs Proofs3 Proofs4 Proofs5.
Import ListNotations.
Local Open Scope Z_scope.

(** ** Specification *)
Section CallSpec.
Variable R : repo.
(** An initializer of type [t] for the object [dest] stores the value of the expression in the object. *)
Inductive passes : object -> ty -> init -> object -> expr -> Prop :=
| PassPointer dest t i : (exists k t', t = TPtr k t' \/ t = TRef k t') -> passes dest t i dest (init_expr i)
| PassElements dest t i x e : passes dest t i x e -> (forall t', t <> TArr t') -> passes dest (TArr t) i x e
| PassFields dest r id is_ x e : passes_fields dest (fields R r) is_ x e -> passes dest (TRec r) (IList id is_) x e
with passes_fields : object -> list (Z * ty) -> list init -> object -> expr -> Prop :=
| PassThis dest f t fs i is_ d x e : field_object R dest f = Some d -> passes d t i x e -> passes_fields dest ((f, t) :: fs) (i :: is_) x e
| PassLater dest f t fs i is_ x e : passes_fields dest fs is_ x e -> passes_fields dest ((f, t) :: fs) (i :: is_) x e.

(** The functions a call may call: the one named, or those its callee may point to; whether it is a member operator. *)
Definition may_call (m : pmap) (callee : callee) (f : Z) (operator : bool) : Prop :=
  match callee with
  | Direct g b => f = g /\ operator = b
  | Indirect e => operator = false /\ exists s o, get_expr m e = Some s /\ In o s /\ func R o = Some f
  | NoLifetimes _ => False
  end.
(** Argument [i] initializes parameter [i], but the first argument of a member operator is the receiver. *)
Definition argument (f : Z) (operator : bool) (args : list init) (i : nat) (a : init) (t : ty) : Prop :=
  nth_error args i = Some a /\
  if operator then exists j, i = Datatypes.S j /\ nth_error (params R f) j = Some t else nth_error (params R f) i = Some t.
Definition receiver (operator : bool) (args : list init) (this_arg : option expr) (e : expr) : Prop :=
  if operator then exists a rest, args = a :: rest /\ e = init_expr a else this_arg = Some e.
(** [x] may hold everything that [e] may. *)
Definition receives (m m' : pmap) (x : object) (e : expr) : Prop :=
  exists s, get_expr m e = Some s /\ forall o, In o s -> points m' (Pointer x) o.
End CallSpec.

(** ** Proofs *)
Section Calls.
Variable R : repo.
(** Only pointers' entries grow. *)
Definition grows (m m' : pmap) : Prop := exprs m' = exprs m /\ forall p o, points m (Pointer p) o -> points m' (Pointer p) o.
Lemma grows_refl m : grows m m.
Proof. split; [reflexivity|auto]. Qed.
Lemma grows_trans m m1 m2 : grows m m1 -> grows m1 m2 -> grows m m2.
Proof. intros [E H] [E' H']. split; [congruence|auto]. Qed.
Lemma get_expr_exprs m m' e : exprs m' = exprs m -> get_expr m' e = get_expr m e.
Proof. intros E. unfold get_expr. induction e; cbn; rewrite ?E; auto. Qed.
Lemma receives_later m m1 m2 m3 x e : exprs m1 = exprs m -> grows m2 m3 -> receives m1 m2 x e -> receives m m3 x e.
Proof. intros E [_ G] (s & Es & H). exists s. split; [rewrite <- (get_expr_exprs m m1); assumption|auto]. Qed.
Lemma extend_all_exprs ns ps : forall m, exprs (extend_all m ps ns) = exprs m.
Proof. unfold extend_all. induction ps as [|p ps IH]; intros m; cbn [fold_left]; [reflexivity|]. rewrite IH. reflexivity. Qed.
Lemma grows_extend m ps ns : grows m (extend_all m ps ns).
Proof. split; [apply extend_all_exprs|]. intros p o H. apply points_extend_all. left. exact H. Qed.
Lemma extension_grows fuel ps ns t m c m' c' : extension R fuel ps ns t m c = Done (m', c') -> m' = extend_all m ps ns /\ incl c c'.
Proof.
  unfold extension. destruct (is_record t); [discriminate|]. intros H. apply bind_done in H. destruct H as (c1 & H1 & H). injection H as <- <-.
  split; [reflexivity|]. exact (proj1 (assignment_only R _ _ _ _ _ _ _ H1)).
Qed.

Lemma extension_receives fuel x t m c m' c' e s : get_expr m e = Some s -> extension R fuel [x] s t m c = Done (m', c') ->
  grows m m' /\ incl c c' /\ receives m m' x e.
Proof.
  intros Es H. apply extension_grows in H. destruct H as [-> I]. split; [apply grows_extend|]. split; [exact I|].
  exists s. split; [exact Es|]. intros o Io. apply points_extend_all. right. exists x. cbn [In]. auto.
Qed.
Definition over_list (fuel : nat) (dest : object) :=
  fix over (l : list (Z * ty)) (is_ : list init) (m : pmap) (c : Lifetimes.Model.constraints) {struct is_} :=
    match is_, l with
    | _, [] => Done (m, c)
    | i :: is', (f, ft) :: l' =>
        do d <- found (field_object R dest f);
        do (m, c) <- initializer R fuel d ft i true m c; over l' is' m c
    | [], _ :: _ => Crash
    end.
Lemma initializer_passes fuel i : forall dest t m c m' c', initializer R fuel dest t i true m c = Done (m', c') ->
  grows m m' /\ incl c c' /\ forall x e, passes R dest t i x e -> receives m m' x e.
Proof.
  induction i as [e0|id l IH] using init_ind2; intros dest t m c m' c' E.
  - assert (One : forall t1, (exists k t', t1 = TPtr k t' \/ t1 = TRef k t') ->
      (do s <- found (get_expr m e0); extension R fuel [dest] s t1 m c) = Done (m', c') -> grows m m' /\ incl c c' /\ receives m m' dest e0).
    { intros t1 _ H. apply bind_done in H. destruct H as (s & Es & H). apply found_done in Es. exact (extension_receives _ _ _ _ _ _ _ _ _ Es H). }
    assert (Head : forall t1, (forall t', t1 <> TArr t') -> match t1 with TPtr _ _ | TRef _ _ | TRec _ => (do s <- found (get_expr m e0); extension R fuel [dest] s t1 m c) | _ => Done (m, c) end = Done (m', c') ->
      grows m m' /\ incl c c' /\ forall x e, passes R dest t1 (IExpr e0) x e -> receives m m' x e).
    { intros t1 Na H. destruct t1 as [|k t1|k t1|r|t1|]; try (exfalso; exact (Na _ eq_refl)).
      - injection H as <- <-. split; [apply grows_refl|]. split; [apply incl_refl|]. intros x e P. inversion P as [? ? ? (k & t' & [?|?])| |]; discriminate.
      - destruct (One (TPtr k t1)) as (G & I & Rc); [exists k, t1; auto|exact H|]. split; [exact G|]. split; [exact I|]. intros x e P. inversion P; subst; exact Rc.
      - destruct (One (TRef k t1)) as (G & I & Rc); [exists k, t1; auto|exact H|]. split; [exact G|]. split; [exact I|]. intros x e P. inversion P; subst; exact Rc.
      - apply bind_done in H. destruct H as (s & _ & H). discriminate.
      - injection H as <- <-. split; [apply grows_refl|]. split; [apply incl_refl|]. intros x e P. inversion P as [? ? ? (k & t' & [?|?])| |]; discriminate. }
    destruct t as [|k t1|k t1|r|t1|]; try (apply Head; [discriminate|exact E]).
    destruct t1 as [|k t1|k t1|r|t1|];
      try (match type of E with initializer _ _ _ (TArr ?u) _ _ _ _ = _ => destruct (Head u) as (G & I & Rc); [discriminate|exact E|] end;
           split; [exact G|]; split; [exact I|]; intros x e P; inversion P as [? ? ? (? & ? & [?|?])|? ? ? ? ? P'|]; subst; try discriminate; apply Rc; exact P').
    injection E as <- <-. split; [apply grows_refl|]. split; [apply incl_refl|].
    intros x e P. inversion P as [? ? ? (? & ? & [?|?])|? ? ? ? ? P' Na|]; subst; try discriminate. exfalso. exact (Na _ eq_refl).
  - assert (Over : forall l', (forall i, In i l' -> In i l) -> forall fs m c, over_list fuel dest fs l' m c = Done (m', c') ->
      grows m m' /\ incl c c' /\ forall x e, passes_fields R dest fs l' x e -> receives m m' x e).
    { clear m c E. induction l' as [|i l' IHl]; intros Hl fs m c E.
      - destruct fs as [|[f ft] fs]; [|discriminate]. injection E as <- <-. split; [apply grows_refl|]. split; [apply incl_refl|]. intros x e P. inversion P.
      - destruct fs as [|[f ft] fs].
        + injection E as <- <-. split; [apply grows_refl|]. split; [apply incl_refl|]. intros x e P. inversion P.
        + cbn [over_list] in E. apply bind_done in E. destruct E as (d & Ed & E). apply found_done in Ed. apply bind_done in E. destruct E as ([m1 c1] & E1 & E).
          destruct (IH i (Hl i (or_introl eq_refl)) d ft m c m1 c1 E1) as (G1 & I1 & R1).
          destruct (IHl (fun i H => Hl i (or_intror H)) fs m1 c1 E) as (G2 & I2 & R2).
          split; [exact (grows_trans _ _ _ G1 G2)|]. split; [exact (incl_tran I1 I2)|]. intros x e P. inversion P as [? ? ? ? ? ? d' ? ? Ed' P'|? ? ? ? ? ? ? ? P']; subst.
          * rewrite Ed in Ed'. injection Ed' as <-. apply (receives_later m m m1); [reflexivity|exact G2|]. apply R1. exact P'.
          * apply (receives_later m m1 m'); [exact (proj1 G1)|apply grows_refl|]. apply R2. exact P'. }
    assert (One : (do s <- found (get_expr m (Leaf id)); extension R fuel [dest] s t m c) = Done (m', c') -> grows m m' /\ incl c c' /\ receives m m' dest (Leaf id)).
    { intros H. apply bind_done in H. destruct H as (s & Es & H). apply found_done in Es. exact (extension_receives _ _ _ _ _ _ _ _ _ Es H). }
    clear One.
    assert (Head : forall t1, (forall t', t1 <> TArr t') ->
      match t1 with TRec r => over_list fuel dest (fields R r) l m c
                  | TPtr _ _ | TRef _ _ => (do s <- found (get_expr m (Leaf id)); extension R fuel [dest] s t1 m c) | _ => Done (m, c) end = Done (m', c') ->
      grows m m' /\ incl c c' /\ forall x e, passes R dest t1 (IList id l) x e -> receives m m' x e).
    { intros t1 Na H. destruct t1 as [|k t1|k t1|r|t1|]; try (exfalso; exact (Na _ eq_refl)).
      - injection H as <- <-. split; [apply grows_refl|]. split; [apply incl_refl|]. intros x e P. inversion P as [? ? ? (k & t' & [?|?])| |]; discriminate.
      - apply bind_done in H. destruct H as (s & Es & H). apply found_done in Es. destruct (extension_receives _ _ _ _ _ _ _ _ _ Es H) as (G & I & Rc).
        split; [exact G|]. split; [exact I|]. intros x e P. inversion P; subst; exact Rc.
      - apply bind_done in H. destruct H as (s & Es & H). apply found_done in Es. destruct (extension_receives _ _ _ _ _ _ _ _ _ Es H) as (G & I & Rc).
        split; [exact G|]. split; [exact I|]. intros x e P. inversion P; subst; exact Rc.
      - destruct (Over l (fun i H => H) (fields R r) m c H) as (G & I & Rc). split; [exact G|]. split; [exact I|].
        intros x e P. inversion P as [? ? ? (k & t' & [?|?])| |? ? ? ? ? ? P']; subst; try discriminate. apply Rc. exact P'.
      - injection H as <- <-. split; [apply grows_refl|]. split; [apply incl_refl|]. intros x e P. inversion P as [? ? ? (k & t' & [?|?])| |]; discriminate. }
    destruct t as [|k t1|k t1|r|t1|]; try (apply Head; [discriminate|exact E]).
    destruct t1 as [|k t1|k t1|r|t1|];
      try (match type of E with initializer _ _ _ (TArr ?u) _ _ _ _ = _ => destruct (Head u) as (G & I & Rc); [discriminate|exact E|] end;
           split; [exact G|]; split; [exact I|]; intros x e P; inversion P as [? ? ? (? & ? & [?|?])|? ? ? ? ? P'|]; subst; try discriminate; apply Rc; exact P').
    injection E as <- <-. split; [apply grows_refl|]. split; [apply incl_refl|].
    intros x e P. inversion P as [? ? ? (? & ? & [?|?])|? ? ? ? ? P' Na|]; subst; try discriminate. exfalso. exact (Na _ eq_refl).
Qed.
Lemma arguments_passes fuel id types shift args : forall i m c m' c', arguments R fuel id types args i shift m c = Done (m', c') ->
  grows m m' /\ incl c c' /\ forall k a, nth_error args k = Some a ->
    exists d t, arg_object R id (i + k) = Some d /\ nth_error types (if shift then i + k - 1 else i + k)%nat = Some t /\ forall x e, passes R d t a x e -> receives m m' x e.
Proof.
  induction args as [|a args IH]; intros i m c m' c' E; cbn [arguments] in E.
  - injection E as <- <-. split; [apply grows_refl|]. split; [apply incl_refl|]. intros [|k] a E; discriminate.
  - apply bind_done in E. destruct E as (d & Ed & E). apply found_done in Ed. apply bind_done in E. destruct E as (t & Et & E). apply found_done in Et.
    apply bind_done in E. destruct E as ([m1 c1] & E1 & E). destruct (initializer_passes fuel a d t m c m1 c1 E1) as (G1 & I1 & R1).
    destruct (IH _ _ _ _ _ E) as (G2 & I2 & R2). split; [exact (grows_trans _ _ _ G1 G2)|]. split; [exact (incl_tran I1 I2)|].
    intros [|k] b Eb; cbn [nth_error] in Eb.
    + injection Eb as <-. rewrite Nat.add_0_r. exists d, t. split; [exact Ed|]. split; [exact Et|].
      intros x e P. apply (receives_later m m m1); [reflexivity|exact G2|auto].
    + destruct (R2 k b Eb) as (d' & t' & Ed' & Et' & H). rewrite <- plus_n_Sm. exists d', t'. split; [exact Ed'|]. split; [exact Et'|].
      intros x e P. apply (receives_later m m1 m'); [exact (proj1 G1)|apply grows_refl|auto].
Qed.
(** What one function that is called gets. *)
Definition gets (id : Z) (args : list init) (this_arg : option expr) (f : Z) (op : bool) (m m' : pmap) (c' : Lifetimes.Model.constraints) : Prop :=
  incl (callable R f (call_lifetimes R id)) c' /\
  (forall i a t, argument R f op args i a t -> exists d, arg_object R id i = Some d /\ forall x e, passes R d t a x e -> receives m m' x e) /\
  (forall e, receiver op args this_arg e -> receives m m' (call_this R id) e).
Lemma gets_later id args this_arg f op m m1 m2 m3 c c' : exprs m1 = exprs m -> grows m2 m3 -> incl c c' ->
  gets id args this_arg f op m1 m2 c -> gets id args this_arg f op m m3 c'.
Proof.
  intros E G I (H1 & H2 & H3). split; [exact (incl_tran H1 I)|]. split.
  - intros i a t A. destruct (H2 i a t A) as (d & Ed & H). exists d. split; [exact Ed|]. intros x e P. apply (receives_later m m1 m2); auto.
  - intros e Re. apply (receives_later m m1 m2); auto.
Qed.
Lemma one_callee_gets fuel id args this_arg f op m c m' c' : one_callee R fuel id args this_arg f op m c = Done (m', c') ->
  grows m m' /\ incl c c' /\ gets id args this_arg f op m m' c'.
Proof.
  intros E. unfold one_callee in E. set (c1 := fst (Lifetimes.Model.join c _)) in *.
  assert (I0 : incl c c1) by apply join_incl.
  assert (J0 : incl (callable R f (call_lifetimes R id)) c1) by (intros q I; apply cjoin_in; auto). clearbody c1.
  apply bind_done in E. destruct E as ([m2 c2] & E1 & E). cbv zeta in E.
  assert (A : grows m m2 /\ incl c1 c2 /\ forall i a t, argument R f op args i a t -> exists d, arg_object R id i = Some d /\ forall x e, passes R d t a x e -> receives m m2 x e).
  { destruct op.
    - destruct (arguments_passes _ _ _ _ _ _ _ _ _ _ E1) as (G & I & H). split; [exact G|]. split; [exact I|].
      intros i a t (Ea & j & -> & Et). destruct args as [|a0 args]; [discriminate|]. cbn [nth_error tl] in *. destruct (H j a Ea) as (d & t' & Ed & Et' & P).
      exists d. split; [exact Ed|]. cbn [Nat.add Nat.sub] in Et'. rewrite Nat.sub_0_r in Et'. rewrite Et in Et'. injection Et' as <-. exact P.
    - destruct (arguments_passes _ _ _ _ _ _ _ _ _ _ E1) as (G & I & H). split; [exact G|]. split; [exact I|].
      intros i a t (Ea & Et). destruct (H i a Ea) as (d & t' & Ed & Et' & P). exists d. split; [exact Ed|]. cbn [Nat.add] in Et'. rewrite Et in Et'. injection Et' as <-. exact P. }
  destruct A as (G & I & A).
  assert (Rv : forall e, receiver op args this_arg e -> (if op then match args with a :: _ => Some (init_expr a) | [] => None end else this_arg) = Some e).
  { intros e H. destruct op; cbn in H; [destruct H as (a & rest & -> & ->); reflexivity|exact H]. }
  destruct (if op then match args with a :: _ => Some (init_expr a) | [] => None end else this_arg) as [e|].
  - apply bind_done in E. destruct E as (s & Es & E). apply found_done in Es. destruct (extension_receives _ _ _ _ _ _ _ _ _ Es E) as (G' & I' & Rc).
    split; [exact (grows_trans _ _ _ G G')|]. split; [exact (incl_tran I0 (incl_tran I I'))|]. split; [exact (incl_tran J0 (incl_tran I I'))|]. split.
    + intros i a t Ha. destruct (A i a t Ha) as (d & Ed & H). exists d. split; [exact Ed|]. intros x e' P. apply (receives_later m m m2); auto.
    + intros e' He. apply Rv in He. injection He as <-. apply (receives_later m m2 m'); [exact (proj1 G)|apply grows_refl|exact Rc].
  - injection E as <- <-. split; [exact G|]. split; [exact (incl_tran I0 I)|]. split; [exact (incl_tran J0 I)|]. split; [exact A|].
    intros e He. apply Rv in He. discriminate.
Qed.
Lemma all_callees_get fuel id args this_arg l : forall m c m' c', all_callees R fuel id args this_arg l m c = Done (m', c') ->
  grows m m' /\ incl c c' /\ forall f op, In (f, op) l -> gets id args this_arg f op m m' c'.
Proof.
  induction l as [|[f op] l IH]; intros m c m' c' E; cbn [all_callees] in E.
  - injection E as <- <-. split; [apply grows_refl|]. split; [apply incl_refl|]. intros ? ? [].
  - apply bind_done in E. destruct E as ([m1 c1] & E1 & E). destruct (one_callee_gets _ _ _ _ _ _ _ _ _ _ E1) as (G1 & I1 & H1).
    destruct (IH _ _ _ _ E) as (G2 & I2 & H2). split; [exact (grows_trans _ _ _ G1 G2)|]. split; [exact (incl_tran I1 I2)|].
    intros f' op' [[= <- <-]|I].
    + apply (gets_later _ _ _ _ _ m m m1 m' c1 c'); [reflexivity|exact G2|exact I2|exact H1].
    + apply (gets_later _ _ _ _ _ m m1 m' m' c' c'); [exact (proj1 G1)|apply grows_refl|apply incl_refl|auto].
Qed.
Lemma indirect_in s f op : In (f, op) (indirect_callees R s) <-> op = false /\ exists o, In o s /\ func R o = Some f.
Proof.
  unfold indirect_callees. rewrite in_flat_map. split.
  - intros (o & Io & H). destruct (func R o) as [g|] eqn:E; [|destruct H]. destruct H as [[= <- <-]|[]]. eauto.
  - intros (-> & o & Io & E). exists o. split; [exact Io|]. rewrite E. left. reflexivity.
Qed.
End Calls.

(** * C181 *)
Section Props.
Variable R : repo.
(** After a call has been analysed: every function it may call has its lifetimes tied to those of the call; what an argument may refer to,
    the corresponding argument object of the call may point to; what the receiver may be, [this] may point to; and no pointer has lost a pointee. *)
Theorem C181_calls_pass_their_arguments fuel id callee args this_arg value m c sv m' c' sv' :
  visit R fuel (Call id callee args this_arg value) (m, c, sv) = Done (Go (m', c', sv')) ->
  (forall p o, points m (Pointer p) o -> points m' (Pointer p) o) /\ incl c c' /\
  forall f op, may_call R m callee f op ->
    incl (callable R f (call_lifetimes R id)) c' /\
    (forall i a t, argument R f op args i a t -> exists d, arg_object R id i = Some d /\ forall x e, passes R d t a x e -> receives m m' x e) /\
    (forall e, receiver op args this_arg e -> receives m m' (call_this R id) e).
Proof.
  intros E. cbn [visit] in E.
  assert (Go1 : forall l, (do (m1, c1) <- all_callees R fuel id args this_arg l m c;
        match value with
        | IntoObject => do c <- equality R fuel m1 [result_object R id] [call_ret R id] (object_type R (result_object R id)) c1; Done (Go (m1, c, sv))
        | Plain => match get m1 (call_ret R id) with [] => Done (Go (m1, c1, sv)) | s => Done (Go (set_expr m1 (Leaf id) s, c1, sv)) end
        end) = Done (Go (m', c', sv')) ->
    (forall p o, points m (Pointer p) o -> points m' (Pointer p) o) /\ incl c c' /\ forall f op, In (f, op) l -> gets R id args this_arg f op m m' c').
  { intros l H. apply bind_done in H. destruct H as ([m1 c1] & H1 & H). destruct (all_callees_get R _ _ _ _ _ _ _ _ _ H1) as (G & I & K).
    assert (F : (forall p o, points m1 (Pointer p) o -> points m' (Pointer p) o) /\ incl c1 c').
    { destruct value.
      - apply bind_done in H. destruct H as (c2 & H2 & H). injection H as <- <- _. split; [auto|]. exact (equality_incl R m1 fuel _ _ _ _ _ H2).
      - destruct (get m1 (call_ret R id)) as [|o s]; injection H as <- <- _; (split; [|apply incl_refl]); [auto|].
        intros p o' Hp. apply points_set_expr. right. split; [discriminate|exact Hp]. }
    destruct F as [F1 F2]. split; [intros p o Hp; apply F1, (proj2 G); exact Hp|]. split; [exact (incl_tran I F2)|].
    intros f op If. destruct (K f op If) as (K1 & K2 & K3).
    assert (Lift : forall x e, receives m m1 x e -> receives m m' x e) by (intros x e (s & Es & Hs); exists s; split; [exact Es|auto]).
    split; [exact (incl_tran K1 F2)|]. split; [|auto]. intros i a t A. destruct (K2 i a t A) as (d & Ed & Hd). exists d. split; [exact Ed|]. auto. }
  destruct callee as [g b|message|e0].
  - destruct (Go1 [(g, b)] E) as (A & B & C). split; [exact A|]. split; [exact B|]. intros f op [-> ->]. apply C. left. reflexivity.
  - discriminate.
  - apply bind_done in E. destruct E as (s & Es & E). apply found_done in Es. destruct (Go1 _ E) as (A & B & C). split; [exact A|]. split; [exact B|].
    intros f op (-> & s' & o & Es' & Io & Ef). apply C. apply indirect_in. split; [reflexivity|]. exists o. split; [congruence|exact Ef].
Qed.
(** The value of the call is what its return object may point to. *)
Theorem C181_value_of_a_call fuel id callee args this_arg m c sv m' c' sv' o :
  visit R fuel (Call id callee args this_arg Plain) (m, c, sv) = Done (Go (m', c', sv')) ->
  points m' (Pointer (call_ret R id)) o -> points m' (Expr (Leaf id)) o.
Proof.
  intros E. cbn [visit] in E.
  assert (Go1 : forall l, (do (m1, c1) <- all_callees R fuel id args this_arg l m c;
        match get m1 (call_ret R id) with [] => Done (Go (m1, c1, sv)) | s => Done (Go (set_expr m1 (Leaf id) s, c1, sv)) end) = Done (Go (m', c', sv')) ->
    points m' (Pointer (call_ret R id)) o -> points m' (Expr (Leaf id)) o).
  { intros l H. apply bind_done in H. destruct H as ([m1 c1] & H1 & H). destruct (get m1 (call_ret R id)) as [|o1 s] eqn:Eg; injection H as <- <- _; intros P.
    - apply points_get in P. rewrite Eg in P. destruct P.
    - apply points_set_expr. left. split; [reflexivity|]. apply points_set_expr in P. destruct P as [[? _]|[_ P]]; [discriminate|].
      apply points_get in P. rewrite Eg in P. exact P. }
  destruct callee as [g b|message|e0]; [exact (Go1 _ E)|discriminate|].
  apply bind_done in E. destruct E as (s & Es & E). exact (Go1 _ E).
Qed.
(** Constructors: likewise, and [this] points to the object under construction. *)
Theorem C181_constructors_get_their_object fuel id f b args this_type m c sv m' c' sv' :
  visit R fuel (Construct id (Direct f b) args this_type) (m, c, sv) = Done (Go (m', c', sv')) ->
  (forall p o, points m (Pointer p) o -> points m' (Pointer p) o) /\ incl c c' /\
  incl (callable R f (call_lifetimes R id)) c' /\
  (forall i a t, nth_error args i = Some a -> nth_error (params R f) i = Some t ->
     exists d, arg_object R id i = Some d /\ forall x e, passes R d t a x e -> receives m m' x e) /\
  points m' (Pointer (call_this R id)) (result_object R id).
Proof.
  intros E. cbn [visit] in E. set (c1 := fst (Lifetimes.Model.join c _)) in *. assert (I0 : incl c c1) by apply join_incl.
  assert (J0 : incl (callable R f (call_lifetimes R id)) c1) by (intros q I; apply cjoin_in; auto). clearbody c1.
  apply bind_done in E. destruct E as ([m2 c2] & E1 & E). unfold next in E. apply bind_done in E. destruct E as ([m3 c3] & E2 & E). injection E as -> -> _.
  destruct (arguments_passes R _ _ _ _ _ _ _ _ _ _ E1) as (G & I & H). apply extension_grows in E2. destruct E2 as [-> I2].
  pose proof (grows_extend m2 [call_this R id] [result_object R id]) as G2.
  split; [exact (proj2 (grows_trans _ _ _ G G2))|]. split; [exact (incl_tran I0 (incl_tran I I2))|]. split; [exact (incl_tran J0 (incl_tran I I2))|]. split.
  - intros i a t Ea Et. destruct (H i a Ea) as (d & t' & Ed & Et' & P). exists d. split; [exact Ed|]. cbn [Nat.add] in Et'. rewrite Et in Et'. injection Et' as <-.
    intros x e Px. apply (receives_later m m m2); auto.
  - apply points_extend_all. right. exists (call_this R id). cbn [In]. auto.
Qed.
End Props.
Print Assumptions C181_calls_pass_their_arguments.
Print Assumptions C181_value_of_a_call.
Print Assumptions C181_constructors_get_their_object.
(** [void f(int* a, S b); f(p, {q});], where [S] has one pointer: argument object 100 gets what [p] may hold, the field of argument object 101 what
    [q] may; [r += p] calls the member operator 8 with receiver [r]. *)
Definition R6 : repo := {|
  life := fun o => o; func := fun o => if o =? 60 then Some 8 else None; callable := fun f l => [(f, l)];
  params := fun f => if f =? 7 then [TPtr false TOther; TRec 1] else if f =? 8 then [TPtr false TOther] else []; fields := fun r => if r =? 1 then [(10, TPtr false TOther)] else [];
  bases := fun _ => []; field_object := fun o f => if (o =? 101) && (f =? 10) then Some 102 else None; base_object := fun _ _ => None; decl_object := fun d => d; string_object := 50;
  temp_object := fun id => id; this_object := 51; return_object := 52; arg_object := fun _ i => Some (100 + Z.of_nat i); call_this := fun id => 200 + id;
  call_ret := fun id => 300 + id; call_lifetimes := fun id => 400 + id; result_object := fun id => 500 + id; object_type := fun _ => TPtr false (TRec 2) |}.
Definition m6 : pmap := PMap [(301, [40])] [(Leaf 21, [31]); (Leaf 22, [32; 33]); (Leaf 23, [34]); (Leaf 24, [60])].
Example C181_case :
  (exists c' sv', visit R6 20 (Call 1 (Direct 7 false) [IExpr (Leaf 21); IList 25 [IExpr (Leaf 22)]] None Plain) (m6, [], []) =
    Done (Go (PMap [(301, [40]); (100, [31]); (102, [33; 32])] [(Leaf 21, [31]); (Leaf 22, [32; 33]); (Leaf 23, [34]); (Leaf 24, [60]); (Leaf 1, [40])], c', sv'))) /\
  passes R6 101 (TRec 1) (IList 25 [IExpr (Leaf 22)]) 102 (Leaf 22) /\
  argument R6 7 false [IExpr (Leaf 21); IList 25 [IExpr (Leaf 22)]] 1 (IList 25 [IExpr (Leaf 22)]) (TRec 1) /\
  may_call R6 m6 (Indirect (Leaf 24)) 8 false /\
  (exists m' c' sv', visit R6 20 (Call 1 (Direct 8 true) [IExpr (Leaf 23); IExpr (Leaf 21)] None Plain) (m6, [], []) = Done (Go (m', c', sv')) /\
    points m' (Pointer 201) 34 /\ points m' (Pointer 101) 31) /\
  (exists m' c' sv', visit R6 20 (Construct 1 (Direct 8 false) [IExpr (Leaf 21)] (TPtr false (TRec 2))) (m6, [], []) = Done (Go (m', c', sv')) /\ points m' (Pointer 100) 31).
Proof.
  split; [do 2 eexists; vm_compute; reflexivity|]. split.
  { apply PassFields. apply (PassThis R6 101 10 (TPtr false TOther) [] (IExpr (Leaf 22)) [] 102); [reflexivity|]. apply PassPointer. exists false, TOther. auto. }
  split; [split; reflexivity|]. split.
  { split; [reflexivity|]. exists [60], 60. split; [reflexivity|]. split; [left; reflexivity|reflexivity]. }
  split.
  - do 3 eexists. split; [vm_compute; reflexivity|]. split; eexists; (split; [vm_compute; reflexivity|left; reflexivity]).
  - do 3 eexists. split; [vm_compute; reflexivity|]. eexists; (split; [vm_compute; reflexivity|left; reflexivity]).
Qed.
