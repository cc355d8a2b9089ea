From Coq Require Import List Bool Arith Lia.
From Verif.TypeNull Require Import Model Spec.
Import ListNotations.

Scheme ty_ind2 := Induction for ty Sort Prop
  with tys_ind2 := Induction for tys Sort Prop
  with quals_ind2 := Induction for quals Sort Prop.
Combined Scheme ty_mut from ty_ind2, tys_ind2, quals_ind2.

(** ** Annotations *)
Lemma bare_eq : forall t, is_pointer t && lexical t = bare t.
Proof.
  induction t; cbn [is_pointer lexical bare]; auto using andb_true_r, andb_false_r.
  destruct k; auto using andb_false_r.
Qed.

Lemma bare_forwarded_eq : forall t, is_unknown_valid_on t = bare_forwarded t.
Proof.
  induction t; cbn [is_unknown_valid_on bare_forwarded]; auto; try apply (bare_eq (TAttr _ _));
    try apply (bare_eq (TSugar _ _)); try apply (bare_eq (TSubst _ _ _)).
  - cbn. apply andb_true_r.
  - cbn. apply andb_true_r.
  - destruct transparent; auto. cbn. apply andb_false_r.
  - cbn. apply andb_false_r.
Qed.

Lemma is_first_eq : forall d t, expands_to_arg0 d t = is_first d t.
Proof.
  induction t; cbn [expands_to_arg0 is_first]; auto. rewrite (Nat.eqb_sym d0 d).
  destruct (Nat.eqb d d0); cbn; [destruct (Nat.eqb i 0)|]; cbn; auto.
Qed.

Lemma effective_attr : forall k t, effective k (Some t) = counted k (bare_forwarded t).
Proof. intros [[]|] t; cbn; auto. rewrite bare_forwarded_eq. reflexivity. Qed.

Lemma effective_alias : forall k d args body,
  effective k (unwrap_alias d args body) = counted k (alias_direct d args body).
Proof.
  intros [[]|] d args body; cbn; auto. destruct args as [|a args]; cbn; auto.
  rewrite is_first_eq. destruct (is_first d body); cbn; auto. rewrite bare_forwarded_eq. reflexivity.
Qed.

(** ** Contexts *)
Fixpoint findnode (d : nat) (c : tctx) : option (option tys * nat * tctx) :=
  match c with
  | CNil => None
  | CNode d' a f ext ac => if Nat.eqb d d' then Some (a, f, ac) else findnode d ext
  end.

Fixpoint cscope (c : tctx) : scope :=
  match c with CNil => [] | CNode d a _ ext _ => (d, option_map count a) :: cscope ext end.

Definition dom (c : tctx) : list nat := map fst (cscope c).

Fixpoint cenv (c : tctx) : env :=
  match c with
  | CNil => []
  | CNode d a f ext ac => (d, option_map (meanings (cenv ac) f) a) :: cenv ext
  end.

Lemma arity_none : forall sc d, arity sc d = None <-> ~ In d (map fst sc).
Proof.
  induction sc as [|[d' n] sc IH]; cbn; intros d; [tauto|].
  destruct (Nat.eqb_spec d d') as [->|N].
  - split; [discriminate|]. intros H. exfalso. auto.
  - rewrite IH. intuition congruence.
Qed.

Lemma findnode_dom : forall c d, findnode d c = None <-> ~ In d (dom c).
Proof.
  induction c; cbn; intros d'; [tauto|].
  destruct (Nat.eqb_spec d' d) as [->|N].
  - split; [discriminate|]. intros H. exfalso. auto.
  - rewrite IHc1. unfold dom. intuition congruence.
Qed.

Lemma arity_find : forall c d, arity (cscope c) d =
  match findnode d c with Some (a, _, _) => Some (option_map count a) | None => None end.
Proof. induction c; cbn; intros d'; auto. destruct (Nat.eqb d' d); auto. Qed.

Lemma lookup_cenv : forall c d, lookup (cenv c) d =
  match findnode d c with Some (Some l, f, ac) => Some (meanings (cenv ac) f l) | _ => None end.
Proof. induction c; cbn; intros d'; auto. destruct (Nat.eqb d' d); auto; try (destruct args; auto). Qed.

Lemma lookup_rec_find : forall c d, lookup_rec c d =
  match findnode d c with Some (Some l, f, ac) => Some (l, f, ac) | _ => None end.
Proof. induction c; cbn; intros d'; auto. destruct (Nat.eqb d' d); auto. Qed.

Lemma lookup_subst_none : forall c d i, findnode d c = None -> lookup_subst c d i = None.
Proof. induction c; cbn; intros d' i H; auto. destruct (Nat.eqb d' d); [discriminate|auto]. Qed.

Lemma lookup_subst_unknown : forall c d i f ac, findnode d c = Some (None, f, ac) -> lookup_subst c d i = None.
Proof. induction c; cbn; intros d' i f ac H; auto. destruct (Nat.eqb d' d); eauto. injection H as -> _ _. reflexivity. Qed.

Lemma lookup_subst_some : forall c d i l f ac a, findnode d c = Some (Some l, f, ac) ->
  nth_error (to_list l) i = Some a -> lookup_subst c d i = Some (a, f).
Proof.
  induction c; cbn; intros d' i l f ac a H N; [discriminate|].
  destruct (Nat.eqb d' d); eauto. injection H as -> -> ->. rewrite N. reflexivity.
Qed.

Lemma length_to_list : forall l, length (to_list l) = count l.
Proof. induction l; cbn; auto. Qed.

Lemma meanings_map : forall e f ts, meanings e f ts = map (meaning e f) (to_list ts).
Proof. induction ts; cbn; congruence. Qed.

(** *** Pushing qualifiers *)
Lemma cscope_bind : forall q c f, cscope (bind_quals c f q) = scope_of q ++ cscope c.
Proof. induction q; cbn; intros; auto. rewrite IHq. destruct known; reflexivity. Qed.

Lemma cenv_bind : forall q c f, cenv (bind_quals c f q) = bind (cenv c) f q ++ cenv c.
Proof. induction q; cbn; intros; auto. rewrite IHq. destruct known; reflexivity. Qed.

Lemma dom_scope_of : forall q, map fst (scope_of q) = decls q.
Proof. induction q; cbn; congruence. Qed.

Lemma dom_bind : forall q c f, dom (bind_quals c f q) = decls q ++ dom c.
Proof. intros. unfold dom. rewrite cscope_bind, map_app, dom_scope_of. reflexivity. Qed.

Lemma find_bind_out : forall q c f d, ~ In d (decls q) -> findnode d (bind_quals c f q) = findnode d c.
Proof.
  induction q; cbn; intros c f d' N; auto. destruct (Nat.eqb_spec d' d) as [->|]; [tauto|]. apply IHq. tauto.
Qed.

Section Rel.
Variable outside : nat -> bool.

(** No node of the context is for a template outside. *)
Fixpoint inside (c : tctx) : Prop :=
  match c with CNil => True | CNode d _ _ ext ac => outside d = false /\ inside ext /\ inside ac end.

Lemma inside_find : forall c d, inside c -> outside d = true -> findnode d c = None.
Proof.
  induction c; cbn; intros d' I O; auto. destruct (Nat.eqb_spec d' d) as [->|].
  - destruct I. congruence.
  - apply IHc1; tauto.
Qed.

Lemma inside_arg : forall c, inside c -> inside (arg_context c).
Proof. destruct c; cbn; tauto. Qed.

Lemma inside_node : forall c d a f ac, inside c -> findnode d c = Some (a, f, ac) -> inside ac.
Proof.
  induction c; cbn; intros d' a f ac I E; [discriminate|]. destruct (Nat.eqb d' d).
  - injection E as -> -> ->. tauto.
  - eapply IHc1; eauto. tauto.
Qed.

Lemma inside_bind : forall q c f, inside c -> (forall d, In d (decls q) -> outside d = false) -> inside (bind_quals c f q).
Proof.
  induction q; cbn; intros c f I H; auto. split; [apply H; auto|]. split; [|auto].
  apply IHq; auto.
Qed.

(** The context in which the sugar really lives. *)
Fixpoint ideal (E : tctx) : Prop :=
  match E with
  | CNil => True
  | CNode d a f ext ac =>
      ~ In d (dom ext) /\ (forall l, a = Some l -> tidys outside (cscope ac) l) /\
      incl (dom ac) (dom ext) /\ ideal ext /\ ideal ac
  end.

(** The walker's context [c] can stand for the ideal context [E]. *)
Fixpoint R (c E : tctx) {struct E} : Prop :=
  match E with
  | CNil => True
  | CNode d a f ext ac =>
      (exists ac', findnode d c = Some (a, f, ac') /\ R ac' ac) /\
      R (arg_context c) ac /\
      (forall d', In d' (dom ac) -> findnode d' c = findnode d' (arg_context c)) /\
      R c ext
  end.

(** A context that adds nodes that do not matter, and goes on with [x] for
    arguments, can stand for what [x] can stand for. *)
Lemma R_lag : forall E c x, ideal E -> R x E -> arg_context c = x ->
  (forall d, In d (dom E) -> findnode d c = findnode d x) -> R c E.
Proof.
  induction E as [|d a f ext IHext ac IHac]; cbn [R ideal]; intros c x ID RE AC F; auto.
  destruct ID as [ND [T [INC [I1 I2]]]]. destruct RE as [[ac' [FN RN]] [RA [FA RX]]].
  assert (FX : forall d', In d' (dom ext) -> findnode d' c = findnode d' x).
  { intros d' Hd. apply F. right. exact Hd. }
  split; [|split; [|split]].
  - exists ac'. split; auto. rewrite F; auto. left. reflexivity.
  - rewrite AC. apply (IHac x (arg_context x)); auto.
  - intros d' Hd. rewrite AC. apply FX, INC, Hd.
  - apply (IHext c x); auto.
Qed.

Lemma ideal_bind : forall q E f, ideal E -> tidyq outside (cscope E) q ->
  NoDup (decls q) -> (forall d, In d (decls q) -> ~ In d (dom E)) -> ideal (bind_quals E f q).
Proof.
  induction q as [|d known args q IH]; cbn [bind_quals decls tidyq ideal]; intros E f ID T ND DJ; auto.
  inversion ND as [|? ? N1 N2]; subst. destruct T as [T1 T2].
  rewrite dom_bind. split; [|split; [|split; [|split]]].
  - intros X. apply in_app_or in X. destruct X as [X|X]; auto. eapply DJ; eauto. left. reflexivity.
  - intros l El. destruct known; [|discriminate]. injection El as <-. exact T1.
  - intros x X. apply in_or_app. auto.
  - apply IH; auto. intros x X. apply DJ. right. exact X.
  - exact ID.
Qed.

(** [c1] is [bind_quals c f q] seen from a suffix of [q] on. *)
Lemma R_bind_left : forall q c E f, ideal E -> R c E -> (forall d, In d (decls q) -> ~ In d (dom E)) ->
  R (bind_quals c f q) E.
Proof.
  intros [|d known args q] c E f ID RE DJ; cbn [bind_quals]; auto.
  apply (R_lag E _ c); auto.
  intros d' Hd. cbn [findnode]. destruct (Nat.eqb_spec d' d) as [->|N].
  - exfalso. apply (DJ d); auto. left. reflexivity.
  - apply find_bind_out. intros X. apply (DJ d'); auto. right. exact X.
Qed.

(** Both contexts extended by the same node. *)
Lemma R_bind_ext : forall q0 q c E f,
  ideal (bind_quals E f q0) -> ideal E -> R c E ->
  NoDup (decls q) -> (forall d, In d (decls q) -> ~ In d (dom E)) ->
  (exists pre, decls q = pre ++ decls q0 /\
     forall d, ~ In d pre -> findnode d (bind_quals c f q) = findnode d (bind_quals c f q0)) ->
  q <> QNil ->
  R (bind_quals c f q) (bind_quals E f q0).
Proof.
  induction q0 as [|d known args q0 IH]; intros q c E f ID IE RE ND DJ [pre [EP EF]] NQ.
  - cbn [bind_quals] in *. apply R_bind_left; auto.
  - cbn [bind_quals R]. cbn [bind_quals ideal] in ID. destruct ID as [NI [T [INC [I1 I2]]]].
    cbn [decls] in EP.
    assert (NP : ~ In d pre).
    { rewrite EP in ND. apply NoDup_remove_2 in ND. intros X. apply ND. apply in_or_app. auto. }
    assert (AC : arg_context (bind_quals c f q) = c) by (destruct q; [congruence|reflexivity]).
    split; [|split; [|split]].
    + exists c. split; auto. rewrite EF by exact NP. cbn. rewrite Nat.eqb_refl. reflexivity.
    + rewrite AC. exact RE.
    + intros d' Hd. rewrite AC. apply find_bind_out. intros X. apply (DJ d' X Hd).
    + apply (IH q c E f); auto. exists (pre ++ [d]). rewrite <- app_assoc. split; auto.
      intros d' N. rewrite EF.
      * cbn. destruct (Nat.eqb_spec d' d) as [->|]; auto. exfalso. apply N. apply in_or_app. cbn. auto.
      * intros X. apply N. apply in_or_app. auto.
Qed.

Lemma R_bind : forall q c E f, ideal E -> R c E -> tidyq outside (cscope E) q ->
  NoDup (decls q) -> (forall d, In d (decls q) -> ~ In d (dom E)) ->
  R (bind_quals c f q) (bind_quals E f q).
Proof.
  intros q c E f ID RE T ND DJ.
  assert (C : q = QNil \/ q <> QNil) by (destruct q; [left|right]; congruence).
  destruct C as [->|NQ]; auto.
  apply R_bind_ext; auto.
  - apply ideal_bind; auto.
  - exists []. split; auto.
Qed.

(** The node of an alias. *)
Lemma R_node : forall d a f c1 E E1, ideal E -> ideal E1 -> R c1 E -> R c1 E1 ->
  ~ In d (dom E) -> ~ In d (dom E1) -> R (CNode d a f c1 c1) (CNode d a f E1 E).
Proof.
  intros d a f c1 E E1 I0 I1 R0 R1 N0 N1. cbn [R arg_context findnode].
  rewrite Nat.eqb_refl. split; [|split; [|split]].
  - exists c1. auto.
  - exact R0.
  - intros d' Hd. destruct (Nat.eqb_spec d' d) as [->|]; auto. contradiction.
  - apply (R_lag E1 _ c1); auto. intros d' Hd. cbn.
    destruct (Nat.eqb_spec d' d) as [->|]; auto. contradiction.
Qed.

(** What the relation gives for a visible template. *)
Lemma R_find : forall E c d a f ac, ideal E -> R c E -> findnode d E = Some (a, f, ac) ->
  exists ac', findnode d c = Some (a, f, ac') /\ R ac' ac /\ R (arg_context c) ac /\ ideal ac /\
    (forall l, a = Some l -> tidys outside (cscope ac) l).
Proof.
  induction E as [|d0 a0 f0 ext IHext ac0 _]; cbn [R ideal findnode]; intros c d a f ac ID RE FN; [discriminate|].
  destruct ID as [ND [T [INC [I1 I2]]]]. destruct RE as [[ac' [F' RN]] [RA [FA RX]]].
  destruct (Nat.eqb_spec d d0) as [->|N].
  - injection FN as -> -> ->. exists ac'. auto.
  - eapply IHext; eauto.
Qed.

End Rel.

(** ** The cost of walking a type *)
Notation cost_env := (list (nat * option (list nat))).
Fixpoint lookup_cost (e : cost_env) (d : nat) : option (list nat) :=
  match e with [] => None | (d', v) :: e => if Nat.eqb d d' then v else lookup_cost e d end.

Fixpoint cost (e : cost_env) (t : ty) : nat :=
  match t with
  | TBase => 1
  | TPtr t | TRef t | TArr t | TAttr _ t | TParen t => S (cost e t)
  | TFun r ps => S (cost e r + list_sum (costs e ps))
  | TRec d smart encl q isT dargs =>
      let e := bind_cost e q ++ e in
      S (list_sum (costs e encl) + list_sum (costs e dargs) +
         match lookup_cost e d with Some l => list_sum l | None => 0 end)
  | TTst d smart encl q args dflt =>
      let e := bind_cost e q ++ e in
      S (list_sum (costs e encl) + list_sum (costs e args) + list_sum (costs e dflt))
  | TAlias d ann tr file q args body => S (cost ((d, Some (costs e args)) :: bind_cost e q ++ e) body)
  | TTypedef file q body => S (cost (bind_cost e q ++ e) body)
  | TSugar q t => S (cost (bind_cost e q ++ e) t)
  | TSubst d i r =>
      S (match lookup_cost e d with
         | Some l => match nth_error l i with Some n => n | None => cost e r end
         | None => cost e r
         end)
  end
with costs (e : cost_env) (ts : tys) : list nat :=
  match ts with TNil => [] | TCons t ts => cost e t :: costs e ts end
with bind_cost (e : cost_env) (q : quals) : cost_env :=
  match q with
  | QNil => []
  | QCons d known args q => (d, if known then Some (costs e args) else None) :: bind_cost e q
  end.

Fixpoint ccost (c : tctx) : cost_env :=
  match c with
  | CNil => []
  | CNode d a f ext ac => (d, option_map (costs (ccost ac)) a) :: ccost ext
  end.

Lemma ccost_bind : forall q c f, ccost (bind_quals c f q) = bind_cost (ccost c) q ++ ccost c.
Proof. induction q; cbn; intros; auto. rewrite IHq. destruct known; reflexivity. Qed.

Lemma lookup_ccost : forall c d, lookup_cost (ccost c) d =
  match findnode d c with Some (Some l, f, ac) => Some (costs (ccost ac) l) | _ => None end.
Proof. induction c; cbn; intros d'; auto. destruct (Nat.eqb d' d); auto; try (destruct args; auto). Qed.

Lemma costs_map : forall e ts, costs e ts = map (cost e) (to_list ts).
Proof. induction ts; cbn; congruence. Qed.

Lemma in_sum : forall n l, In n l -> n <= list_sum l.
Proof.
  induction l as [|a l IHl]; intros H; [contradiction|].
  change (list_sum (a :: l)) with (a + list_sum l). destruct H as [->|H]; try lia. specialize (IHl H). lia.
Qed.

Lemma in_costs : forall e ts t, In t (to_list ts) -> cost e t <= list_sum (costs e ts).
Proof. intros. apply in_sum. rewrite costs_map. apply in_map. auto. Qed.

Lemma tidys_in : forall o sc ts t, tidys o sc ts -> In t (to_list ts) -> tidy o sc t.
Proof. induction ts; cbn; intros t' T I; [contradiction|]. destruct I as [<-|I]; [tauto|]. apply IHts; tauto. Qed.

(** ** The walk *)
Definition emitted (s s' : st) (T : tree) : Prop :=
  out s' = out s ++ pointers (annotate (pend s) T) /\ pend s' = None /\ fatal s' = fatal s.

Lemma annotate_twice : forall p k T, annotate (Some p) (annotate k T) = annotate (Some p) T.
Proof. intros p [k|] [[[x f]|] ks]; reflexivity. Qed.

Lemma emitted_saw : forall k s s' T, emitted (saw_opt k s) s' T -> emitted s s' (annotate k T).
Proof.
  intros [k|] s s' T; cbn [saw_opt annotate]; auto. unfold emitted, saw. cbn [out pend fatal].
  intros [A [B C]]. split; auto. rewrite A. f_equal. f_equal.
  destruct (pend s) as [p|], T as [[[x f]|] ks]; reflexivity.
Qed.

Definition walks (n : nat) (c : tctx) (f : nat) (ts : list ty) (s : st) : option st :=
  fold_left (fun o t => match o with Some s => walk n c f t s | None => None end) ts (Some s).

Lemma walks_ok : forall n c f g ts s, pend s = None ->
  (forall t, In t ts -> forall s, exists s', walk n c f t s = Some s' /\ emitted s s' (g t)) ->
  exists s', walks n c f ts s = Some s' /\ out s' = out s ++ flat_map pointers (map g ts) /\
    pend s' = None /\ fatal s' = fatal s.
Proof.
  unfold walks. induction ts as [|t ts IH]; cbn [fold_left map flat_map]; intros s P H.
  - exists s. rewrite app_nil_r. auto.
  - destruct (H t (or_introl eq_refl) s) as [s1 [E1 [A1 [B1 C1]]]]. rewrite E1. rewrite P in A1.
    destruct (IH s1 B1) as [s' [E [A [B C]]]].
    { intros t' I. apply H. right. exact I. }
    exists s'. split; auto. rewrite A, A1. cbn [annotate]. rewrite <- app_assoc. split; auto. split; congruence.
Qed.

Lemma skipn_map : forall (A B : Type) (g : A -> B) n l, skipn n (map g l) = map g (skipn n l).
Proof. induction n; destruct l; cbn; auto. Qed.

Lemma in_skipn : forall (A : Type) (x : A) n l, In x (skipn n l) -> In x l.
Proof. induction n; destruct l; cbn; auto. Qed.

Lemma report_like : forall (smart : bool) f s, exists s1,
  (if smart then report f s else ignore s) = s1 /\ pend s1 = None /\ fatal s1 = fatal s /\
  forall ks, out s ++ pointers (annotate (pend s) (Tr (if smart then Some (None, f) else None) ks))
             = out s1 ++ flat_map pointers ks.
Proof.
  intros smart f s. eexists. split; [reflexivity|].
  destruct smart; cbn [pend fatal out report ignore]; (split; [reflexivity|]; split; [reflexivity|]); intros ks.
  - destruct (pend s) as [k|]; cbn; rewrite <- app_assoc; reflexivity.
  - destruct (pend s) as [k|]; cbn; reflexivity.
Qed.

Theorem walk_meaning : forall outside n c E f t, ideal outside E -> R c E -> inside outside c ->
  tidy outside (cscope E) t -> cost (ccost E) t <= n ->
  forall s, exists s', walk n c f t s = Some s' /\ emitted s s' (meaning (cenv E) f t).
Proof.
  intros outside n. induction n as [|n IH]; intros c E f t ID RE IN TD CO s.
  { destruct t; cbn in CO; lia. }
  assert (LIST : forall c E f ts s, ideal outside E -> R c E -> inside outside c ->
     (forall t, In t ts -> tidy outside (cscope E) t /\ cost (ccost E) t <= n) -> pend s = None ->
     exists s', walks n c f ts s = Some s' /\ out s' = out s ++ flat_map pointers (map (meaning (cenv E) f) ts) /\
       pend s' = None /\ fatal s' = fatal s).
  { intros c0 E0 f0 ts s0 ID0 R0 IN0 H P. apply walks_ok; auto.
    intros t0 I0 s1. destruct (H t0 I0). apply IH; auto. }
  assert (PUSH : forall q, fresh outside (cscope E) (decls q) -> tidyq outside (cscope E) q ->
     ideal outside (bind_quals E f q) /\ R (bind_quals c f q) (bind_quals E f q) /\ inside outside (bind_quals c f q) /\
     R (bind_quals c f q) E /\ (forall d, In d (decls q) -> ~ In d (dom E))).
  { intros q [ND FR] T.
    assert (DJ : forall d, In d (decls q) -> ~ In d (dom E)).
    { intros d I. apply (arity_none (cscope E)). apply FR. exact I. }
    split; [apply ideal_bind; auto|]. split; [eapply R_bind; eauto|].
    split; [apply inside_bind; auto; intros d I; apply FR, I|].
    split; [eapply R_bind_left; eauto|exact DJ]. }
  assert (EMIT : forall s s1 s' ks slot,
     out s ++ pointers (annotate (pend s) (Tr slot ks)) = out s1 ++ flat_map pointers ks ->
     fatal s1 = fatal s ->
     out s' = out s1 ++ flat_map pointers ks -> pend s' = None -> fatal s' = fatal s1 ->
     emitted s s' (Tr slot ks)).
  { intros. unfold emitted. split; [congruence|]. split; congruence. }
  destruct t; cbn [walk meaning]; rewrite <- ?effective_attr, <- ?effective_alias; cbn [tidy] in TD; cbn [cost] in CO; fold walks.
  - (* TBase *)
    exists (ignore s). split; auto. unfold emitted. destruct (pend s); cbn; rewrite app_nil_r; auto.
  - (* TPtr *)
    destruct (IH c E f t ID RE IN TD ltac:(lia) (report f s)) as [s' [W [A [B C]]]].
    exists s'. split; auto. split; [|auto]. rewrite A. cbn [report out pend annotate].
    destruct (pend s); cbn; rewrite app_nil_r, <- app_assoc; reflexivity.
  - destruct (IH c E f t ID RE IN TD ltac:(lia) (ignore s)) as [s' [W [A [B C]]]].
    exists s'. split; auto. split; [|auto]. rewrite A. cbn [ignore out pend annotate].
    destruct (pend s); cbn; rewrite app_nil_r; reflexivity.
  - destruct (IH c E f t ID RE IN TD ltac:(lia) (ignore s)) as [s' [W [A [B C]]]].
    exists s'. split; auto. split; [|auto]. rewrite A. cbn [ignore out pend annotate].
    destruct (pend s); cbn; rewrite app_nil_r; reflexivity.
  - (* TFun *)
    destruct TD as [T1 T2].
    destruct (LIST c E f (t :: to_list params) (ignore s) ID RE IN) as [s' [W [A [B C]]]]; auto.
    { intros t0 [<-|I0]; [split; auto; lia|]. split; [eapply tidys_in; eauto|].
      pose proof (in_costs (ccost E) params t0 I0). lia. }
    exists s'. split; [exact W|]. rewrite meanings_map.
    apply (EMIT s (ignore s) s'); auto. destruct (pend s); reflexivity.
  - (* TRec *)
    destruct TD as [FR [TQ [TE TI]]]. destruct (PUSH q FR TQ) as [ID1 [R1 [IN1 _]]].
    destruct (report_like smart f s) as [s1 [-> [P1 [F1 O1]]]].
    set (c1 := bind_quals c f q) in *. set (E1 := bind_quals E f q) in *.
    assert (EE : cenv E1 = bind (cenv E) f q ++ cenv E) by apply cenv_bind.
    assert (SE : cscope E1 = scope_of q ++ cscope E) by apply cscope_bind.
    assert (CE : ccost E1 = bind_cost (ccost E) q ++ ccost E) by apply ccost_bind.
    rewrite <- SE in TE, TI. rewrite <- EE. rewrite <- CE in CO.
    destruct (LIST c1 E1 f (to_list encl) s1 ID1 R1 IN1) as [s2 [W2 [A2 [B2 C2]]]]; auto.
    { intros t0 I0. split; [eapply tidys_in; eauto|].
      pose proof (in_costs (ccost E1) encl t0 I0). lia. }
    unfold walks in W2. rewrite W2.
    assert (EQ : out s2 = out s1 ++ flat_map pointers (meanings (cenv E1) f encl))
      by (rewrite meanings_map; exact A2).
    destruct isT.
    2: { exists s2. split; auto. rewrite app_nil_r. apply (EMIT s s1 s2); auto. }
    destruct (TI eq_refl) as [TDA TIN].
    assert (DARGS : forall t0, In t0 (to_list dargs) -> tidy outside (cscope E1) t0 /\ cost (ccost E1) t0 <= n).
    { intros t0 I0. split; [eapply tidys_in; eauto|]. pose proof (in_costs (ccost E1) dargs t0 I0). lia. }
    rewrite lookup_rec_find. rewrite lookup_cenv. rewrite lookup_ccost in CO. rewrite arity_find in TIN.
    destruct (findnode d E1) as [[[a fa] ac]|] eqn:FE.
    + destruct (R_find outside E1 c1 d a fa ac ID1 R1 FE) as [ac' [FC [RA [_ [IDA TA]]]]].
      rewrite FC. destruct a as [l|].
      * destruct (LIST ac' ac fa (to_list l) s2 IDA RA) as [s3 [W3 [A3 [B3 C3]]]]; auto.
        { eapply inside_node; eauto. }
        { intros t0 I0. split; [eapply tidys_in; eauto|].
          pose proof (in_costs (ccost ac) l t0 I0). lia. }
        unfold walks in W3. rewrite W3.
        destruct (LIST c1 E1 f (drop (length (to_list l)) (to_list dargs)) s3 ID1 R1 IN1) as [s4 [W4 [A4 [B4 C4]]]]; auto.
        { intros t0 I0. apply DARGS. unfold drop in I0. eapply in_skipn; eauto. }
        exists s4. split; [exact W4|]. apply (EMIT s s1 s4); auto; try congruence.
        rewrite A4, A3, EQ. rewrite !flat_map_app, <- !app_assoc. f_equal. f_equal.
        rewrite (meanings_map (cenv ac)). f_equal. rewrite map_length. rewrite (meanings_map (cenv E1) f dargs).
        rewrite skipn_map. reflexivity.
      * destruct (LIST c1 E1 f (to_list dargs) s2 ID1 R1 IN1) as [s4 [W4 [A4 [B4 C4]]]]; auto.
        exists s4. split; [exact W4|]. apply (EMIT s s1 s4); auto; try congruence.
        rewrite A4, EQ, flat_map_app, <- app_assoc, (meanings_map (cenv E1) f dargs). reflexivity.
    + rewrite (inside_find outside c1 d IN1 TIN).
      destruct (LIST c1 E1 f (to_list dargs) s2 ID1 R1 IN1) as [s4 [W4 [A4 [B4 C4]]]]; auto.
      exists s4. split; [exact W4|]. apply (EMIT s s1 s4); auto; try congruence.
      rewrite A4, EQ, flat_map_app, <- app_assoc, (meanings_map (cenv E1) f dargs). reflexivity.
  - (* TTst *)
    destruct TD as [FR [TQ [TE [TA TF]]]]. destruct (PUSH q FR TQ) as [ID1 [R1 [IN1 _]]].
    destruct (report_like smart f s) as [s1 [-> [P1 [F1 O1]]]].
    set (c1 := bind_quals c f q) in *. set (E1 := bind_quals E f q) in *.
    assert (EE : cenv E1 = bind (cenv E) f q ++ cenv E) by apply cenv_bind.
    assert (SE : cscope E1 = scope_of q ++ cscope E) by apply cscope_bind.
    assert (CE : ccost E1 = bind_cost (ccost E) q ++ ccost E) by apply ccost_bind.
    rewrite <- SE in TE, TA, TF. rewrite <- EE. rewrite <- CE in CO.
    destruct (LIST c1 E1 f (to_list encl ++ to_list args ++ to_list dflt) s1 ID1 R1 IN1) as [s2 [W2 [A2 [B2 C2]]]]; auto.
    { intros t0 I0. apply in_app_or in I0. destruct I0 as [I0|I0]; [|apply in_app_or in I0; destruct I0 as [I0|I0]].
      - split; [apply (tidys_in _ _ encl); auto|]. pose proof (in_costs (ccost E1) encl t0 I0). lia.
      - split; [apply (tidys_in _ _ args); auto|]. pose proof (in_costs (ccost E1) args t0 I0). lia.
      - split; [apply (tidys_in _ _ dflt); auto|]. pose proof (in_costs (ccost E1) dflt t0 I0). lia. }
    exists s2. split; [exact W2|]. apply (EMIT s s1 s2); auto.
    rewrite A2, !map_app, !meanings_map. reflexivity.
  - (* TAlias *)
    destruct TD as [[ND FR] [TQ [TA TB]]].
    cbn [decls] in ND. inversion ND as [|? ? N1 N2]; subst.
    destruct (PUSH q) as [ID1 [R1 [IN1 [R0 DJ]]]].
    { split; auto. intros x X. apply FR. right. exact X. }
    { exact TQ. }
    destruct (FR d (or_introl eq_refl)) as [AN OD]. apply arity_none in AN.
    set (c1 := bind_quals c f q) in *. set (E1 := bind_quals E f q) in *.
    assert (ND1 : ~ In d (dom E1)).
    { unfold E1. rewrite dom_bind. intros X. apply in_app_or in X. destruct X; [auto|]. apply AN. assumption. }
    destruct (IH (CNode d (Some args) f c1 c1) (CNode d (Some args) f E1 E) (if transparent then f else file) t)
      with (s := saw_opt (effective ann (unwrap_alias d args t)) s) as [s' [W EM]].
    + cbn [ideal]. split; [exact ND1|]. split.
      { intros l El. injection El as <-. exact TA. }
      split; [|split; auto]. unfold E1. rewrite dom_bind. intros x X. apply in_or_app. auto.
    + apply (R_node outside d (Some args) f c1 E E1); auto.
    + cbn [inside]. auto.
    + cbn [cscope option_map]. unfold E1. rewrite cscope_bind. exact TB.
    + cbn [ccost option_map]. unfold E1. rewrite ccost_bind. lia.
    + exists s'. split; [exact W|]. apply emitted_saw.
      cbn [cenv option_map] in EM. unfold E1 in EM. rewrite cenv_bind in EM. exact EM.
  - (* TTypedef *)
    destruct TD as [FR [TQ T]]. destruct (PUSH q FR TQ) as [ID1 [R1 [IN1 _]]].
    rewrite <- cenv_bind. apply IH; auto.
    + rewrite cscope_bind. exact T.
    + rewrite ccost_bind. lia.
  - (* TAttr *)
    destruct (IH c E f t ID RE IN TD ltac:(lia) (saw_opt (effective k (Some t)) s)) as [s' [W EM]].
    rewrite W. apply emitted_saw in EM. destruct EM as [A [B C]].
    eexists. split; [reflexivity|]. unfold emitted. cbn [out pend fatal]. rewrite B, orb_false_r. auto.
  - (* TParen *) apply IH; auto. lia.
  - (* TSugar *)
    destruct TD as [FR [TQ T]]. destruct (PUSH q FR TQ) as [ID1 [R1 [IN1 _]]].
    rewrite <- cenv_bind. apply IH; auto.
    + rewrite cscope_bind. exact T.
    + rewrite ccost_bind. lia.
  - (* TSubst *)
    rewrite lookup_cenv. rewrite lookup_ccost in CO. rewrite arity_find in TD.
    destruct (findnode d E) as [[[a fa] ac]|] eqn:FE.
    + destruct (R_find outside E c d a fa ac ID RE FE) as [ac' [FC [_ [RA [IDA TA]]]]].
      destruct a as [l|]; cbn [option_map] in TD.
      * destruct (nth_error (to_list l) i) as [a|] eqn:NE.
        2: { apply nth_error_None in NE. rewrite length_to_list in NE. lia. }
        rewrite (lookup_subst_some c d i l fa ac' a FC NE).
        rewrite meanings_map, (map_nth_error (meaning (cenv ac) fa) i (to_list l) NE).
        rewrite costs_map, (map_nth_error (cost (ccost ac)) i (to_list l) NE) in CO.
        apply IH; auto.
        -- apply inside_arg, IN.
        -- eapply tidys_in; eauto. eapply nth_error_In; eauto.
        -- lia.
      * rewrite (lookup_subst_unknown c d i fa ac' FC). apply IH; auto. lia.
    + destruct TD as [TO TR]. rewrite (lookup_subst_none c d i (inside_find outside c d IN TO)).
      apply IH; auto. lia.
Qed.
