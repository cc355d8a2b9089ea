(** * Proofs about whole calls. *)
From Coq Require Import List Arith Bool Lia.
From Verif.CppCall Require Import Model Spec Proofs Proofs2.
Import ListNotations.

Lemma destroy_all_ok : forall l w, NoDup l ->
  (forall a, In a l -> (exists v, objs w a = Some (Obj v)) \/ objs w a = Some MovedFrom) ->
  exists w', destroy_all w l = Some w' /\ log w' = log w /\ nxt w' = nxt w /\
    (forall a, In a l -> objs w' a = None) /\ (forall a, ~ In a l -> objs w' a = objs w a).
Proof.
  induction l as [|x l IH]; intros w Nd H; cbn [destroy_all].
  - exists w. repeat split; auto. contradiction.
  - inversion Nd as [|? ? Nx Nd']; subst.
    assert (D : destroy w x = Some (set w x None)).
    { unfold destroy. destruct (H x (or_introl eq_refl)) as [(v & ->)| ->]; reflexivity. }
    rewrite D.
    destruct (IH (set w x None) Nd') as (w' & E & L & N & I & O).
    { intros a Ha. unfold set. cbn [objs]. destruct (Nat.eqb_spec a x) as [->|]; [contradiction|].
      apply H. right. exact Ha. }
    exists w'. split; [exact E|]. split; [exact L|]. split; [exact N|]. split.
    + intros a [<-|Ha]; [|auto]. rewrite (O _ Nx). unfold set. cbn [objs]. rewrite Nat.eqb_refl. reflexivity.
    + intros a Ha. rewrite O by (intros K; apply Ha; right; exact K).
      unfold set. cbn [objs]. destruct (Nat.eqb_spec a x) as [->|]; [exfalso; apply Ha; left; reflexivity|reflexivity].
Qed.

Lemma after_other : forall sl o b, ~ In b (map fst sl) -> after sl o b = o b.
Proof.
  induction sl as [|[a c] sl IH]; intros o b H; [reflexivity|]. cbn [after].
  assert (b <> a) by (intros ->; apply H; left; reflexivity).
  destruct (Nat.eqb_spec b a); [contradiction|].
  destruct c; apply IH; intros K; apply H; right; exact K.
Qed.

Lemma after_drops : forall sl o b, NoDup (map fst sl) -> (forall a, ~ In (a, MovedFrom) sl) -> In b (drops_of sl) ->
  after sl o b = Some MovedFrom.
Proof.
  induction sl as [|[a c] sl IH]; intros o b Nd Nm H; [destruct H|].
  cbn [map fst] in Nd. inversion Nd as [|? ? Na Nd']; subst.
  assert (Hin : forall x, In x (drops_of sl) -> In x (map fst sl)).
  { intros x K. unfold drops_of in K. apply in_map_iff in K. destruct K as (p & <- & K).
    apply filter_In in K. apply in_map. tauto. }
  assert (Nm' : forall a0, ~ In (a0, MovedFrom) sl) by (intros a0 K; exact (Nm a0 (or_intror K))).
  unfold drops_of in H. cbn [filter snd] in H. cbn [after].
  destruct c as [v| |v].
  - cbn [map fst In] in H. destruct H as [<-|H]; [rewrite Nat.eqb_refl; reflexivity|].
    destruct (Nat.eqb_spec b a); [reflexivity|]. apply IH; auto.
  - exfalso. exact (Nm a (or_introl eq_refl)).
  - destruct (Nat.eqb_spec b a) as [->|]; [|apply IH; auto].
    exfalso. apply Na. apply Hin. exact H.
Qed.

Lemma after_rest : forall sl o b, (forall a, ~ In (a, MovedFrom) sl) -> In b (map fst sl) -> NoDup (map fst sl) ->
  ~ In b (drops_of sl) -> after sl o b = None.
Proof.
  induction sl as [|[a c] sl IH]; intros o b Nm H Nd D; [destruct H|].
  cbn [map fst] in Nd, H. inversion Nd as [|? ? Na Nd']; subst.
  assert (Nm' : forall a0, ~ In (a0, MovedFrom) sl) by (intros a0 K; exact (Nm a0 (or_intror K))).
  unfold drops_of in D. cbn [filter snd] in D. cbn [after].
  destruct c as [v| |v].
  - cbn [map fst In] in D. destruct (Nat.eqb_spec b a) as [->|]; [exfalso; apply D; left; reflexivity|].
    destruct H as [H|H]; [congruence|]. apply IH; auto.
  - exfalso. exact (Nm a (or_introl eq_refl)).
  - destruct (Nat.eqb_spec b a) as [->|]; [reflexivity|].
    destruct H as [H|H]; [congruence|]. apply IH; auto.
Qed.

Lemma drops_nodup : forall sl, NoDup (map fst sl) -> NoDup (drops_of sl).
Proof.
  induction sl as [|[a c] sl IH]; intros Nd; [constructor|].
  cbn [map fst] in Nd. inversion Nd as [|? ? Na Nd']; subst. unfold drops_of. cbn [filter snd].
  destruct c; try (apply IH; assumption). cbn [map fst]. constructor; [|apply IH; assumption].
  intros K. apply Na. apply in_map_iff in K. destruct K as (p & <- & K). apply filter_In in K. apply in_map. tauto.
Qed.

Section Env.
  Variable unpin movable copyable same_abi : nat -> bool.
  Notation passing := (passing_convention unpin same_abi).
  Notation compat := (is_c_abi_compatible_by_value same_abi).
  Notation prepared' := (prepared unpin same_abi).

  Lemma prepared_no_moved : forall ts xs ns sl, prepared' ts xs ns sl -> forall a, ~ In (a, MovedFrom) sl.
  Proof.
    induction 1; intros b K; cbn in K; try contradiction; try (eapply IHprepared; eassumption).
    all: destruct K as [K|K]; [discriminate|eapply IHprepared; eassumption].
  Qed.

  (** The state in which the thunk is entered. *)
  Definition ready (w0 w1 : world) (sl : list (nat * content)) : Prop :=
    NoDup (map fst sl) /\ nxt w0 <= nxt w1 /\
    (forall a c, In (a, c) sl -> nxt w0 <= a < nxt w1 /\ objs w1 a = Some c) /\
    (forall a, ~ In a (map fst sl) -> objs w1 a = objs w0 a).

  Lemma ready_fresh : forall w0 w1 sl, ready w0 w1 sl -> fresh_above w0 -> fresh_above w1.
  Proof.
    intros w0 w1 sl (Nd & N & I & O) F a Ha.
    destruct (in_dec Nat.eq_dec a (map fst sl)) as [K|K].
    - apply in_map_iff in K. destruct K as ((b & c) & Eb & K). cbn in Eb. subst b. apply I in K. lia.
    - rewrite (O _ K). apply F. lia.
  Qed.

  (** The core of a call: initialise the parameters, call, end them. *)
  Lemma core_ok : forall ps words ts xs ns sl i es w0 w1 to,
    prepared' ts xs ns sl ->
    Forall2 (fits_param same_abi) ts xs ->
    Forall (passable unpin movable) ts -> Forall (fun t => ~ awkward movable t) ts ->
    (forall j t, nth_error ts j = Some t -> nth_error ps (i + j) = Some (cc_thunk_param same_abi t)) ->
    (forall j n, nth_error ns j = Some n -> nth_error words (i + j) = Some n) ->
    arg_expressions unpin same_abi i ts = Some es ->
    ready w0 w1 sl -> fresh_above w0 ->
    exists gs w2,
      match init_all movable copyable same_abi ps words w1 ts es with
      | Some (gs, w1) =>
          match destroy_all (emit w1 (Called to gs)) (objects_of gs) with
          | Some w2 => Some w2
          | None => None
          end
      | None => None
      end = Some w2 /\
      all_arrive same_abi ts xs gs /\ log w2 = log w1 ++ [Called to gs] /\
      (forall b, objs w2 b = after sl (objs w1) b).
  Proof.
    intros ps words ts xs ns sl i es w0 w1 to P Fi Pa Aw Hp Hw Ee R Fr.
    pose proof (ready_fresh _ _ _ R Fr) as Fr1.
    destruct R as (Nd & N & I & O).
    destruct (init_all_ok unpin movable copyable same_abi ps words ts xs ns sl P Fi Pa Aw i es w1 Hp Hw Ee Nd)
      as (gs & w' & Ei & Ag & L & N' & Ndo & Io & Oo).
    { intros a c K. destruct (I _ _ K). split; [lia|assumption]. }
    destruct (destroy_all_ok (objects_of gs) (emit w' (Called to gs)) Ndo) as (w2 & Ed & L2 & N2 & I2 & O2).
    { intros a Ha. left. cbn [emit objs]. apply (proj2 (Io _ Ha)). }
    exists gs, w2. rewrite Ei, Ed. split; [reflexivity|]. split; [exact Ag|]. split.
    { rewrite L2. cbn [emit log]. rewrite L. reflexivity. }
    intros b. destruct (in_dec Nat.eq_dec b (objects_of gs)) as [K|K].
    - rewrite (I2 _ K). rewrite after_other.
      + symmetry. apply Fr1. destruct (Io _ K). lia.
      + intros K2. apply in_map_iff in K2. destruct K2 as ((a & c) & Ea & K2). cbn in Ea. subst a.
        destruct (I _ _ K2). destruct (Io _ K). lia.
    - rewrite (O2 _ K). cbn [emit objs]. apply Oo. exact K.
  Qed.

  Lemma all_awkward_tl : forall (P : cty -> Prop) t ts, Forall P (t :: ts) -> Forall P ts.
  Proof. intros P t ts H. inversion H; assumption. Qed.

  Lemma nth_params : forall ts j t, nth_error ts j = Some t ->
    nth_error (map (cc_thunk_param same_abi) ts) j = Some (cc_thunk_param same_abi t).
  Proof. intros. apply map_nth_error. assumption. Qed.

  Lemma prepared_ptr : forall k t ts xs ns sl, prepared' (CPtr k t :: ts) xs ns sl ->
    exists a xs' ns', xs = AWord a :: xs' /\ ns = a :: ns' /\ prepared' ts xs' ns' sl.
  Proof.
    intros k t ts xs ns sl P. inversion P; subst; eauto 6.
    all: exfalso; destruct k; cbn in *; intuition discriminate.
  Qed.

  Lemma perform_ok : forall f xs ns sl es call w0 w1,
    accepted unpin movable f -> f_kind f <> Constructor ->
    Forall (fun t => ~ awkward movable t) (f_params f) ->
    Forall2 (fits_param same_abi) (f_params f) xs ->
    prepared' (f_params f) xs ns sl ->
    arg_expressions unpin same_abi 0 (f_params f) = Some es -> the_call f es = Some call ->
    ready w0 w1 sl -> fresh_above w0 ->
    exists ev w2,
      perform movable copyable same_abi f (map (cc_thunk_param same_abi) (f_params f)) ns w1 call = Some (None, w2) /\
      correct_call same_abi f w0 xs ev /\ log w2 = log w1 ++ [ev] /\
      (forall b, objs w2 b = after sl (objs w1) b).
  Proof.
    intros f xs ns sl es call w0 w1 (Pa & Co & K) NC Aw Fi P Ee Ec R Fr.
    unfold the_call in Ec. destruct (f_kind f) as [|q v| |] eqn:Fk; [| |congruence|].
    - injection Ec as <-. unfold perform.
      destruct (core_ok (map (cc_thunk_param same_abi) (f_params f)) ns (f_params f) xs ns sl 0 es w0 w1 ToFree P Fi Pa Aw)
        as (gs & w2 & E & Ag & L & O); auto using nth_params.
      rewrite E. exists (Called ToFree gs), w2. split; [reflexivity|]. split; [constructor; assumption|]. auto.
    - destruct K as (k & t & ts & Ep). rewrite Ep in *.
      destruct (prepared_ptr _ _ _ _ _ _ P) as (a & xs' & ns' & -> & -> & P').
      cbn [arg_expressions] in Ee.
      destruct (arg_expression unpin same_abi 0 (CPtr k t)) as [e|]; [|discriminate].
      destruct (arg_expressions unpin same_abi 1 ts) as [es'|] eqn:Ee'; [|discriminate]. injection Ee as <-.
      injection Ec as <-.
      inversion Fi; subst.
      assert (C : exists c, (q = RQual -> c = Xvalue) /\ (q <> RQual -> c = Lvalue) /\
        eval (map (cc_thunk_param same_abi) (CPtr k t :: ts)) (a :: ns') w1
          (match q with RQual => EMove (EDeref (EVar 0)) | _ => EDeref (EVar 0) end) =
        Some (match c with Lvalue => LvObj a | Xvalue => XvObj a end, w1)).
      { destruct q; [exists Lvalue|exists Lvalue|exists Xvalue];
          (split; [congruence|]); (split; [congruence|]); reflexivity. }
      destruct C as (c & C1 & C2 & C3).
      destruct (core_ok (map (cc_thunk_param same_abi) (CPtr k t :: ts)) (a :: ns') ts xs' ns' sl 1 es' w0 w1
        (ToMethod v c a) P') as (gs & w2 & E & Ag & L & O); auto.
      { eapply all_awkward_tl; eassumption. }
      { eapply all_awkward_tl; eassumption. }
      { intros j u Hj. cbn. apply nth_params. exact Hj. }
      exists (Called (ToMethod v c a) gs), w2.
      split; [|split; [|auto]].
      + unfold perform. rewrite C3. unfold is_virtual. rewrite Fk, Ep. cbn [tl].
        destruct c; rewrite E; reflexivity.
      + eapply cc_method; eauto. rewrite Ep. exact Ag.
    - destruct K as ((t & Ep) & Er). rewrite Ep in *.
      destruct (prepared_ptr _ _ _ _ _ _ P) as (a & xs' & ns' & -> & -> & P').
      inversion P'; subst. cbn in Ee. injection Ee as <-. injection Ec as <-.
      exists (Called (ToDestructor a) []), (emit w1 (Called (ToDestructor a) [])).
      split; [reflexivity|]. split; [constructor; assumption|]. split; [reflexivity|]. reflexivity.
  Qed.

  Lemma perform_ctor_ok : forall f xs ns sl es call w0 w1 slot t ts,
    accepted unpin movable f -> f_kind f = Constructor -> f_params f = CPtr LRef t :: ts ->
    Forall (fun t => ~ awkward movable t) (f_params f) ->
    Forall2 (fits_param same_abi) ts xs ->
    prepared' ts xs ns sl ->
    arg_expressions unpin same_abi 0 (f_params f) = Some es -> the_call f es = Some call ->
    ready w0 w1 sl -> fresh_above w0 -> objs w0 slot = None ->
    exists ev w2,
      perform movable copyable same_abi f (map (cc_thunk_param same_abi) (f_params f)) (slot :: ns) w1 call =
        Some (Some slot, w2) /\
      correct_call same_abi f w0 xs ev /\ log w2 = log w1 ++ [ev] /\
      (forall b, objs w2 b = after sl (objs w1) b).
  Proof.
    intros f xs ns sl es call w0 w1 slot t ts (Pa & Co & K) Fk Ep Aw Fi P Ee Ec R Fr Sl.
    unfold the_call in Ec. rewrite Fk in Ec. rewrite Ep in *.
    cbn [arg_expressions arg_expression] in Ee.
    destruct (arg_expressions unpin same_abi 1 ts) as [es'|] eqn:Ee'; [|discriminate]. injection Ee as <-.
    injection Ec as <-.
    destruct (core_ok (map (cc_thunk_param same_abi) (CPtr LRef t :: ts)) (slot :: ns) ts xs ns sl 1 es' w0 w1
        (ToConstructor slot) P) as (gs & w2 & E & Ag & L & O); auto.
    { eapply all_awkward_tl; eassumption. }
    { eapply all_awkward_tl; eassumption. }
    { intros j u Hj. cbn. apply nth_params. exact Hj. }
    exists (Called (ToConstructor slot) gs), w2. split; [|split; [|auto]].
    - unfold perform. cbn [nth_error]. rewrite Ep. cbn [tl]. rewrite E. reflexivity.
    - constructor; auto. rewrite Ep. exact Ag.
  Qed.

  (** Without a thunk. *)
  Lemma direct_args : forall ts xs ns sl, prepared' ts xs ns sl -> Forall2 (fits_param same_abi) ts xs ->
    forallb compat ts = true ->
    sl = [] /\ exists gs, abi_args same_abi ts ns = Some gs /\ all_arrive same_abi ts xs gs.
  Proof.
    induction 1 as [|t ts n xs ns sl C P IH|t ts v a xs ns sl C P IH|t ts v a xs ns sl C P IH]; intros Fi Cp.
    - split; [reflexivity|]. exists []. split; [reflexivity|constructor].
    - inversion Fi as [|? ? ? ? F Fi']; subst. apply andb_prop in Cp. destruct Cp as [Ct Cp].
      destruct (IH Fi' Cp) as (-> & gs & E & A). split; [reflexivity|].
      assert (G : exists g, abi_arg same_abi t n = Some g /\ arrives same_abi (unalias t) (AWord n) g).
      { unfold abi_arg, is_c_abi_compatible_by_value in *.
        inversion F; subst; match goal with H : stands_for _ _ |- _ => apply stands_iff in H; rewrite H in * end;
          try discriminate; try (eexists; split; [reflexivity|constructor]).
        - destruct k; eexists; (split; [reflexivity|constructor]).
        - destruct b; eexists; (split; [reflexivity|constructor]).
        - match goal with H : same_abi _ = true |- _ => rewrite H end.
          eexists; (split; [reflexivity|constructor; assumption]). }
      destruct G as (g & Eg & Ag). exists (g :: gs). cbn [abi_args]. rewrite Eg, E. split; [reflexivity|].
      constructor; [apply unalias_arrives; exact Ag|assumption].
    - exfalso. apply andb_prop in Cp. destruct Cp as [Ct _]. revert Ct C.
      unfold passing_convention. 
      unfold is_owned_ptr, is_void, is_bridge_type, is_unpin, is_c_abi_compatible_by_value.
      destruct (unalias t) as [| |k ?| | | |x| | |]; try discriminate; try (destruct k); cbn [negb]; intros Ct [C|C]; try discriminate;
        rewrite Ct in C; discriminate.
    - exfalso. apply andb_prop in Cp. destruct Cp as [Ct _]. revert Ct C.
      unfold passing_convention, is_owned_ptr, is_void, is_bridge_type, is_unpin, is_c_abi_compatible_by_value.
      destruct (unalias t) as [| |k ?| | | |x| | |]; try discriminate; try (destruct k); cbn [negb]; intros Ct C; try discriminate;
        rewrite Ct in C; discriminate.
  Qed.

  (** How a result travels. *)
  Definition ret_kind (t : cty) : creturn :=
    match t with
    | CPtr LRef _ => RetAddressof
    | CPtr RRef _ => RetNamedAddress
    | CFun true => RetAddressof
    | _ => RetPlain
    end.

  Lemma returns_unalias : forall t c r, returns same_abi t c r -> returns same_abi (unalias t) c r.
  Proof. induction 1; cbn; try constructor; assumption. Qed.

  Lemma returns_by_convention : forall t c r, returns same_abi t c r ->
    match passing t with
    | AbiCompatible | OwnedPtr =>
        exists n, r = RWord n /\
          match ret_kind t, c with
          | RetPlain, CWord m => m = n /\ spelled_reference t = false
          | RetPlain, CRefTo m => m = n /\ spelled_reference t = true
          | (RetAddressof | RetNamedAddress), CRefTo m => m = n
          | _, _ => False
          end
    | VoidConv => r = RUnit /\ c = CNothing
    | LayoutCompatible | CtorConv | ComposablyBridged => exists v, r = ROwn v /\ c = CObj v
    end.
  Proof.
    intros t c r H. pose proof (returns_unalias _ _ _ H) as U.
    destruct t as [p| |k u|b|rr|en|x|br| |al u].
    1-2,6,8-9: try (cbn [unalias] in U; inversion U; subst; cbn; eauto; fail).
    - cbn [unalias] in U. destruct k; inversion U; subst; cbn; eauto.
    - cbn [unalias] in U. destruct b; inversion U; subst; cbn; eauto.
    - cbn [unalias] in U. inversion U; subst. cbn. unfold is_unpin. cbn. destruct (unpin rr); cbn; eauto.
    - cbn [unalias] in U. unfold passing_convention, is_owned_ptr, is_void, is_bridge_type, is_unpin,
        is_c_abi_compatible_by_value. cbn [unalias negb].
      inversion U; subst; match goal with H : same_abi _ = _ |- _ => rewrite H end; cbn; eauto.
    - unfold passing_convention, is_owned_ptr, is_void, is_bridge_type, is_unpin, is_c_abi_compatible_by_value.
      cbn [unalias ret_kind spelled_reference] in *.
      inversion U; subst; cbn [negb]; eauto; 
        try (match goal with H : same_abi _ = _ |- _ => rewrite H end); eauto.
      + exfalso. eapply unalias_not_alias. symmetry. eassumption.
      + match goal with |- context [unpin ?q] => destruct (unpin q) end; cbn [negb]; eauto.
  Qed.

  Lemma compat_convention : forall t, compat t = true ->
    passing t = AbiCompatible \/ passing t = OwnedPtr \/ passing t = VoidConv.
  Proof.
    intros t H. destruct (is_void t) eqn:V.
    - right. right. apply void_result. exact V.
    - destruct (compat_result unpin same_abi t H V); auto.
  Qed.

  (** The end of a call: the temporaries are dropped. *)
  Lemma finish_ok : forall w0 w1 w2 sl, fresh_above w0 -> ready w0 w1 sl -> 
    (forall a, ~ In (a, MovedFrom) sl) ->
    (forall b, objs w2 b = after sl (objs w1) b) ->
    exists w3, destroy_all w2 (drops_of sl) = Some w3 /\ log w3 = log w2 /\ (forall b, objs w3 b = objs w0 b).
  Proof.
    intros w0 w1 w2 sl Fr (Nd & N & I & O) Nm H.
    destruct (destroy_all_ok (drops_of sl) w2 (drops_nodup _ Nd)) as (w3 & E & L & _ & I3 & O3).
    { intros a Ha. right. rewrite H. apply after_drops; assumption. }
    exists w3. split; [exact E|]. split; [exact L|]. intros b.
    assert (Hn : In b (map fst sl) -> objs w0 b = None).
    { intros K. apply in_map_iff in K. destruct K as ((a & c) & Ea & K). cbn in Ea. subst a.
      apply I in K. apply Fr. lia. }
    destruct (in_dec Nat.eq_dec b (drops_of sl)) as [K|K].
    - rewrite (I3 _ K). symmetry. apply Hn. unfold drops_of in K. apply in_map_iff in K.
      destruct K as (p & <- & K). apply filter_In in K. apply in_map. tauto.
    - rewrite (O3 _ K), H. destruct (in_dec Nat.eq_dec b (map fst sl)) as [K2|K2].
      + rewrite (Hn K2). apply after_rest; assumption.
      + rewrite after_other by assumption. apply O. exact K2.
  Qed.
End Env.
