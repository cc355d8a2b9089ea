(** * Proofs about running a call. *)
From Coq Require Import List Arith Bool Lia.
From Verif.CppCall Require Import Model Spec Proofs.
Import ListNotations.

Section Env.
  Variable unpin movable copyable same_abi : nat -> bool.
  Notation passing := (passing_convention unpin same_abi).
  Notation compat := (is_c_abi_compatible_by_value same_abi).

  Ltac un t := let E := fresh "E" in
    destruct (unalias t) eqn:E; try (exfalso; exact (unalias_not_alias _ _ _ E)).

  (** What Rust prepared for the parameters: words, and the temporaries they point to. *)
  Inductive prepared : list cty -> list rarg -> list nat -> list (nat * content) -> Prop :=
  | pr_nil : prepared [] [] [] []
  | pr_word t ts n xs ns sl :
      passing t = AbiCompatible \/ passing t = OwnedPtr -> prepared ts xs ns sl ->
      prepared (t :: ts) (AWord n :: xs) (n :: ns) sl
  | pr_obj t ts v a xs ns sl :
      passing t = LayoutCompatible \/ passing t = CtorConv -> prepared ts xs ns sl ->
      prepared (t :: ts) (AOwn v :: xs) (a :: ns) ((a, Obj v) :: sl)
  | pr_enc t ts v a xs ns sl :
      passing t = ComposablyBridged -> prepared ts xs ns sl ->
      prepared (t :: ts) (AOwn v :: xs) (a :: ns) ((a, Encoded v) :: sl).

  Definition drops_of (sl : list (nat * content)) : list nat :=
    map fst (filter (fun p => match snd p with Obj _ => true | _ => false end) sl).

  (** The kinds of argument the conventions ask for. *)
  Lemma fits_convention : forall t x, fits_param same_abi t x ->
    match x with
    | AWord _ => passing t = AbiCompatible \/ passing t = OwnedPtr
    | AOwn _ => passing t = LayoutCompatible \/ passing t = CtorConv \/ passing t = ComposablyBridged
    end.
  Proof.
    intros t x F. unfold passing_convention, is_owned_ptr, is_void, is_bridge_type, is_unpin,
      is_c_abi_compatible_by_value.
    inversion F; subst; match goal with H : stands_for _ _ |- _ => apply stands_iff in H; rewrite H end;
      cbn [negb]; auto.
    - destruct k; auto.
    - match goal with H : same_abi _ = _ |- _ => rewrite H end. auto.
    - match goal with H : same_abi _ = _ |- _ => rewrite H end. auto.
    - destruct (unpin r); auto.
  Qed.

  Lemma thunk_args_ok : forall ts xs, Forall2 (fits_param same_abi) ts xs -> forall w,
    exists ns sl w1,
      thunk_args unpin same_abi ts xs w = Some (ns, drops_of sl, w1) /\
      prepared ts xs ns sl /\ log w1 = log w /\ nxt w <= nxt w1 /\ NoDup (map fst sl) /\
      (forall a c, In (a, c) sl -> nxt w <= a < nxt w1 /\ objs w1 a = Some c) /\
      (forall a, ~ In a (map fst sl) -> objs w1 a = objs w a) /\
      List.length ns = List.length ts.
  Proof.
    induction 1 as [|t x ts xs F Fs IH]; intros w; cbn [thunk_args].
    - exists [], [], w. cbn. repeat split; auto using NoDup_nil; try constructor; intros; contradiction.
    - pose proof (fits_convention t x F) as C. unfold thunk_arg.
      destruct x as [n|v].
      + destruct (IH w) as (ns & sl & w1 & E & P & L & N & Nd & I & O & Ln).
        exists (n :: ns), sl, w1.
        destruct C as [C|C]; rewrite C, E; (repeat split; auto); try (constructor; auto); cbn; try congruence;
          apply (I _ _ H).
      + assert (step : forall c, (passing t = LayoutCompatible \/ passing t = CtorConv) /\ c = Obj v \/
                                 passing t = ComposablyBridged /\ c = Encoded v ->
          exists ns sl w1,
            (let (a, w0) := alloc w (Some c) in
             match thunk_args unpin same_abi ts xs w0 with
             | Some (ns, ds, w2) => Some (a :: ns, (match c with Obj _ => [a] | _ => [] end) ++ ds, w2)
             | None => None
             end) = Some (ns, drops_of sl, w1) /\
            prepared (t :: ts) (AOwn v :: xs) ns sl /\ log w1 = log w /\ nxt w <= nxt w1 /\ NoDup (map fst sl) /\
            (forall a c, In (a, c) sl -> nxt w <= a < nxt w1 /\ objs w1 a = Some c) /\
            (forall a, ~ In a (map fst sl) -> objs w1 a = objs w a) /\
            List.length ns = S (List.length ts)).
        { intros c Hc. unfold alloc.
          destruct (IH (World (fun b => if Nat.eqb b (nxt w) then Some c else objs w b) (S (nxt w)) (log w)))
            as (ns & sl & w1 & E & P & L & N & Nd & I & O & Ln).
          cbn [nxt objs log] in *. rewrite E.
          exists (nxt w :: ns), ((nxt w, c) :: sl), w1.
          assert (Nin : ~ In (nxt w) (map fst sl)).
          { intros K. apply in_map_iff in K. destruct K as ((a0 & c0) & Ea & Ia).
            cbn in Ea. subst. apply I in Ia. lia. }
          split.
          { unfold drops_of. cbn [filter snd map fst].
            destruct Hc as [[_ ->]|[_ ->]]; reflexivity. }
          split. { destruct Hc as [[? ->]|[? ->]]; constructor; auto. }
          split; [exact L|]. split; [lia|].
          split; [cbn [map fst]; constructor; auto|].
          split.
          { intros a0 c0 [K|K].
            - injection K as <- <-. split; [lia|]. rewrite (O _ Nin). rewrite Nat.eqb_refl. reflexivity.
            - destruct (I _ _ K) as [K1 K2]. split; [lia|assumption]. }
          split.
          { intros a K. cbn [map fst In] in K. rewrite O by tauto.
            destruct (Nat.eqb_spec a (nxt w)); [subst; tauto|reflexivity]. }
          cbn. congruence. }
        destruct C as [C|[C|C]].
        * destruct (step (Obj v)) as (ns & sl & w1 & E & R); [tauto|].
          exists ns, sl, w1. rewrite C. unfold alloc in E |- *.
          destruct (thunk_args unpin same_abi ts xs _) as [[[? ?] ?]|]; [|discriminate]. auto.
        * destruct (step (Obj v)) as (ns & sl & w1 & E & R); [tauto|].
          exists ns, sl, w1. rewrite C. unfold alloc in E |- *.
          destruct (thunk_args unpin same_abi ts xs _) as [[[? ?] ?]|]; [|discriminate]. auto.
        * destruct (step (Encoded v)) as (ns & sl & w1 & E & R); [tauto|].
          exists ns, sl, w1. rewrite C. unfold alloc in E |- *.
          destruct (thunk_args unpin same_abi ts xs _) as [[[? ?] ?]|]; [|discriminate]. auto.
  Qed.

  (** One argument expression and the initialisation of the parameter. *)
  Notation init' := (init movable copyable same_abi).

  Lemma word_arg : forall i t n ps words w e,
    passing t = AbiCompatible \/ passing t = OwnedPtr ->
    ~ awkward movable t -> passable unpin movable t -> fits_param same_abi t (AWord n) ->
    nth_error ps i = Some (cc_thunk_param same_abi t) -> nth_error words i = Some n ->
    arg_expression unpin same_abi i t = Some e ->
    exists r g, eval ps words w e = Some (r, w) /\ init' t w r = Some (g, w) /\
      arrives same_abi t (AWord n) g /\ objects_of [g] = [].
  Proof.
    intros i t n ps words w e C A P F Np Nw E.
    assert (Ar : forall u g, unalias t = unalias u -> arrives same_abi (unalias u) (AWord n) g ->
                 arrives same_abi t (AWord n) g).
    { intros u g <-. clear. induction t; cbn; intros; try assumption. constructor. auto. }
    specialize (Ar t).
    assert (Cp : cc_thunk_param same_abi t = QVal t).
    { revert C. unfold cc_thunk_param, passing_convention, is_owned_ptr, is_void, is_bridge_type, is_unpin,
        is_c_abi_compatible_by_value.
      un t; cbn [negb]; intros [C|C]; try discriminate; try reflexivity.
      all: try (destruct (unpin r); discriminate).
      all: try (destruct (same_abi x); [reflexivity|discriminate]). }
    rewrite Cp in Np.
    destruct t as [p| |k u|b|r|en|x|br| |al u].
    - assert (e = EVar i) as ->.
      { destruct C as [C|C]; cbn [arg_expression] in E; rewrite C in E; cbn in E; congruence. }
      cbn [eval spelled_reference]. rewrite Np, Nw. do 2 eexists. split; [reflexivity|]. split; [reflexivity|].
      split; [constructor|reflexivity].
    - inversion F; match goal with H : stands_for _ _ |- _ => inversion H end.
    - destruct k; cbn [arg_expression] in E; injection E as <-; cbn [eval spelled_reference]; rewrite Np, Nw;
        do 2 eexists; (split; [reflexivity|]); (split; [reflexivity|]); (split; [constructor|reflexivity]).
    - destruct b; cbn [arg_expression] in E; injection E as <-; cbn [eval spelled_reference]; rewrite Np, Nw;
        do 2 eexists; (split; [reflexivity|]); (split; [reflexivity|]); (split; [constructor|reflexivity]).
    - inversion F; match goal with H : stands_for _ _ |- _ => inversion H end.
    - assert (e = EMove (EVar i)) as ->.
      { destruct C as [C|C]; cbn [arg_expression] in E; rewrite C in E; cbn in E; congruence. }
      cbn [eval spelled_reference]. rewrite Np, Nw. do 2 eexists. split; [reflexivity|]. split; [reflexivity|].
      split; [constructor|reflexivity].
    - assert (e = EMove (EVar i)) as ->.
      { destruct C as [C|C]; cbn [arg_expression] in E; rewrite C in E; cbn in E; congruence. }
      assert (Sx : same_abi x = true) by (inversion F; match goal with H : stands_for _ _ |- _ => inversion H end; congruence).
      cbn [eval spelled_reference]. rewrite Np, Nw. do 2 eexists. split; [reflexivity|].
      cbn [init unalias]. rewrite Sx. split; [reflexivity|]. split; [constructor; assumption|reflexivity].
    - inversion F; match goal with H : stands_for _ _ |- _ => inversion H end.
    - inversion F; match goal with H : stands_for _ _ |- _ => inversion H end.
    - (* alias *)
      assert (Ee : e = if is_primitive (CAlias al u) || has_referent (CAlias al u) then EVar i else EMove (EVar i)).
      { destruct C as [C|C]; cbn [arg_expression] in E; rewrite C in E;
          destruct (is_primitive (CAlias al u) || has_referent (CAlias al u)); congruence. }
      unfold is_primitive, has_referent in Ee. cbn [unalias] in Ee.
      unfold init. cbn [unalias] in *. cbn [spelled_reference eval].
      assert (Hu : unalias (CAlias al u) = unalias u) by reflexivity.
      un u; cbn [orb] in Ee; subst e; cbn [eval spelled_reference]; rewrite ?E0, ?Np, ?Nw; cbn [spelled_reference];
        rewrite ?E0.
      + do 2 eexists. split; [reflexivity|]. split; [reflexivity|]. split; [|reflexivity].
        apply Ar; [reflexivity|]. constructor.
      + inversion F; match goal with H : stands_for _ _ |- _ => apply stands_iff in H; cbn in H; congruence end.
      + destruct k; [| | | |exfalso; apply A; eapply aw_rref; apply stands_iff; eassumption];
          do 2 eexists; (split; [reflexivity|]); (split; [reflexivity|]); (split; [|reflexivity]);
          (apply Ar; [reflexivity|]); constructor.
      + destruct non_null; do 2 eexists; (split; [reflexivity|]); (split; [reflexivity|]); (split; [|reflexivity]);
          (apply Ar; [reflexivity|]); constructor.
      + inversion F; match goal with H : stands_for _ _ |- _ => apply stands_iff in H; cbn in H; congruence end.
      + do 2 eexists. split; [reflexivity|]. split; [reflexivity|]. split; [|reflexivity].
        apply Ar; [reflexivity|]. constructor.
      + assert (Sx : same_abi x = true)
          by (inversion F; match goal with H : stands_for _ _ |- _ => apply stands_iff in H; cbn in H end; congruence).
        rewrite Sx. do 2 eexists. split; [reflexivity|]. split; [reflexivity|]. split; [|reflexivity].
        apply Ar; [reflexivity|]. constructor. assumption.
      + inversion F; match goal with H : stands_for _ _ |- _ => apply stands_iff in H; cbn in H; congruence end.
      + inversion F; match goal with H : stands_for _ _ |- _ => apply stands_iff in H; cbn in H; congruence end.
  Qed.

  Lemma unalias_arrives : forall t x g, arrives same_abi (unalias t) x g -> arrives same_abi t x g.
  Proof. induction t; cbn; intros; try assumption. constructor. auto. Qed.

  Lemma obj_arg : forall i t v a ps words w e,
    passing t = LayoutCompatible \/ passing t = CtorConv ->
    ~ awkward movable t -> fits_param same_abi t (AOwn v) ->
    nth_error ps i = Some (cc_thunk_param same_abi t) -> nth_error words i = Some a ->
    objs w a = Some (Obj v) ->
    arg_expression unpin same_abi i t = Some e ->
    exists r, eval ps words w e = Some (r, w) /\
      init' t w r = Some (GObj (nxt w) v,
        World (fun b => if Nat.eqb b (nxt w) then Some (Obj v) else
                        if Nat.eqb b a then Some MovedFrom else objs w b) (S (nxt w)) (log w)) /\
      arrives same_abi t (AOwn v) (GObj (nxt w) v).
  Proof.
    intros i t v a ps words w e C A F Np Nw Oa E.
    assert (K : exists u, unalias t = u /\ ((exists x, u = CExist x /\ same_abi x = false) \/ exists r, u = CRec r)).
    { exists (unalias t). split; [reflexivity|].
      inversion F; subst; match goal with H : stands_for _ _ |- _ => apply stands_iff in H end; eauto.
      exfalso. revert C. unfold passing_convention, is_owned_ptr, is_void, is_bridge_type.
      match goal with H : unalias t = CBridge _ |- _ => rewrite H end.
      intros [C|C]; discriminate. }
    destruct K as (u & Eu & K).
    assert (Nc : compat t = false).
    { unfold is_c_abi_compatible_by_value. rewrite Eu. destruct K as [(x & -> & K)|(r & ->)]; auto. }
    assert (Nb : is_bridge_type t = false).
    { unfold is_bridge_type. rewrite Eu. destruct K as [(x & -> & K)|(r & ->)]; reflexivity. }
    assert (Ee : e = EMove (EDeref (EVar i))).
    { assert (E' : arg_expression unpin same_abi i t =
        match passing t with
        | ComposablyBridged => Some (EDecode i)
        | LayoutCompatible | CtorConv =>
            if compat t then Some (EMove (EVar i)) else Some (EMove (EDeref (EVar i)))
        | AbiCompatible | OwnedPtr =>
            if is_primitive t || has_referent t then Some (EVar i) else Some (EMove (EVar i))
        | VoidConv => None
        end).
      { destruct t; try reflexivity; cbn [unalias] in Eu; subst u;
          destruct K as [(x' & K & _)|(r' & K)]; discriminate. }
      rewrite E', Nc in E. destruct C as [C|C]; rewrite C in E; congruence. }
    subst e. unfold cc_thunk_param in Np. rewrite Nb, Nc in Np. cbn [negb] in Np.
    cbn [eval]. rewrite Np, Nw. eexists. split; [reflexivity|].
    split.
    - unfold init. rewrite Eu. destruct K as [(x & -> & K)|(r & ->)].
      + rewrite K. unfold init_object. rewrite Oa. reflexivity.
      + assert (movable r = true) as ->.
        { destruct (movable r) eqn:M; [reflexivity|]. exfalso. apply A. eapply aw_unmovable; [|exact M].
          apply stands_iff. assumption. }
        unfold init_object. rewrite Oa. reflexivity.
    - apply unalias_arrives. rewrite Eu. destruct K as [(x & -> & K)|(r & ->)]; constructor; assumption.
  Qed.

  Lemma enc_arg : forall i t v a ps words w e,
    passing t = ComposablyBridged ->
    nth_error ps i = Some (cc_thunk_param same_abi t) -> nth_error words i = Some a ->
    objs w a = Some (Encoded v) ->
    arg_expression unpin same_abi i t = Some e ->
    exists r w1, eval ps words w e = Some (r, w1) /\
      init' t w1 r = Some (GObj (nxt w) v,
        World (fun b => if Nat.eqb b (nxt w) then Some (Obj v) else
                        if Nat.eqb b a then None else objs w b) (S (nxt w)) (log w)) /\
      arrives same_abi t (AOwn v) (GObj (nxt w) v).
  Proof.
    intros i t v a ps words w e C Np Nw Oa E.
    assert (K : exists b, unalias t = CBridge b).
    { revert C. unfold passing_convention, is_owned_ptr, is_void, is_bridge_type, is_unpin,
        is_c_abi_compatible_by_value.
      un t; cbn [negb]; intros C; try discriminate; eauto.
      - destruct k; discriminate.
      - destruct (unpin r); discriminate.
      - destruct (same_abi x); discriminate. }
    destruct K as (br & Eu).
    assert (Nb : is_bridge_type t = true) by (unfold is_bridge_type; rewrite Eu; reflexivity).
    assert (Ee : e = EDecode i).
    { destruct t; cbn [unalias] in Eu; try discriminate; cbn [arg_expression] in E; rewrite C in E; congruence. }
    subst e. unfold cc_thunk_param in Np. rewrite Nb in Np.
    cbn [eval]. rewrite Np, Nw, Oa. do 2 eexists. split; [reflexivity|].
    split.
    - unfold init. rewrite Eu. reflexivity.
    - apply unalias_arrives. rewrite Eu. constructor.
  Qed.

  Fixpoint after (sl : list (nat * content)) (o : nat -> option content) (b : nat) : option content :=
    match sl with
    | [] => o b
    | (a, Encoded _) :: r => if Nat.eqb b a then None else after r o b
    | (a, _) :: r => if Nat.eqb b a then Some MovedFrom else after r o b
    end.

  Lemma init_all_ok : forall ps words ts xs ns sl, prepared ts xs ns sl ->
    Forall2 (fits_param same_abi) ts xs ->
    Forall (passable unpin movable) ts -> Forall (fun t => ~ awkward movable t) ts ->
    forall i es w,
    (forall j t, nth_error ts j = Some t -> nth_error ps (i + j) = Some (cc_thunk_param same_abi t)) ->
    (forall j n, nth_error ns j = Some n -> nth_error words (i + j) = Some n) ->
    arg_expressions unpin same_abi i ts = Some es ->
    NoDup (map fst sl) ->
    (forall a c, In (a, c) sl -> a < nxt w /\ objs w a = Some c) ->
    exists gs w',
      init_all movable copyable same_abi ps words w ts es = Some (gs, w') /\
      all_arrive same_abi ts xs gs /\ log w' = log w /\ nxt w <= nxt w' /\
      NoDup (objects_of gs) /\
      (forall a, In a (objects_of gs) -> nxt w <= a < nxt w' /\ exists v, objs w' a = Some (Obj v)) /\
      (forall a, ~ In a (objects_of gs) -> objs w' a = after sl (objs w) a).
  Proof.
    intros ps words. induction 1 as [|t ts n xs ns sl C P IH|t ts v a xs ns sl C P IH|t ts v a xs ns sl C P IH];
      intros Fi Pa Aw i es w Hp Hw Ee Nd Hs.
    - cbn in Ee. injection Ee as <-. exists [], w. cbn. repeat split; auto using NoDup_nil; try constructor; contradiction.
    - inversion Fi as [|? ? ? ? F Fi']; subst. inversion Pa as [|? ? Pt Pa']; subst. inversion Aw as [|? ? At Aw']; subst.
      cbn [arg_expressions] in Ee.
      destruct (arg_expression unpin same_abi i t) as [e|] eqn:E1; [|discriminate].
      destruct (arg_expressions unpin same_abi (S i) ts) as [es'|] eqn:E2; [|discriminate].
      injection Ee as <-.
      pose proof (Hp 0 t eq_refl) as Np. pose proof (Hw 0 n eq_refl) as Nw. rewrite Nat.add_0_r in Np, Nw.
      destruct (word_arg i t n ps words w e C At Pt F Np Nw E1) as (r & g & Ev & In_ & Ar & Ob).
      destruct (IH Fi' Pa' Aw' (S i) es' w) as (gs & w' & Ei & Ag & L & N & Ndo & Io & Oo); auto.
      { intros j u Hj. replace (S i + j) with (i + S j) by lia. apply Hp. exact Hj. }
      { intros j u Hj. replace (S i + j) with (i + S j) by lia. apply Hw. exact Hj. }
      exists (g :: gs), w'. cbn [init_all]. rewrite Ev, In_, Ei.
      assert (Og : objects_of (g :: gs) = objects_of gs) by (destruct g; cbn in Ob |- *; congruence || reflexivity).
      rewrite Og. repeat split; auto. constructor; assumption.
      all: apply (Io _ H).
    - inversion Fi as [|? ? ? ? F Fi']; subst. inversion Pa as [|? ? Pt Pa']; subst. inversion Aw as [|? ? At Aw']; subst.
      cbn [arg_expressions] in Ee.
      destruct (arg_expression unpin same_abi i t) as [e|] eqn:E1; [|discriminate].
      destruct (arg_expressions unpin same_abi (S i) ts) as [es'|] eqn:E2; [|discriminate].
      injection Ee as <-.
      pose proof (Hp 0 t eq_refl) as Np. pose proof (Hw 0 a eq_refl) as Nw. rewrite Nat.add_0_r in Np, Nw.
      destruct (Hs a (Obj v) (or_introl eq_refl)) as [La Oa].
      destruct (obj_arg i t v a ps words w e C At F Np Nw Oa E1) as (r & Ev & In_ & Ar).
      set (w1 := World (fun b => if Nat.eqb b (nxt w) then Some (Obj v) else
                        if Nat.eqb b a then Some MovedFrom else objs w b) (S (nxt w)) (log w)) in *.
      cbn [map fst] in Nd. inversion Nd as [|? ? Na Nd']; subst.
      destruct (IH Fi' Pa' Aw' (S i) es' w1) as (gs & w' & Ei & Ag & L & N & Ndo & Io & Oo); auto.
      { intros j u Hj. replace (S i + j) with (i + S j) by lia. apply Hp. exact Hj. }
      { intros j u Hj. replace (S i + j) with (i + S j) by lia. apply Hw. exact Hj. }
      { intros b c Hb. destruct (Hs b c (or_intror Hb)) as [Lb Obb]. cbn [nxt objs w1]. split; [lia|].
        destruct (Nat.eqb_spec b (nxt w)); [lia|]. destruct (Nat.eqb_spec b a) as [->|]; [|assumption].
        exfalso. apply Na. apply in_map_iff. exists (a, c). auto. }
      exists (GObj (nxt w) v :: gs), w'. cbn [init_all]. rewrite Ev, In_, Ei.
      change (nxt w1) with (S (nxt w)) in *. change (log w1) with (log w) in *.
      assert (Nn : ~ In (nxt w) (objects_of gs)) by (intros K; apply Io in K; lia).
      assert (Ao : forall b o, (forall c, ~ In (b, c) sl) -> after sl o b = o b).
      { clear. intros b o. induction sl as [|[a c] sl IH]; intros H; [reflexivity|].
        assert (b <> a) by (intros ->; exact (H c (or_introl eq_refl))).
        assert (R : after sl o b = o b) by (apply IH; intros c' K; exact (H c' (or_intror K))).
        cbn [after]. destruct (Nat.eqb_spec b a); [contradiction|]. destruct c; assumption. }
      cbn [objects_of]. split; [reflexivity|]. split; [constructor; assumption|]. split; [exact L|]. split; [lia|].
      split; [constructor; assumption|]. split.
      + intros b [<-|Hb].
        * split; [lia|]. exists v. rewrite (Oo _ Nn). rewrite Ao.
          -- cbn [objs w1]. rewrite Nat.eqb_refl. reflexivity.
          -- intros c K. destruct (Hs _ _ (or_intror K)). lia.
        * destruct (Io _ Hb) as [K1 K2]. split; [lia|assumption].
      + intros b Hb. assert (b <> nxt w /\ ~ In b (objects_of gs)) as [Hb1 Hb2] by (split; [intros ->; apply Hb; left; reflexivity|intros K; apply Hb; right; exact K]).
        rewrite (Oo _ Hb2). cbn [after].
        assert (G : forall o o', (o b = o' b) -> after sl o b = after sl o' b).
        { clear. intros o o' H. induction sl as [|[a c] sl IH]; [exact H|]. cbn [after]. destruct c; rewrite IH; reflexivity. }
        destruct (Nat.eqb_spec b a) as [->|Hba].
        * rewrite Ao. { cbn [objs w1]. destruct (Nat.eqb_spec a (nxt w)); [congruence|]. rewrite Nat.eqb_refl. reflexivity. }
          intros c K. apply Na. apply in_map_iff. exists (a, c). auto.
        * apply G. cbn [objs w1]. destruct (Nat.eqb_spec b (nxt w)); [congruence|].
          destruct (Nat.eqb_spec b a); [congruence|reflexivity].
    - inversion Fi as [|? ? ? ? F Fi']; subst. inversion Pa as [|? ? Pt Pa']; subst. inversion Aw as [|? ? At Aw']; subst.
      cbn [arg_expressions] in Ee.
      destruct (arg_expression unpin same_abi i t) as [e|] eqn:E1; [|discriminate].
      destruct (arg_expressions unpin same_abi (S i) ts) as [es'|] eqn:E2; [|discriminate].
      injection Ee as <-.
      pose proof (Hp 0 t eq_refl) as Np. pose proof (Hw 0 a eq_refl) as Nw. rewrite Nat.add_0_r in Np, Nw.
      destruct (Hs a (Encoded v) (or_introl eq_refl)) as [La Oa].
      destruct (enc_arg i t v a ps words w e C Np Nw Oa E1) as (r & wm & Ev & In_ & Ar).
      set (w1 := World (fun b => if Nat.eqb b (nxt w) then Some (Obj v) else
                        if Nat.eqb b a then None else objs w b) (S (nxt w)) (log w)) in *.
      cbn [map fst] in Nd. inversion Nd as [|? ? Na Nd']; subst.
      destruct (IH Fi' Pa' Aw' (S i) es' w1) as (gs & w' & Ei & Ag & L & N & Ndo & Io & Oo); auto.
      { intros j u Hj. replace (S i + j) with (i + S j) by lia. apply Hp. exact Hj. }
      { intros j u Hj. replace (S i + j) with (i + S j) by lia. apply Hw. exact Hj. }
      { intros b c Hb. destruct (Hs b c (or_intror Hb)) as [Lb Obb]. cbn [nxt objs w1]. split; [lia|].
        destruct (Nat.eqb_spec b (nxt w)); [lia|]. destruct (Nat.eqb_spec b a) as [->|]; [|assumption].
        exfalso. apply Na. apply in_map_iff. exists (a, c). auto. }
      exists (GObj (nxt w) v :: gs), w'. cbn [init_all]. rewrite Ev, In_, Ei.
      change (nxt w1) with (S (nxt w)) in *. change (log w1) with (log w) in *.
      assert (Nn : ~ In (nxt w) (objects_of gs)) by (intros K; apply Io in K; lia).
      assert (Ao : forall b o, (forall c, ~ In (b, c) sl) -> after sl o b = o b).
      { clear. intros b o. induction sl as [|[a c] sl IH]; intros H; [reflexivity|].
        assert (b <> a) by (intros ->; exact (H c (or_introl eq_refl))).
        assert (R : after sl o b = o b) by (apply IH; intros c' K; exact (H c' (or_intror K))).
        cbn [after]. destruct (Nat.eqb_spec b a); [contradiction|]. destruct c; assumption. }
      cbn [objects_of]. split; [reflexivity|]. split; [constructor; assumption|]. split; [exact L|]. split; [lia|].
      split; [constructor; assumption|]. split.
      + intros b [<-|Hb].
        * split; [lia|]. exists v. rewrite (Oo _ Nn). rewrite Ao.
          -- cbn [objs w1]. rewrite Nat.eqb_refl. reflexivity.
          -- intros c K. destruct (Hs _ _ (or_intror K)). lia.
        * destruct (Io _ Hb) as [K1 K2]. split; [lia|assumption].
      + intros b Hb. assert (b <> nxt w /\ ~ In b (objects_of gs)) as [Hb1 Hb2] by (split; [intros ->; apply Hb; left; reflexivity|intros K; apply Hb; right; exact K]).
        rewrite (Oo _ Hb2). cbn [after].
        assert (G : forall o o', (o b = o' b) -> after sl o b = after sl o' b).
        { clear. intros o o' H. induction sl as [|[a c] sl IH]; [exact H|]. cbn [after]. destruct c; rewrite IH; reflexivity. }
        destruct (Nat.eqb_spec b a) as [->|Hba].
        * rewrite Ao. { cbn [objs w1]. destruct (Nat.eqb_spec a (nxt w)); [congruence|]. rewrite Nat.eqb_refl. reflexivity. }
          intros c K. apply Na. apply in_map_iff. exists (a, c). auto.
        * apply G. cbn [objs w1]. destruct (Nat.eqb_spec b (nxt w)); [congruence|].
          destruct (Nat.eqb_spec b a); [congruence|reflexivity].
  Qed.
End Env.
