(** * Proofs about calls from Rust into C++: the machine-level contract. *)
From Coq Require Import List Arith Bool Lia.
From Verif.CppCall Require Import Model Spec.
Import ListNotations.

Lemma stands_unalias : forall t, stands_for t (unalias t).
Proof. induction t; cbn; constructor; assumption. Qed.

Lemma stands_iff : forall t u, stands_for t u <-> unalias t = u.
Proof.
  intros t u. split.
  - induction 1; cbn; auto.
  - intros <-. apply stands_unalias.
Qed.

Lemma unalias_not_alias : forall t a u, unalias t <> CAlias a u.
Proof. induction t; cbn; intros; try discriminate. apply IHt. Qed.

Section Env.
  Variable unpin movable copyable same_abi : nat -> bool.
  Notation passing := (passing_convention unpin same_abi).
  Notation compat := (is_c_abi_compatible_by_value same_abi).

  Ltac un t := let E := fresh "E" in
    destruct (unalias t) eqn:E; try (exfalso; exact (unalias_not_alias _ _ _ E)).

  Lemma param_agree : forall t, passable unpin movable t ->
    agree (rust_param same_abi) (cpp_param same_abi) (rs_thunk_param unpin same_abi t) (cc_thunk_param same_abi t).
  Proof.
    intros t P. unfold rs_thunk_param, cc_thunk_param, passing_convention, is_owned_ptr, is_void,
      is_bridge_type, is_unpin, is_c_abi_compatible_by_value.
    pose proof (stands_unalias t) as St.
    un t; cbn [negb].
    - exists (AInt p). split; constructor; econstructor; eassumption.
    - exfalso. inversion P as [x p H|x p H|x p u H|x p H|x p H|x p H|x p H]; apply stands_iff in H; congruence.
    - destruct k; exists AAddress; split; constructor; econstructor; eassumption.
    - exists AAddress. split; constructor; econstructor; eassumption.
    - exists AAddress. destruct (unpin r); split; constructor.
    - exists (AEnum e). split; constructor; econstructor; eassumption.
    - destruct (same_abi x) eqn:Sx; cbn [negb].
      + exists (AShared x). split; constructor; econstructor; eassumption.
      + exists AAddress. split; constructor.
    - exists AAddress. split; constructor.
    - exfalso. inversion P as [x p H|x p H|x p u H|x p H|x p H|x p H|x p H]; apply stands_iff in H; congruence.
  Qed.

  Lemma params_agree : forall ts, Forall (passable unpin movable) ts ->
    Forall2 (agree (rust_param same_abi) (cpp_param same_abi))
      (map (rs_thunk_param unpin same_abi) ts) (map (cc_thunk_param same_abi) ts).
  Proof. induction 1; cbn; constructor; auto using param_agree. Qed.

  Lemma value_agree : forall t, passing t = AbiCompatible \/ passing t = OwnedPtr ->
    agree (rust_abi same_abi) (cpp_abi same_abi) t t.
  Proof.
    intros t. unfold passing_convention, is_owned_ptr, is_void,
      is_bridge_type, is_unpin, is_c_abi_compatible_by_value.
    pose proof (stands_unalias t) as St.
    un t; cbn [negb]; intros H.
    1: exists (AInt p); split; econstructor; eassumption.
    1: destruct H; discriminate.
    1: exists AAddress; split; econstructor; eassumption.
    1: exists AAddress; split; econstructor; eassumption.
    1: destruct (unpin r); destruct H; discriminate.
    1: exists (AEnum e); split; econstructor; eassumption.
    1: { destruct (same_abi x) eqn:Sx; [|destruct H; discriminate].
         exists (AShared x). split; econstructor; eassumption. }
    all: destruct H; discriminate.
  Qed.

  (** Every parameter of an accepted function has an argument expression. *)
  Lemma arg_expression_some : forall i t, passable unpin movable t ->
    exists e, arg_expression unpin same_abi i t = Some e.
  Proof.
    intros i t P.
    assert (V : passing t <> VoidConv).
    { unfold passing_convention, is_owned_ptr, is_void, is_bridge_type.
      inversion P as [x p H|x p H|x p u H|x p H|x p H|x p H|x p H]; subst;
        apply stands_iff in H; rewrite H;
        repeat match goal with |- context [if ?b then _ else _] => destruct b end; try discriminate.
      all: try (destruct p; discriminate). }
    destruct t as [| |k u|b| | | | | |]; try (destruct k); try (destruct b); cbn [arg_expression]; eauto;
      repeat match goal with
             | |- exists e, match ?p with _ => _ end = Some e => destruct p eqn:?; eauto
             | |- exists e, (if ?b then _ else _) = Some e => destruct b; eauto
             end; congruence.
  Qed.

  Lemma arg_expressions_some : forall ts, Forall (passable unpin movable) ts ->
    forall i, exists es, arg_expressions unpin same_abi i ts = Some es /\ List.length es = List.length ts.
  Proof.
    induction 1 as [|t ts P Ps IH]; intros i; cbn [arg_expressions].
    - eauto.
    - destruct (arg_expression_some i t P) as [e ->].
      destruct (IH (S i)) as [es [-> L]]. exists (e :: es). split; [reflexivity|]. cbn. congruence.
  Qed.

  Lemma the_call_some : forall f es, accepted unpin movable f ->
    List.length es = List.length (f_params f) -> exists c, the_call f es = Some c.
  Proof.
    intros f es (_ & _ & K) L. unfold the_call.
    destruct (f_kind f) as [|q v| |]; eauto.
    destruct K as (k & t & ps & K). rewrite K in L. destruct es; [discriminate|]. eauto.
  Qed.

  Lemma thunk_contract : forall f, accepted unpin movable f ->
    exists rps rres th,
      generate_function_thunk unpin same_abi f = Some (rps, rres) /\
      generate_cc_thunk unpin same_abi f = Some th /\
      Forall2 (agree (rust_param same_abi) (cpp_param same_abi)) rps (all_params th) /\
      agree (rust_result same_abi) (cpp_result same_abi) rres (ct_result th).
  Proof.
    intros f A. pose proof A as (P & C & K).
    destruct (arg_expressions_some _ P 0) as (es & Ee & L).
    destruct (the_call_some f es A L) as [c Ec].
    unfold generate_function_thunk, generate_cc_thunk. rewrite Ee, Ec.
    assert (UU : agree (rust_result same_abi) (cpp_result same_abi) None None)
      by (exists AVoid; split; constructor).
    assert (gen : f_kind f <> Constructor ->
      exists (rps : list rparam) (rres : option cty) (th : cthunk),
        Some (match passing (f_ret f) with
              | ComposablyBridged => (PUCharMut :: map (rs_thunk_param unpin same_abi) (f_params f), None)
              | LayoutCompatible | CtorConv => (PVoidMut :: map (rs_thunk_param unpin same_abi) (f_params f), None)
              | VoidConv => (map (rs_thunk_param unpin same_abi) (f_params f), None)
              | AbiCompatible | OwnedPtr => (map (rs_thunk_param unpin same_abi) (f_params f), Some (f_ret f))
              end) = Some (rps, rres) /\
        Some
          match passing (f_ret f) with
          | ComposablyBridged =>
              CThunk (Some QUChar) (map (cc_thunk_param same_abi) (f_params f)) c RetEncode None
          | LayoutCompatible | CtorConv =>
              CThunk (Some (QPtr (f_ret f))) (map (cc_thunk_param same_abi) (f_params f)) c RetNew None
          | VoidConv => CThunk None (map (cc_thunk_param same_abi) (f_params f)) c RetVoid None
          | AbiCompatible | OwnedPtr =>
              CThunk None (map (cc_thunk_param same_abi) (f_params f)) c
                match f_ret f with
                | CPtr LRef _ => RetAddressof
                | CPtr RRef _ => RetNamedAddress
                | CFun true => RetAddressof
                | _ => RetPlain
                end (Some (f_ret f))
          end = Some th /\
        Forall2 (agree (rust_param same_abi) (cpp_param same_abi)) rps (all_params th) /\
        agree (rust_result same_abi) (cpp_result same_abi) rres (ct_result th)).
    { intros _.
      assert (VV : forall t, agree (rust_abi same_abi) (cpp_abi same_abi) t t ->
                   agree (rust_result same_abi) (cpp_result same_abi) (Some t) (Some t)).
      { intros t (a & R & Q). exists a. split; constructor; assumption. }
      destruct (passing (f_ret f)) eqn:Ep; do 3 eexists; (split; [reflexivity|]); (split; [reflexivity|]);
        cbn [all_params ct_out ct_params ct_result]; split; auto using params_agree, value_agree.
      all: constructor; [exists AAddress; split; constructor | auto using params_agree]. }
    destruct (f_kind f) eqn:Fk; try (apply gen; discriminate).
    destruct K as ((t & ps & Eps) & Er). rewrite Eps, Er. cbn [map].
    rewrite Eps in P. apply Forall_cons_iff in P. destruct P as [_ P].
    do 3 eexists. split; [reflexivity|]. split; [reflexivity|].
    cbn [all_params ct_out ct_params ct_result]. split; [|exact UU].
    constructor; [|auto using params_agree].
    exists AAddress. split; [constructor|]. cbn. constructor. econstructor. constructor.
  Qed.

  (** Without a thunk. *)
  Lemma compat_param : forall t, compat t = true -> is_void t = false ->
    agree (rust_param same_abi) (cpp_abi same_abi) (rs_thunk_param unpin same_abi t) t.
  Proof.
    intros t. unfold rs_thunk_param, passing_convention, is_owned_ptr, is_void, is_bridge_type, is_unpin,
      is_c_abi_compatible_by_value.
    pose proof (stands_unalias t) as St.
    un t; cbn [negb]; intros H V; try discriminate.
    - exists (AInt p); split; [constructor|]; econstructor; eassumption.
    - destruct k; exists AAddress; split; try constructor; econstructor; eassumption.
    - exists AAddress; split; [constructor|]; econstructor; eassumption.
    - exists (AEnum e); split; [constructor|]; econstructor; eassumption.
    - rewrite H. exists (AShared x); split; [constructor|]; econstructor; eassumption.
  Qed.

  Lemma passable_not_void : forall t, passable unpin movable t -> is_void t = false.
  Proof.
    intros t P. unfold is_void.
    inversion P as [x p H|x p H|x p u H|x p H|x p H|x p H|x p H]; apply stands_iff in H; rewrite H; reflexivity.
  Qed.

  Lemma compat_result : forall t, compat t = true -> is_void t = false ->
    passing t = AbiCompatible \/ passing t = OwnedPtr.
  Proof.
    intros t. unfold passing_convention, is_owned_ptr, is_void, is_bridge_type, is_unpin,
      is_c_abi_compatible_by_value.
    un t; cbn [negb]; intros H V; try discriminate; auto.
    - destruct k; auto.
    - rewrite H. auto.
  Qed.

  Lemma void_result : forall t, is_void t = true -> passing t = VoidConv.
  Proof.
    intros t. unfold passing_convention, is_owned_ptr, is_void.
    destruct (unalias t); intros; try discriminate; reflexivity.
  Qed.

  Lemma void_agree : forall t, is_void t = true -> agree (rust_result same_abi) (cpp_abi same_abi) None t.
  Proof.
    intros t V. exists AVoid. split; [constructor|]. constructor. apply stands_iff.
    unfold is_void in V. destruct (unalias t); try discriminate; reflexivity.
  Qed.

  Lemma direct_contract : forall f, accepted unpin movable f ->
    can_skip_cc_thunk same_abi f = true ->
    exists rps rres,
      generate_function_thunk unpin same_abi f = Some (rps, rres) /\
      Forall2 (agree (rust_param same_abi) (cpp_abi same_abi)) rps (f_params f) /\
      agree (rust_result same_abi) (cpp_abi same_abi) rres (f_ret f) /\
      is_virtual f = false /\ f_inline f = false /\ f_template f = false /\ f_c_conv f = true.
  Proof.
    intros f (P & C & K) Sk. unfold can_skip_cc_thunk in Sk.
    repeat (apply andb_prop in Sk; let H := fresh "S" in destruct Sk as [Sk H]).
    apply negb_true_iff in Sk, S4, S3, S.
    assert (Ps : forall ts, Forall (passable unpin movable) ts -> forallb compat ts = true ->
      Forall2 (agree (rust_param same_abi) (cpp_abi same_abi)) (map (rs_thunk_param unpin same_abi) ts) ts).
    { clear - unpin. induction 1; cbn; constructor; apply andb_prop in H1; destruct H1.
      - apply compat_param; [assumption|]. eapply passable_not_void; eassumption.
      - auto. }
    specialize (Ps _ P S0).
    unfold generate_function_thunk.
    destruct (f_kind f) eqn:Fk.
    3: { destruct K as ((t & ps & Eps) & Er). rewrite Eps, Er in *. do 2 eexists. split; [reflexivity|].
         cbn [map] in Ps. inversion Ps; subst. split; [|split; [|auto]].
         - constructor; [|assumption]. exists AAddress. split; [constructor|]. econstructor. constructor.
         - exists AVoid. split; constructor. constructor. }
    all: destruct (is_void (f_ret f)) eqn:V;
      [ rewrite (void_result _ V); do 2 eexists; (split; [reflexivity|]); (split; [exact Ps|]);
        (split; [exact (void_agree _ V)|auto])
      | pose proof (value_agree (f_ret f) (compat_result _ S1 V)) as (a & R & Q);
        destruct (compat_result _ S1 V) as [-> | ->]; do 2 eexists; (split; [reflexivity|]);
        (split; [exact Ps|]); (split; [exists a; split; [constructor|]; assumption|auto]) ].
  Qed.
End Env.
