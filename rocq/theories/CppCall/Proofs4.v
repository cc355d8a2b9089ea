(** * Whole calls, from Rust to C++ and back. *)
From Coq Require Import List Arith Bool Lia.
From Verif.CppCall Require Import Model Spec Proofs Proofs2 Proofs3.
Import ListNotations.

Section Env.
  Variable unpin movable copyable same_abi : nat -> bool.
  Notation passing := (passing_convention unpin same_abi).
  Notation compat := (is_c_abi_compatible_by_value same_abi).
  Notation prepared' := (prepared unpin same_abi).
  Notation invoke' := (invoke unpin movable copyable same_abi).

  Lemma skip_facts : forall f, can_skip_cc_thunk same_abi f = true ->
    is_virtual f = false /\ compat (f_ret f) = true /\ forallb compat (f_params f) = true.
  Proof.
    intros f H. unfold can_skip_cc_thunk in H.
    repeat (apply andb_prop in H; let K := fresh "K" in destruct H as [H K]).
    apply negb_true_iff in K3. auto.
  Qed.

  Lemma generate_facts : forall f, accepted unpin movable f ->
    exists es call th, arg_expressions unpin same_abi 0 (f_params f) = Some es /\ the_call f es = Some call /\
      generate_cc_thunk unpin same_abi f = Some th /\
      ct_params th = map (cc_thunk_param same_abi) (f_params f) /\ ct_call th = call /\
      ct_return th = match passing (f_ret f) with
                     | ComposablyBridged => RetEncode
                     | LayoutCompatible | CtorConv => RetNew
                     | VoidConv => RetVoid
                     | AbiCompatible | OwnedPtr => ret_kind (f_ret f)
                     end.
  Proof.
    intros f A. pose proof A as (P & _ & _).
    destruct (arg_expressions_some unpin movable same_abi _ P 0) as (es & Ee & L).
    destruct (the_call_some unpin movable f es A L) as [c Ec].
    exists es, c. unfold generate_cc_thunk. rewrite Ee, Ec.
    destruct (passing (f_ret f)); eexists; (split; [reflexivity|]); (split; [reflexivity|]);
      (split; [reflexivity|]); auto.
  Qed.

  Definition word_of (r : rres) : option nat := match r with RWord n => Some n | _ => None end.

  Lemma invoke_plain : forall f xs ns sl c r w0 w1,
    accepted unpin movable f -> f_kind f <> Constructor ->
    Forall (fun t => ~ awkward movable t) (f_params f) ->
    Forall2 (fits_param same_abi) (f_params f) xs ->
    prepared' (f_params f) xs ns sl -> ready w0 w1 sl -> fresh_above w0 ->
    returns same_abi (f_ret f) c r ->
    passing (f_ret f) = AbiCompatible \/ passing (f_ret f) = OwnedPtr \/ passing (f_ret f) = VoidConv ->
    exists ev w2, invoke' f None ns c w1 = Some (word_of r, w2) /\
      correct_call same_abi f w0 xs ev /\ log w2 = log w1 ++ [ev] /\
      (forall b, objs w2 b = after sl (objs w1) b).
  Proof.
    intros f xs ns sl c r w0 w1 A NC Aw Fi P R Fr Rt Cv.
    pose proof (returns_by_convention unpin same_abi _ _ _ Rt) as Rc.
    unfold invoke. destruct (can_skip_cc_thunk same_abi f) eqn:Sk.
    - destruct (skip_facts f Sk) as (Nv & Cr & Cps).
      destruct (direct_args unpin same_abi _ _ _ _ P Fi Cps) as (-> & gs & Eg & Ag).
      pose proof A as (_ & _ & K). unfold run_direct. unfold is_virtual in Nv.
      assert (Res : c = CNothing /\ word_of r = None \/ (exists n, (c = CWord n \/ c = CRefTo n) /\ word_of r = Some n)).
      { destruct Cv as [Cv|[Cv|Cv]]; rewrite Cv in Rc; [right|right|left].
        - destruct Rc as (n & -> & Rc). exists n. split; [|reflexivity].
          destruct (ret_kind (f_ret f)), c; intuition congruence.
        - destruct Rc as (n & -> & Rc). exists n. split; [|reflexivity].
          destruct (ret_kind (f_ret f)), c; intuition congruence.
        - destruct Rc as [-> ->]. auto. }
      destruct (f_kind f) as [|q v| |] eqn:Fk; [| |congruence|].
      + rewrite Eg. exists (Called ToFree gs), (emit w1 (Called ToFree gs)).
        split; [|split; [constructor; assumption|split; reflexivity]].
        destruct Res as [[-> ->]|(n & [-> | ->] & ->)]; reflexivity.
      + subst v. destruct K as (k & t & ts & Ep). rewrite Ep in *.
        destruct (prepared_ptr unpin movable copyable same_abi _ _ _ _ _ _ P) as (a & xs' & ns' & -> & -> & P').
        inversion Ag as [|? ? ? ? g gs' Ag1 Ag2]; subst.
        cbn [abi_args tl] in *.
        destruct (abi_arg same_abi (CPtr k t) a); [|discriminate].
        destruct (abi_args same_abi ts ns') as [gs2|] eqn:E2; [|discriminate].
        injection Eg as -> ->.
        set (e := Called _ gs'). exists e, (emit w1 e).
        split; [|split; [|split; reflexivity]].
        * destruct Res as [[-> ->]|(n & [-> | ->] & ->)]; reflexivity.
        * eapply cc_method; eauto.
          -- intros ->. reflexivity.
          -- destruct q; congruence.
          -- rewrite Ep. exact Ag2.
      + destruct K as ((t & Ep) & Er). rewrite Ep in *.
        destruct (prepared_ptr unpin movable copyable same_abi _ _ _ _ _ _ P) as (a & xs' & ns' & -> & -> & P').
        inversion P'; subst. rewrite Er in Rt. inversion Rt; subst.
        exists (Called (ToDestructor a) []), (emit w1 (Called (ToDestructor a) [])).
        split; [reflexivity|]. split; [constructor; assumption|]. split; reflexivity.
    - destruct (generate_facts f A) as (es & call & th & Ee & Ec & Et & Tp & Tc & Tr).
      rewrite Et. unfold run_cc_thunk. rewrite Tp, Tc, Tr.
      destruct (perform_ok unpin movable copyable same_abi f xs ns sl es call w0 w1 A NC Aw Fi P Ee Ec R Fr)
        as (ev & w2 & Ep & Cc & L & O).
      rewrite Ep. exists ev, w2. split; [|auto].
      destruct Cv as [Cv|[Cv|Cv]]; rewrite Cv in *.
      + destruct Rc as (n & -> & Rc). destruct (ret_kind (f_ret f)), c; try contradiction; cbn [word_of];
          first [rewrite Rc; reflexivity|destruct Rc as [-> Rs]; rewrite Rs; reflexivity].
      + destruct Rc as (n & -> & Rc). destruct (ret_kind (f_ret f)), c; try contradiction; cbn [word_of];
          first [rewrite Rc; reflexivity|destruct Rc as [-> Rs]; rewrite Rs; reflexivity].
      + destruct Rc as [-> ->]. reflexivity.
  Qed.

  Lemma invoke_out : forall f xs ns sl c r w0 w1 slot,
    accepted unpin movable f -> f_kind f <> Constructor ->
    Forall (fun t => ~ awkward movable t) (f_params f) ->
    Forall2 (fits_param same_abi) (f_params f) xs ->
    prepared' (f_params f) xs ns sl -> ready w0 w1 sl -> fresh_above w0 ->
    returns same_abi (f_ret f) c r ->
    passing (f_ret f) = LayoutCompatible \/ passing (f_ret f) = CtorConv \/ passing (f_ret f) = ComposablyBridged ->
    exists ev w2 v, r = ROwn v /\ invoke' f (Some slot) ns c w1 =
        Some (None, set w2 slot (Some (match passing (f_ret f) with ComposablyBridged => Encoded v | _ => Obj v end))) /\
      correct_call same_abi f w0 xs ev /\ log w2 = log w1 ++ [ev] /\
      (forall b, objs w2 b = after sl (objs w1) b).
  Proof.
    intros f xs ns sl c r w0 w1 slot A NC Aw Fi P R Fr Rt Cv.
    pose proof (returns_by_convention unpin same_abi _ _ _ Rt) as Rc.
    unfold invoke. destruct (can_skip_cc_thunk same_abi f) eqn:Sk.
    - exfalso. destruct (skip_facts f Sk) as (Nv & Cr & Cps).
      destruct (compat_convention unpin same_abi _ Cr) as [E|[E|E]]; rewrite E in Cv;
        destruct Cv as [Cv|[Cv|Cv]]; discriminate.
    - destruct (generate_facts f A) as (es & call & th & Ee & Ec & Et & Tp & Tc & Tr).
      rewrite Et. unfold run_cc_thunk. rewrite Tp, Tc, Tr.
      destruct (perform_ok unpin movable copyable same_abi f xs ns sl es call w0 w1 A NC Aw Fi P Ee Ec R Fr)
        as (ev & w2 & Ep & Cc & L & O).
      rewrite Ep.
      destruct Cv as [Cv|[Cv|Cv]]; rewrite Cv in *; destruct Rc as (v & -> & ->); exists ev, w2, v; auto.
  Qed.

  Lemma correct_call_objs : forall f w w' xs ev, (forall a, objs w a = objs w' a) ->
    correct_call same_abi f w xs ev -> correct_call same_abi f w' xs ev.
  Proof.
    intros f w w' xs ev H C. inversion C; subst.
    - constructor; assumption.
    - eapply cc_method; eassumption.
    - constructor; try assumption. rewrite <- H. assumption.
    - constructor; assumption.
  Qed.

  (** The end of a call with an output slot. *)
  Lemma slot_alloc : forall w, fresh_above w ->
    exists w0, alloc w None = (nxt w, w0) /\ log w0 = log w /\ fresh_above w0 /\
      (forall a, objs w0 a = objs w a) /\ nxt w0 = S (nxt w).
  Proof.
    intros w F. eexists. split; [reflexivity|]. cbn [log nxt].
    assert (E : forall a, (if Nat.eqb a (nxt w) then None else objs w a) = objs w a).
    { intros a. destruct (Nat.eqb_spec a (nxt w)) as [->|]; [|reflexivity]. symmetry. apply F. lia. }
    split; [reflexivity|]. split; [|split; [exact E|reflexivity]].
    intros a Ha. cbn [nxt objs] in *. rewrite E. apply F. lia.
  Qed.

  Lemma slot_taken : forall w0 w1 w2 sl slot c, ready w0 w1 sl -> slot < nxt w0 -> objs w0 slot = None ->
    (forall b, objs w2 b = after sl (objs w1) b) ->
    forall b, objs (set (set w2 slot (Some c)) slot None) b = after sl (objs w1) b.
  Proof.
    intros w0 w1 w2 sl slot c (Nd & N & I & O) Ls Ns H b. unfold set. cbn [objs].
    destruct (Nat.eqb_spec b slot) as [->|]; [|apply H].
    assert (K : ~ In slot (map fst sl)).
    { intros K. apply in_map_iff in K. destruct K as ((a & d) & Ea & K). cbn in Ea. subst a. apply I in K. lia. }
    rewrite after_other by exact K. rewrite (O _ K). symmetry. exact Ns.
  Qed.

  Theorem rust_call_ok : forall f xs c r w,
    accepted unpin movable f -> Forall (fun t => ~ awkward movable t) (f_params f) ->
    Forall2 (fits_param same_abi) (rust_params f) xs -> call_returns same_abi f c r -> fresh_above w ->
    exists w' ev, rust_call unpin movable copyable same_abi f xs c w = Some (r, w') /\
      correct_call same_abi f w xs ev /\ log w' = log w ++ [ev] /\ (forall a, objs w' a = objs w a).
  Proof.
    intros f xs c r w A Aw Fi Rt Fr. unfold rust_params, call_returns in *.
    unfold rust_call.
    assert (gen : f_kind f <> Constructor -> Forall2 (fits_param same_abi) (f_params f) xs ->
      returns same_abi (f_ret f) c r ->
      exists w' ev,
        match passing (f_ret f) with
        | AbiCompatible | OwnedPtr =>
            match thunk_args unpin same_abi (f_params f) xs w with
            | Some (words, drops, w1) =>
                match invoke' f None words c w1 with
                | Some (Some n, w2) => option_map (pair (RWord n)) (destroy_all w2 drops)
                | _ => None
                end
            | None => None
            end
        | VoidConv =>
            match thunk_args unpin same_abi (f_params f) xs w with
            | Some (words, drops, w1) =>
                match invoke' f None words c w1 with
                | Some (None, w2) => option_map (pair RUnit) (destroy_all w2 drops)
                | _ => None
                end
            | None => None
            end
        | LayoutCompatible | CtorConv =>
            let (slot, w0) := alloc w None in
            match thunk_args unpin same_abi (f_params f) xs w0 with
            | Some (words, drops, w1) =>
                match invoke' f (Some slot) words c w1 with
                | Some (None, w2) =>
                    match take_object w2 slot with
                    | Some (v, w3) => option_map (pair (ROwn v)) (destroy_all w3 drops)
                    | None => None
                    end
                | _ => None
                end
            | None => None
            end
        | ComposablyBridged =>
            let (slot, w0) := alloc w None in
            match thunk_args unpin same_abi (f_params f) xs w0 with
            | Some (words, drops, w1) =>
                match invoke' f (Some slot) words c w1 with
                | Some (None, w2) =>
                    match take_encoded w2 slot with
                    | Some (v, w3) => option_map (pair (ROwn v)) (destroy_all w3 drops)
                    | None => None
                    end
                | _ => None
                end
            | None => None
            end
        end = Some (r, w') /\
        correct_call same_abi f w xs ev /\ log w' = log w ++ [ev] /\ (forall a, objs w' a = objs w a)).
    { clear Fi Rt. intros NC Fi Rt.
      destruct (slot_alloc w Fr) as (ws & Ea & La & Fa & Oa & Na).
      assert (Cv : (passing (f_ret f) = AbiCompatible \/ passing (f_ret f) = OwnedPtr \/ passing (f_ret f) = VoidConv) \/
                   (passing (f_ret f) = LayoutCompatible \/ passing (f_ret f) = CtorConv \/ passing (f_ret f) = ComposablyBridged))
        by (destruct (passing (f_ret f)); tauto).
      destruct Cv as [Cv|Cv].
      - destruct (thunk_args_ok unpin movable copyable same_abi _ _ Fi w) as (ns & sl & w1 & Et & P & L1 & N1 & Nd & I & O & _).
        assert (R : ready w w1 sl) by (unfold ready; auto).
        destruct (invoke_plain f xs ns sl c r w w1 A NC Aw Fi P R Fr Rt Cv) as (ev & w2 & Ei & Cc & L2 & O2).
        destruct (finish_ok w w1 w2 sl Fr R (prepared_no_moved _ _ _ _ _ _ P) O2) as (w3 & Ed & L3 & O3).
        exists w3, ev. rewrite Et, Ei, Ed.
        pose proof (returns_by_convention unpin same_abi _ _ _ Rt) as Rc.
        split; [|split; [exact Cc|split; [congruence|exact O3]]].
        destruct Cv as [Cv|[Cv|Cv]]; rewrite Cv in *.
        + destruct Rc as (n & -> & Rc). reflexivity.
        + destruct Rc as (n & -> & Rc). reflexivity.
        + destruct Rc as [-> ->]. reflexivity.
      - destruct (thunk_args_ok unpin movable copyable same_abi _ _ Fi ws) as (ns & sl & w1 & Et & P & L1 & N1 & Nd & I & O & _).
        assert (R : ready ws w1 sl) by (unfold ready; auto).
        destruct (invoke_out f xs ns sl c r ws w1 (nxt w) A NC Aw Fi P R Fa Rt Cv) as (ev & w2 & v & -> & Ei & Cc & L2 & O2).
        assert (Ns : objs ws (nxt w) = None) by (rewrite Oa; apply Fr; lia).
        assert (Ls : nxt w < nxt ws) by lia.
        rewrite Ea, Et, Ei.
        destruct Cv as [Cv|[Cv|Cv]]; rewrite Cv in *.
        + destruct (finish_ok ws w1 (set (set w2 (nxt w) (Some (Obj v))) (nxt w) None) sl Fa R
            (prepared_no_moved _ _ _ _ _ _ P) (slot_taken _ _ _ _ _ _ R Ls Ns O2)) as (w3 & Ed & L3 & O3).
          exists w3, ev. unfold take_object. unfold set at 1. cbn [objs]. rewrite Nat.eqb_refl. rewrite Ed.
          split; [reflexivity|]. split; [eapply correct_call_objs; eassumption|].
          split; [rewrite L3; unfold set; cbn [log]; congruence|]. intros a. rewrite O3. apply Oa.
        + destruct (finish_ok ws w1 (set (set w2 (nxt w) (Some (Obj v))) (nxt w) None) sl Fa R
            (prepared_no_moved _ _ _ _ _ _ P) (slot_taken _ _ _ _ _ _ R Ls Ns O2)) as (w3 & Ed & L3 & O3).
          exists w3, ev. unfold take_object. unfold set at 1. cbn [objs]. rewrite Nat.eqb_refl. rewrite Ed.
          split; [reflexivity|]. split; [eapply correct_call_objs; eassumption|].
          split; [rewrite L3; unfold set; cbn [log]; congruence|]. intros a. rewrite O3. apply Oa.
        + destruct (finish_ok ws w1 (set (set w2 (nxt w) (Some (Encoded v))) (nxt w) None) sl Fa R
            (prepared_no_moved _ _ _ _ _ _ P) (slot_taken _ _ _ _ _ _ R Ls Ns O2)) as (w3 & Ed & L3 & O3).
          exists w3, ev. unfold take_encoded. unfold set at 1. cbn [objs]. rewrite Nat.eqb_refl. rewrite Ed.
          split; [reflexivity|]. split; [eapply correct_call_objs; eassumption|].
          split; [rewrite L3; unfold set; cbn [log]; congruence|]. intros a. rewrite O3. apply Oa. }
    destruct (f_kind f) eqn:Fk; try (apply gen; [discriminate|assumption|assumption]).
    clear gen. destruct Rt as (v & -> & ->).
    pose proof A as (_ & _ & K). rewrite Fk in K. destruct K as ((t & ts & Ep) & Er).
    rewrite Ep in Fi. cbn [tl] in Fi.
    destruct (slot_alloc w Fr) as (ws & Ea & La & Fa & Oa & Na).
    rewrite Ea. 
    destruct (thunk_args_ok unpin movable copyable same_abi _ _ Fi ws) as (ns & sl & w1 & Et & P & L1 & N1 & Nd & I & O & _).
    assert (R : ready ws w1 sl) by (unfold ready; auto).
    assert (Ns : objs ws (nxt w) = None) by (rewrite Oa; apply Fr; lia).
    assert (Ls : nxt w < nxt ws) by lia.
    assert (Iv : exists ev w2, invoke' f None (nxt w :: ns) (CObj v) w1 = Some (None, set w2 (nxt w) (Some (Obj v))) /\
      correct_call same_abi f ws xs ev /\ log w2 = log w1 ++ [ev] /\
      (forall b, objs w2 b = after sl (objs w1) b)).
    { unfold invoke. destruct (can_skip_cc_thunk same_abi f) eqn:Sk.
      - destruct (skip_facts f Sk) as (Nv & Cr & Cps). rewrite Ep in Cps. apply andb_prop in Cps. destruct Cps as [_ Cps].
        destruct (direct_args unpin same_abi _ _ _ _ P Fi Cps) as (-> & gs & Eg & Ag).
        unfold run_direct. rewrite Fk, Ep. cbn [tl]. rewrite Eg.
        eexists. eexists. split; [reflexivity|]. split; [|split; reflexivity].
        constructor; auto. rewrite Ep. exact Ag.
      - destruct (generate_facts f A) as (es & call & th & Ee & Ec & Et' & Tp & Tc & Tr).
        rewrite Et'. unfold run_cc_thunk. rewrite Tp, Tc.
        destruct (perform_ctor_ok unpin movable copyable same_abi f xs ns sl es call ws w1 (nxt w) t ts A Fk Ep Aw Fi P Ee Ec R Fa Ns)
          as (ev & w2 & Epf & Cc & L & O').
        rewrite Epf. exists ev, w2. auto. }
    destruct Iv as (ev & w2 & Ei & Cc & L2 & O2).
    rewrite Ep. cbn [tl]. rewrite Et, Ei.
    destruct (finish_ok ws w1 (set (set w2 (nxt w) (Some (Obj v))) (nxt w) None) sl Fa R
            (prepared_no_moved _ _ _ _ _ _ P) (slot_taken _ _ _ _ _ _ R Ls Ns O2)) as (w3 & Ed & L3 & O3).
    exists w3, ev. unfold take_object. unfold set at 1. cbn [objs]. rewrite Nat.eqb_refl. rewrite Ed.
    split; [reflexivity|]. split; [eapply correct_call_objs; eassumption|].
    split; [rewrite L3; unfold set; cbn [log]; congruence|]. intros a. rewrite O3. apply Oa.
  Qed.
End Env.
