(** C95-C99: traits of generated records. *)
From Coq Require Import List Bool Arith Lia.
From Verif Require Import RecordTraits.Cpp RecordTraits.Model RecordTraits.Spec.
Import ListNotations.

(** * C95 *)
Definition go_down (p : list nat) := fix go k (l : list (attr * ty)) := match l with [] => [] | f :: r => go (S k) r ++ destroy (p ++ [k]) (snd f) end.
Definition go_bases (p : list nat) := fix go k (l : list ty) := match l with [] => [] | b :: r => go (S k) r ++ destroy (p ++ [k]) b end.
Lemma destroy_rec p i bs fs : destroy p (Rec i bs fs) =
  (if user_dtor i then [(p, id i)] else []) ++ (if is_union i then [] else go_down p (length bs) fs) ++ go_bases p 0 bs.
Proof. reflexivity. Qed.
Definition glue (i : info) bs fs (p : list nat) := fix go k (l : list (attr * ty)) :=
  match l with
  | [] => []
  | f :: r => match field_definition i bs fs f with Typed false _ _ => drop (p ++ [k]) (snd f) | _ => [] end ++ go (S k) r
  end.
Lemma drop_rec p i bs fs : drop p (Rec i bs fs) =
  (if should_implement_drop i bs fs then destroy p (Rec i bs fs) else []) ++ (if thread_safe i || is_union i then [] else glue i bs fs p (length bs) fs).
Proof. reflexivity. Qed.

Lemma go_down_nil p k fs : (forall f q, In f fs -> destroy q (snd f) = []) -> go_down p k fs = [].
Proof. revert k. induction fs as [|f fs IH]; intros k H; [reflexivity|]. cbn [go_down]. rewrite (H f) by (left; reflexivity). change (go_down p (S k) fs ++ [] = []). rewrite IH; [reflexivity|]. intros; apply H; right; assumption. Qed.
Lemma go_bases_nil p k bs : (forall b q, In b bs -> destroy q b = []) -> go_bases p k bs = [].
Proof. revert k. induction bs as [|f fs IH]; intros k H; [reflexivity|]. cbn [go_bases]. rewrite (H f) by (left; reflexivity). change (go_bases p (S k) fs ++ [] = []). rewrite IH; [reflexivity|]. intros; apply H; right; assumption. Qed.
Lemma glue_nil i bs fs p k l : (forall f q c, In f l -> field_definition i bs fs f = Typed false c (snd f) -> drop q (snd f) = []) -> glue i bs fs p k l = [].
Proof.
  revert k. induction l as [|f l IH]; intros k H; [reflexivity|]. cbn [glue].
  change (match field_definition i bs fs f with Typed false _ _ => drop (p ++ [k]) (snd f) | _ => [] end ++ glue i bs fs p (S k) l = []).
  rewrite IH; [|intros; eapply H; [right; eassumption|eassumption]]. rewrite app_nil_r.
  destruct (field_definition i bs fs f) as [m|[] c t] eqn:E; try reflexivity.
  apply (H f _ c); [left; reflexivity|]. rewrite E. f_equal.
  unfold field_definition, layout_type in E. destruct (negb (known _)); [discriminate|]. destruct (_ && _ && _ && _); [discriminate|].
  inversion E. reflexivity.
Qed.

Lemma trivial_destroy t : trivial_dtor t = true -> forall p, destroy p t = [].
Proof.
  induction t as [| |n c k d|i bs fs IHb IHf] using ty_induction; intros T p; try reflexivity.
  - cbn in T |- *. destruct d; [discriminate|reflexivity].
  - cbn [trivial_dtor] in T. apply andb_prop in T as [T Tf]. apply andb_prop in T as [U Tb].
    rewrite forallb_forall in Tb, Tf. rewrite Forall_forall in IHb, IHf. rewrite destroy_rec.
    apply negb_true_iff in U. rewrite U. rewrite go_bases_nil by auto.
    destruct (is_union i); [reflexivity|]. rewrite go_down_nil by auto. reflexivity.
Qed.
Lemma trivial_no_drop i bs fs : trivial_dtor (Rec i bs fs) = true -> should_implement_drop i bs fs = false.
Proof. intros T. unfold should_implement_drop, destructor, special_member. rewrite T. destruct (dtor_ok i); reflexivity. Qed.
Lemma trivial_drop t : trivial_dtor t = true -> forall p, drop p t = [].
Proof.
  induction t as [| |n c k d|i bs fs IHb IHf] using ty_induction; intros T p; try reflexivity.
  - cbn in T |- *. destruct d; [discriminate|reflexivity].
  - rewrite drop_rec, trivial_no_drop by assumption. cbn [app].
    cbn [trivial_dtor] in T. apply andb_prop in T as [T Tf]. rewrite forallb_forall in Tf. rewrite Forall_forall in IHf.
    destruct (thread_safe i || is_union i); [reflexivity|]. apply glue_nil. auto.
Qed.

Lemma definition_known i bs fs f md c t : field_definition i bs fs f = Typed md c t -> known (fst f) = true /\ t = snd f.
Proof.
  unfold field_definition, layout_type. destruct (known (fst f)); cbn [negb]; [|discriminate].
  destruct (_ && _ && _ && _); [discriminate|]. intros E; inversion E. auto.
Qed.
Lemma accepted_field i bs fs f : accepted (Rec i bs fs) = true -> In f fs -> known (fst f) = true -> accepted (snd f) = true.
Proof.
  cbn [accepted]. intros A Hf K. apply andb_prop in A as [_ A]. rewrite forallb_forall in A. specialize (A f Hf). rewrite K in A. exact A.
Qed.
Lemma law_field i bs fs f : rust_law (Rec i bs fs) = true -> In f fs -> rust_law (snd f) = true.
Proof. cbn [rust_law]. intros A Hf. apply andb_prop in A as [_ A]. rewrite forallb_forall in A. exact (A f Hf). Qed.

(** A type that rustc accepts as Copy has nothing to drop. *)
Lemma copy_drops_nothing t : accepted t = true -> rust_law t = true -> rust_copy t = true -> forall p, drop p t = [].
Proof.
  induction t as [| |n c k d|i bs fs IHb IHf] using ty_induction; intros A L C p; try reflexivity.
  - cbn in *. subst c. destruct d; [rewrite andb_false_r in L; discriminate|reflexivity].
  - cbn [rust_copy] in C. assert (D : derive_copy_accepted i bs fs = true).
    { cbn [accepted] in A. apply andb_prop in A as [A _]. unfold accepted_here in A.
      apply andb_prop in A as [A _]. apply andb_prop in A as [A _]. apply andb_prop in A as [A _]. rewrite C in A. exact A. }
    unfold derive_copy_accepted, generated_fields in D. destruct (thread_safe i) eqn:TS; [discriminate|].
    apply andb_prop in D as [D N]. apply negb_true_iff in N. rewrite drop_rec, N. cbn [app].
    destruct (thread_safe i || is_union i); [reflexivity|]. apply glue_nil. intros f q c Hf E.
    rewrite Forall_forall in IHf. destruct (definition_known _ _ _ _ _ _ _ E) as [K _].
    apply IHf; auto.
    + eapply accepted_field; eauto.
    + eapply law_field; eauto.
    + rewrite forallb_app in D. apply andb_prop in D as [_ D]. rewrite forallb_forall in D.
      specialize (D (field_definition i bs fs f) (in_map _ _ _ Hf)). rewrite E in D. cbn in D. apply andb_prop in D. tauto.
Qed.

(** If the generated code compiles, then dropping the Rust value runs exactly the destructors, on the same subobjects and in
    the same order, that destroying the C++ object runs. *)
Theorem C95_drop_is_destroy i bs fs p :
  let t := Rec i bs fs in
  accepted t = true -> rust_law t = true -> dtor_ok i = true -> drop p t = destroy p t.
Proof.
  cbv zeta. intros A L O. destruct (trivial_dtor (Rec i bs fs)) eqn:T.
  - rewrite trivial_drop, trivial_destroy by assumption. reflexivity.
  - assert (S : should_implement_drop i bs fs = true).
    { unfold should_implement_drop, destructor, special_member. rewrite O, T. destruct (user_dtor i); reflexivity. }
    rewrite drop_rec, S.
    replace (if thread_safe i || is_union i then [] else _) with (@nil event); [apply app_nil_r|].
    destruct (thread_safe i) eqn:TS; [reflexivity|]. destruct (is_union i) eqn:U; [reflexivity|]. cbn [orb].
    symmetry. apply glue_nil. intros f q c Hf E.
    destruct (definition_known _ _ _ _ _ _ _ E) as [K _].
    apply copy_drops_nothing; [eapply accepted_field; eauto | eapply law_field; eauto |].
    cbn [accepted] in A. apply andb_prop in A as [A _]. unfold accepted_here in A. apply andb_prop in A as [_ A].
    rewrite TS in A. cbn [orb] in A. rewrite forallb_forall in A. apply A.
    unfold must_be_copy. apply in_flat_map. exists f. split; [assumption|].
    unfold field_definition in E. destruct (layout_type i bs fs f) as [t|] eqn:LT; [|discriminate]. inversion E; subst.
    rewrite S, U in *. cbn [orb andb] in *. destruct (needs_manually_drop (snd f)); [discriminate|]. left. reflexivity.
Qed.
Print Assumptions C95_drop_is_destroy.

(** And each runs once. *)
Lemma destroy_prefix t : forall p e, In e (destroy p t) -> exists s, fst e = p ++ s.
Proof.
  induction t as [| |n c k d|i bs fs IHb IHf] using ty_induction; intros p e; try (intros []).
  - cbn. destruct d; [|intros []]. intros [<-|[]]. exists []. symmetry. apply app_nil_r.
  - rewrite destroy_rec, !in_app_iff. rewrite Forall_forall in IHb, IHf. intros [H|[H|H]].
    + destruct (user_dtor i); [|destruct H]. destruct H as [<-|[]]. exists []. symmetry. apply app_nil_r.
    + destruct (is_union i); [destruct H|]. revert H. generalize (length bs) as k.
      induction fs as [|f fs IH]; intros k H; [destruct H|]. change (In e (go_down p (S k) fs ++ destroy (p ++ [k]) (snd f))) in H.
      apply in_app_or in H as [H|H].
      * apply (IH (fun x Hx => IHf x (or_intror Hx)) (S k) H).
      * destruct (IHf f (or_introl eq_refl) _ _ H) as [s E]. exists (k :: s). rewrite E, <- app_assoc. reflexivity.
    + revert H. generalize 0 as k.
      induction bs as [|f bs IH]; intros k H; [destruct H|]. change (In e (go_bases p (S k) bs ++ destroy (p ++ [k]) f)) in H.
      apply in_app_or in H as [H|H].
      * apply (IH (fun x Hx => IHb x (or_intror Hx)) (S k) H).
      * destruct (IHb f (or_introl eq_refl) _ _ H) as [s E]. exists (k :: s). rewrite E, <- app_assoc. reflexivity.
Qed.
Lemma go_down_prefix p fs : forall k e, In e (go_down p k fs) -> exists j s, k <= j < k + length fs /\ fst e = p ++ j :: s.
Proof.
  induction fs as [|f fs IH]; intros k e H; [destruct H|]. change (In e (go_down p (S k) fs ++ destroy (p ++ [k]) (snd f))) in H.
  apply in_app_or in H as [H|H].
  - destruct (IH _ _ H) as (j & s & J & E). exists j, s. cbn [length]. split; [lia|assumption].
  - destruct (destroy_prefix _ _ _ H) as [s E]. exists k, s. cbn [length]. split; [lia|]. rewrite E, <- app_assoc. reflexivity.
Qed.
Lemma go_bases_prefix p fs : forall k e, In e (go_bases p k fs) -> exists j s, k <= j < k + length fs /\ fst e = p ++ j :: s.
Proof.
  induction fs as [|f fs IH]; intros k e H; [destruct H|]. change (In e (go_bases p (S k) fs ++ destroy (p ++ [k]) f)) in H.
  apply in_app_or in H as [H|H].
  - destruct (IH _ _ H) as (j & s & J & E). exists j, s. cbn [length]. split; [lia|assumption].
  - destruct (destroy_prefix _ _ _ H) as [s E]. exists k, s. cbn [length]. split; [lia|]. rewrite E, <- app_assoc. reflexivity.
Qed.
Lemma path_inj (p s s' : list nat) j j' : p ++ j :: s = p ++ j' :: s' -> j = j'.
Proof. intros E. apply app_inv_head in E. congruence. Qed.
Lemma path_longer (p s : list nat) j : p <> p ++ j :: s.
Proof. intros E. apply (f_equal (@length nat)) in E. rewrite app_length in E. cbn in E. lia. Qed.
Lemma NoDup_app' {A} (l m : list A) : NoDup l -> NoDup m -> (forall x, In x l -> In x m -> False) -> NoDup (l ++ m).
Proof.
  induction l as [|a l IH]; intros N M D; [assumption|]. inversion N; subst. cbn. constructor.
  - rewrite in_app_iff. intros [H|H]; [contradiction|]. apply (D a); [left; reflexivity|assumption].
  - apply IH; auto. intros x X Y. apply (D x); [right; assumption|assumption].
Qed.
Lemma destroy_nodup t : forall p, NoDup (destroy p t).
Proof.
  induction t as [| |n c k d|i bs fs IHb IHf] using ty_induction; intros p; try constructor.
  - cbn. destruct d; repeat constructor. intros [].
  - rewrite destroy_rec. rewrite Forall_forall in IHb, IHf.
    assert (Nf : forall k, NoDup (go_down p k fs)).
    { clear IHb. induction fs as [|f fs IH]; intros k; [constructor|]. change (NoDup (go_down p (S k) fs ++ destroy (p ++ [k]) (snd f))).
      apply NoDup_app'; [apply IH; intros; apply IHf; right; assumption | apply IHf; left; reflexivity|].
      intros e X Y. destruct (go_down_prefix _ _ _ _ X) as (j & s & J & E). destruct (destroy_prefix _ _ _ Y) as [s' E'].
      rewrite <- app_assoc in E'. rewrite E in E'. apply path_inj in E'. lia. }
    assert (Nb : forall k, NoDup (go_bases p k bs)).
    { clear IHf Nf. induction bs as [|f bs IH]; intros k; [constructor|]. change (NoDup (go_bases p (S k) bs ++ destroy (p ++ [k]) f)).
      apply NoDup_app'; [apply IH; intros; apply IHb; right; assumption | apply IHb; left; reflexivity|].
      intros e X Y. destruct (go_bases_prefix _ _ _ _ X) as (j & s & J & E). destruct (destroy_prefix _ _ _ Y) as [s' E'].
      rewrite <- app_assoc in E'. rewrite E in E'. apply path_inj in E'. lia. }
    apply NoDup_app'; [| apply NoDup_app' |].
    + destruct (user_dtor i); repeat constructor. intros [].
    + destruct (is_union i); [constructor|apply Nf].
    + apply Nb.
    + destruct (is_union i); [intros ? []|]. intros e X Y.
      destruct (go_down_prefix _ _ _ _ X) as (j & s & J & E). destruct (go_bases_prefix _ _ _ _ Y) as (j' & s' & J' & E').
      rewrite E in E'. apply path_inj in E'. lia.
    + intros e X Y. destruct (user_dtor i); [|destruct X]. destruct X as [<-|[]].
      apply in_app_or in Y as [Y|Y].
      * destruct (is_union i); [destruct Y|]. destruct (go_down_prefix _ _ _ _ Y) as (j & s & _ & E). exact (path_longer _ _ _ E).
      * destruct (go_bases_prefix _ _ _ _ Y) as (j & s & _ & E). exact (path_longer _ _ _ E).
Qed.
Theorem C95_each_destructor_once i bs fs p :
  accepted (Rec i bs fs) = true -> rust_law (Rec i bs fs) = true -> dtor_ok i = true -> NoDup (drop p (Rec i bs fs)).
Proof. intros. rewrite C95_drop_is_destroy by assumption. apply destroy_nodup. Qed.
Print Assumptions C95_each_destructor_once.

Definition plain_info n := Info n false false true false false true false true false false true false Unset Unset true.
Definition with_dtor i := Info (id i) false false true false true true true true false false false false Unset Unset true.
Definition string_like := Rec (with_dtor (plain_info 7)) [] [(Attr true false, Plain)].
Definition holder := Rec (with_dtor (plain_info 8)) [] [(Attr true false, string_like); (Attr true false, Plain); (Attr true false, string_like)].
Example C95_example : accepted holder = true /\ rust_law holder = true /\ drop [] holder = [([], 8); ([2], 7); ([0], 7)].
Proof. repeat split. Qed.

(** A class that cannot be destroyed: its fields are destroyed by Rust although nothing in C++ may do so. *)
Theorem C95_private_destructor_refuted : exists i bs fs, accepted (Rec i bs fs) = true /\ dtor_ok i = false /\ user_dtor i = true
  /\ drop [] (Rec i bs fs) = [([0], 7)].
Proof.
  exists (Info 9 false false true false true false false false false false true false Unset Unset true), [], [(Attr true false, string_like)].
  repeat split.
Qed.
Print Assumptions C95_private_destructor_refuted.

(** * C96 *)
Lemma ordinary_copy t : ordinary_member t -> trivial_copy t = true -> trivial_dtor t = true -> rust_copy t = true.
Proof.
  destruct t as [| |n c k d|i bs fs]; intros O C D; [reflexivity|destruct O|exact (proj1 O)|].
  destruct O as (TS & P & Q & DO & CO & AB & M & R). cbn [rust_copy]. unfold should_derive_copy, by_value_ok, destructor, copy_constructor, special_member.
  rewrite TS, P, Q, DO, CO, C, D, AB. unfold is_unpin. rewrite (R C D). cbn.
  apply forallb_forall. intros f Hf. rewrite Forall_forall in M. rewrite (M f Hf). reflexivity.
Qed.
Lemma ordinary_clone i fs f t : abi_law i fs -> can_pass_in_registers i = true -> In (f, t) fs -> ordinary_member t -> trivial_copy t = true -> rust_clone t = true.
Proof.
  destruct t as [| |n c k d|j bs' fs']; intros A CP Hf O C; try reflexivity; try (destruct O; fail).
  - exact (proj2 O).
  - destruct O as (TS & P & Q & DO & CO & AB & M & R). cbn [rust_clone].
    assert (U : is_unpin j = true).
    { unfold is_unpin. destruct (trivial_dtor (Rec j bs' fs')) eqn:D; [apply R; auto|]. apply (A CP f j bs' fs'); assumption. }
    unfold by_value_ok, destructor, copy_constructor, special_member. rewrite U, DO, CO, C, AB. cbn [negb andb].
    destruct (trivial_dtor _), (user_dtor j); cbn; apply orb_true_r.
Qed.
Lemma parts_trivial i bs fs f : In f fs -> (trivial_copy (Rec i bs fs) = true -> trivial_copy (snd f) = true) /\ (trivial_dtor (Rec i bs fs) = true -> trivial_dtor (snd f) = true).
Proof.
  intros Hf. split; intros T; cbn in T; apply andb_prop in T as [_ T]; rewrite forallb_forall in T; exact (T f Hf).
Qed.
Lemma is_trivial_special ok triv user : is_trivial (special_member ok triv user) = true -> ok = true /\ triv = true.
Proof. unfold special_member. destruct ok, triv, user; cbn; intros; split; congruence. Qed.
Lemma derived_copy_trivial i bs fs : derive_copy i = Unset -> should_derive_copy i bs fs = true ->
  thread_safe i = false /\ trivial_copy (Rec i bs fs) = true /\ trivial_dtor (Rec i bs fs) = true /\ can_pass_in_registers i = true
  /\ forallb (fun f : attr * ty => negb (is_mutable (fst f))) fs = true.
Proof.
  intros P. unfold should_derive_copy. destruct (thread_safe i); [discriminate|]. rewrite P. intros H.
  apply andb_prop in H as [H M]. apply andb_prop in H as [H _]. apply andb_prop in H as [H _]. apply andb_prop in H as [H D].
  apply andb_prop in H as [U C]. apply is_trivial_special in C, D. tauto.
Qed.

(** The [derive(Clone, Copy)] of a record without annotations of its own, whose members with bindings are ordinary, is
    accepted by rustc.  Missing: members that are not ordinary; each case is refuted below. *)
Theorem C96_derives_compile_partial i bs fs :
  no_annotations i -> abi_law i fs ->
  (forall f, In f fs -> known (fst f) = true -> ordinary_member (snd f)) ->
  (forall f, In f fs -> known (fst f) = true -> is_mutable (fst f) = true -> trivial_dtor (snd f) = true) ->
  (should_derive_copy i bs fs = true -> derive_copy_accepted i bs fs = true)
  /\ (should_derive_clone i bs fs = true -> derive_clone_accepted i bs fs = true).
Proof.
  intros [P Q] A O M. split; intros S.
  - destruct (derived_copy_trivial i bs fs P S) as (TS & C & D & U & MM).
    unfold derive_copy_accepted, generated_fields. rewrite TS. rewrite trivial_no_drop by assumption.
    rewrite andb_true_r, forallb_app. apply andb_true_intro. split.
    + unfold head_padding. destruct (_ || _ || _); [|reflexivity]. rewrite S. reflexivity.
    + apply forallb_forall. intros x Hx. apply in_map_iff in Hx as (f & <- & Hf).
      unfold field_definition. destruct (layout_type i bs fs f) as [t|] eqn:L.
      * assert (K : known (fst f) = true /\ t = snd f).
        { unfold layout_type in L. destruct (known (fst f)); cbn [negb] in L; [|discriminate]. destruct (_ && _ && _ && _); [discriminate|]. inversion L; auto. }
        destruct K as [K ->]. cbn [field_copy]. rewrite forallb_forall in MM. rewrite (MM f Hf).
        destruct (parts_trivial i bs fs f Hf) as [X Y]. rewrite (ordinary_copy (snd f)); auto.
      * cbn [field_copy]. rewrite S. reflexivity.
  - unfold should_derive_clone in S. destruct (thread_safe i) eqn:TS; [discriminate|]. rewrite Q in S.
    unfold derive_clone_accepted, generated_fields. rewrite TS.
    destruct (is_union i); [exact S|].
    apply andb_prop in S as [S _]. apply andb_prop in S as [U C]. apply is_trivial_special in C as [_ C].
    rewrite forallb_app. apply andb_true_intro. split.
    + unfold head_padding. destruct (_ || _ || _); reflexivity.
    + apply forallb_forall. intros x Hx. apply in_map_iff in Hx as (f & <- & Hf).
      unfold field_definition. destruct (layout_type i bs fs f) as [t|] eqn:L; [|reflexivity].
      assert (K : known (fst f) = true /\ t = snd f).
      { unfold layout_type in L. destruct (known (fst f)); cbn [negb] in L; [|discriminate]. destruct (_ && _ && _ && _); [discriminate|]. inversion L; auto. }
      destruct K as [K ->]. destruct (parts_trivial i bs fs f Hf) as [X _]. cbn [field_clone].
      destruct (is_mutable (fst f)) eqn:MU.
      * apply ordinary_copy; auto.
      * destruct f as [a t]. apply (ordinary_clone i fs a); auto.
Qed.
Print Assumptions C96_derives_compile_partial.

Definition pod n := Rec (plain_info n) [] [(Attr true false, Plain)].
Example C96_example : should_derive_copy (plain_info 2) [] [(Attr true false, pod 1); (Attr false false, Plain)] = true /\ ordinary_member (pod 1).
Proof. split; [reflexivity|]. cbn. repeat split. repeat constructor. Qed.

(** [struct B { mutable int x; }; struct A { B b; };] and others: the derive of [A] is an error. *)
Definition has_mutable := Rec (plain_info 1) [] [(Attr true true, Plain)].
Theorem C96_nested_mutable_refuted : should_derive_copy (plain_info 2) [] [(Attr true false, has_mutable)] = true
  /\ derive_copy_accepted (plain_info 2) [] [(Attr true false, has_mutable)] = false.
Proof. split; reflexivity. Qed.
Print Assumptions C96_nested_mutable_refuted.
Theorem C96_mutable_of_mutable_refuted : should_derive_clone (plain_info 2) [] [(Attr true true, has_mutable)] = true
  /\ derive_clone_accepted (plain_info 2) [] [(Attr true true, has_mutable)] = false.
Proof. split; reflexivity. Qed.
Print Assumptions C96_mutable_of_mutable_refuted.
Definition a_thread_safe := Rec (Info 1 false false true false false true false true false false true true Unset Unset true) [] [(Attr true false, Plain)].
Theorem C96_nested_thread_safe_refuted : should_derive_copy (plain_info 2) [] [(Attr true false, a_thread_safe)] = true
  /\ derive_copy_accepted (plain_info 2) [] [(Attr true false, a_thread_safe)] = false.
Proof. split; reflexivity. Qed.
Print Assumptions C96_nested_thread_safe_refuted.
(** A trivial destructor that is private, with the containing class as a friend. *)
Definition a_private_dtor := Rec (Info 1 false false true false false false false true false false true false Unset Unset true) [] [(Attr true false, Plain)].
Theorem C96_private_destructor_refuted : should_derive_copy (plain_info 2) [] [(Attr true false, a_private_dtor)] = true
  /\ derive_copy_accepted (plain_info 2) [] [(Attr true false, a_private_dtor)] = false.
Proof. split; reflexivity. Qed.
Print Assumptions C96_private_destructor_refuted.
(** [struct B { B(const B&) = default; B(B&&) {} }; struct A { A(const A&) = default; B b; };] *)
Definition a_user_move := Rec (Info 1 false false true false false true false true false true false false Unset Unset true) [] [(Attr true false, Plain)].
Theorem C96_user_move_refuted : should_derive_copy (plain_info 2) [] [(Attr true false, a_user_move)] = true
  /\ derive_copy_accepted (plain_info 2) [] [(Attr true false, a_user_move)] = false.
Proof. split; reflexivity. Qed.
Print Assumptions C96_user_move_refuted.
(** A reference member whose type has a lifetime (a reference without one is a pointer in Rust). *)
Theorem C96_mutable_reference_refuted : should_derive_copy (plain_info 2) [] [(Attr true false, MutRef)] = true
  /\ derive_copy_accepted (plain_info 2) [] [(Attr true false, MutRef)] = false.
Proof. split; reflexivity. Qed.
Print Assumptions C96_mutable_reference_refuted.

(** * C97 *)
(** A union has fields rustc allows.  Missing: the cases refuted below. *)
Theorem C97_union_fields_partial i bs fs :
  is_union i = true -> thread_safe i = false -> head i = false -> fs <> [] ->
  (forall f, In f fs -> is_mutable (fst f) = false) ->
  (should_derive_copy i bs fs = true \/ forall f, In f fs -> known (fst f) = true) ->
  (forall f n c k d, In f fs -> snd f = Existing n c k d -> c = true) ->
  union_accepted i bs fs = true.
Proof.
  intros U TS H NE M K E. unfold union_accepted, generated_fields. rewrite TS, U. cbn [negb orb].
  rewrite forallb_app. apply andb_true_intro. split.
  - unfold head_padding. rewrite H, U. destruct fs; [congruence|]. rewrite orb_true_r. reflexivity.
  - apply forallb_forall. intros x Hx. apply in_map_iff in Hx as (f & <- & Hf).
    unfold field_definition, layout_type. rewrite U. cbn [negb]. rewrite andb_false_r. cbn [andb].
    destruct (known (fst f)) eqn:KF; cbn [negb union_field_accepted].
    + rewrite (M f Hf), orb_true_r. cbn [andb]. unfold needs_manually_drop.
      destruct (implements_copy (snd f)) eqn:IC; cbn [negb orb]; [|reflexivity].
      destruct (snd f) as [| |n c k d|j bs' fs'] eqn:T; cbn in *; try congruence. apply (E f n c k d); assumption.
    + destruct K as [K|K]; [rewrite K; reflexivity|]. rewrite (K f Hf) in KF. discriminate.
Qed.
Print Assumptions C97_union_fields_partial.

Definition union_info n := Info n true false true false false true false true false false true false Unset Unset true.
Definition union_user_dtor n := Info n true false true false true true true true false false false false Unset Unset true.
Example C97_example : is_union (union_user_dtor 3) = true /\ union_accepted (union_user_dtor 3) [] [(Attr true false, Plain); (Attr true false, string_like)] = true
  /\ should_derive_copy (union_user_dtor 3) [] [(Attr true false, Plain); (Attr true false, string_like)] = false.
Proof. repeat split. Qed.

(** [union U { std::string s; char buffer\[16\]; U(); ~U(); };]: an array has no bindings, so it becomes a blob. *)
Theorem C97_opaque_member_refuted : union_accepted (union_user_dtor 3) [] [(Attr true false, string_like); (Attr false false, Plain)] = false.
Proof. reflexivity. Qed.
Print Assumptions C97_opaque_member_refuted.
(** It is so for every union that is not Copy and has a member without bindings. *)
Theorem C97_every_opaque_member_refuted i bs fs f :
  is_union i = true -> should_derive_copy i bs fs = false -> In f fs -> known (fst f) = false -> union_accepted i bs fs = false.
Proof.
  intros U S Hf K. unfold union_accepted, generated_fields. rewrite U. destruct (thread_safe i); [reflexivity|]. cbn [negb orb].
  apply not_true_iff_false. intros T. rewrite forallb_forall in T.
  specialize (T (field_definition i bs fs f)). rewrite in_app_iff in T. specialize (T (or_intror (in_map _ _ _ Hf))).
  unfold field_definition, layout_type in T. rewrite K in T. cbn in T. rewrite S in T. discriminate.
Qed.
Print Assumptions C97_every_opaque_member_refuted.
Theorem C97_mutable_member_refuted : union_accepted (union_info 3) [] [(Attr true true, Plain)] = false.
Proof. reflexivity. Qed.
Print Assumptions C97_mutable_member_refuted.
Theorem C97_empty_refuted : union_accepted (union_user_dtor 3) [] [] = false.
Proof. reflexivity. Qed.
Print Assumptions C97_empty_refuted.
Theorem C97_thread_safe_refuted i bs fs : is_union i = true -> thread_safe i = true -> union_accepted i bs fs = false.
Proof. intros U T. unfold union_accepted, generated_fields. rewrite T, U. reflexivity. Qed.
Print Assumptions C97_thread_safe_refuted.

(** * C98 *)
Lemma part_trivial_copy t u : part t u -> trivial_copy t = true -> trivial_copy u = true.
Proof.
  induction 1 as [t|i bs fs b t Hb _ IH|i bs fs f t Hf _ IH]; intros T; [assumption| |]; apply IH;
    cbn in T; apply andb_prop in T as [T Tf]; apply andb_prop in T as [_ Tb]; rewrite forallb_forall in Tf, Tb; auto.
Qed.
Lemma part_trivial_dtor t u : part t u -> trivial_dtor t = true -> trivial_dtor u = true.
Proof.
  induction 1 as [t|i bs fs b t Hb _ IH|i bs fs f t Hf _ IH]; intros T; [assumption| |]; apply IH;
    cbn in T; apply andb_prop in T as [T Tf]; apply andb_prop in T as [_ Tb]; rewrite forallb_forall in Tf, Tb; auto.
Qed.
(** Copying bits, which is what Rust does for Copy types, is what C++ does for every subobject, and none of them has a destructor. *)
Theorem C98_copy_is_bitwise i bs fs u : derive_copy i = Unset -> should_derive_copy i bs fs = true -> part (Rec i bs fs) u ->
  trivial_copy u = true /\ trivial_dtor u = true.
Proof.
  intros P S Q. destruct (derived_copy_trivial i bs fs P S) as (_ & C & D & _). split.
  - exact (part_trivial_copy _ _ Q C).
  - exact (part_trivial_dtor _ _ Q D).
Qed.
Print Assumptions C98_copy_is_bitwise.
(** The same for a derived Clone (the copy may have a destructor then). *)
Theorem C98_clone_is_bitwise i bs fs u : derive_copy i = Unset -> derive_clone i = Unset -> should_derive_clone i bs fs = true -> part (Rec i bs fs) u ->
  trivial_copy u = true.
Proof.
  intros P Q S. unfold should_derive_clone in S. destruct (thread_safe i); [discriminate|]. rewrite Q in S.
  destruct (is_union i).
  - intros X. exact (proj1 (C98_copy_is_bitwise i bs fs u P S X)).
  - apply andb_prop in S as [S _]. apply andb_prop in S as [_ C]. apply is_trivial_special in C as [_ C].
    intros X. exact (part_trivial_copy _ _ X C).
Qed.
Print Assumptions C98_clone_is_bitwise.
Example C98_example : part (Rec (plain_info 2) [] [(Attr true false, pod 1)]) (pod 1) /\ should_derive_copy (plain_info 2) [] [(Attr true false, pod 1)] = true.
Proof. split; [|reflexivity]. eapply part_field; [left; reflexivity|]. apply part_self. Qed.
(** Assignment: [struct S { S(const S&) = default; S& operator=(const S&); };] is Copy, and assigning it from Rust does not run the
    operator, which C++ code always does. *)
Theorem C98_assignment_operator_refuted : exists i bs fs, user_assign i = true /\ accepted (Rec i bs fs) = true /\ assign i bs fs = Memcpy.
Proof.
  exists (Info 1 false false true false false true false true true false true false Unset Unset true), [], [(Attr true false, Plain)]. repeat split.
Qed.
Print Assumptions C98_assignment_operator_refuted.
(** Assignments of all other types run it. *)
Theorem C98_assignment_partial i bs fs : derive_copy i = Unset ->
  (trivial_copy (Rec i bs fs) = false \/ trivial_dtor (Rec i bs fs) = false \/ can_pass_in_registers i = false) -> assign i bs fs = Call_operator.
Proof.
  intros P H. unfold assign. destruct (is_unpin i); [|reflexivity]. destruct (should_derive_copy i bs fs) eqn:S; [|reflexivity].
  destruct (derived_copy_trivial i bs fs P S) as (_ & C & D & U & _). destruct H as [H|[H|H]]; congruence.
Qed.
Print Assumptions C98_assignment_partial.

(** * C99 *)
Lemma body_after_fields fs l : body_ok false (flat_map (fun f => [Field f; Comma]) fs ++ l) = body_ok false l.
Proof. induction fs as [|f fs IH]; [reflexivity|]. exact IH. Qed.
(** The body of a struct with at most one lifetime parameter parses; *)
Theorem C99_struct_body_parses_partial fs ls : length ls <= 1 -> body_ok false (struct_body fs ls) = true.
Proof.
  intros L. unfold struct_body. rewrite body_after_fields. destruct ls as [|x [|y ls]]; try reflexivity. cbn in L. lia.
Qed.
Print Assumptions C99_struct_body_parses_partial.
(** with two or more it never does. *)
Theorem C99_two_lifetimes_refuted fs a b ls : body_ok false (struct_body fs (a :: b :: ls)) = false.
Proof. unfold struct_body. rewrite body_after_fields. reflexivity. Qed.
Print Assumptions C99_two_lifetimes_refuted.
Example C99_example : body_ok false (struct_body [1; 2] [3]) = true. Proof. reflexivity. Qed.
