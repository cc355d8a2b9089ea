(** C103: public items do not mention types of the crate; C104: every path can be resolved; C105: opting in to unsupported types. *)
From Coq Require Import List Bool Arith Lia.
From Verif Require Import Visibility.Model Visibility.Spec Visibility.Proofs.
Import ListNotations.

Lemma hb_record_public features r : type_target_restriction_shallow features (TRecord r) = None -> record_has_bindings features r <> Some PubCrate.
Proof. intros S. unfold record_has_bindings. destruct (supported_in _ _ _); [|discriminate]. rewrite (proj1 (record_visibility features r) S). discriminate. Qed.
Lemma hb_record_private features r : record_has_bindings features r = Some PubCrate ->
  has_unique_owning_target r = false /\ type_target_restriction_shallow features (TRecord r) = Some (r_owner r).
Proof.
  intros H. destruct (type_target_restriction_shallow features (TRecord r)) as [a|] eqn:S; [|now apply hb_record_public in S].
  assert (E := proj1 (proj2 (record_visibility features r) a S)). subst a. split; [|reflexivity].
  unfold type_target_restriction_shallow in S. cbn [unalias] in S. now destruct (has_unique_owning_target r).
Qed.

(** * C103 *)
(** Everything generated with [pub] in the target being built, except implementations of traits that are public anyway: no type in it is a
    [pub(crate)] struct, provided that vocabulary types and bridges have no type arguments. *)
Theorem C103_public_items_partial features g t r : emitted features g = Some Public -> (forall f, g <> GTraitImpl true f) ->
  In t (types_of g) -> instantiated_in (owner_of g) t -> plain t -> made_of t (TRecord r) -> record_has_bindings features r <> Some PubCrate.
Proof.
  intros E NT I L P M.
  assert (V : type_visibility features (owner_of g) t = Some Public \/ type_visibility features (owner_of g) (TAlias (owner_of g) t) = Some Public).
  { destruct g as [f|ap f|o u|o u|o pb [u|]]; cbn [emitted types_of owner_of] in *.
    - left. unfold func_has_bindings in E. destruct (negb _); [discriminate|]. destruct (_ && _); [discriminate|]. eapply func_visibility_public; eauto.
    - left. destruct (func_has_bindings features f) as [[]|] eqn:F; [|destruct ap; [now destruct (NT f)|discriminate]|discriminate].
      unfold func_has_bindings in F. destruct (negb _); [discriminate|]. destruct (_ && _); [discriminate|]. eapply func_visibility_public; eauto.
    - left. now destruct I as [->|[]].
    - right. destruct I as [->|[]]. unfold alias_has_bindings in E. destruct (supported_in _ _ _); [|discriminate].
      destruct (type_visibility features o (TAlias o t)) as [v|]; [|discriminate]. exact E.
    - left. destruct I as [->|[]]. destruct pb; [|discriminate]. destruct (visibility_total features t o L) as (v & Ev). rewrite Ev in *. exact E.
    - discriminate. }
  apply hb_record_public. destruct V as [V|V]; eapply public_parts; try exact V.
  - now apply made_of_pre.
  - cbn [pre]. right. now apply made_of_pre.
Qed.
Print Assumptions C103_public_items_partial.
(** A target with the feature :wrapper only.  Template<int> in it is pub(crate), and so is a function that takes it by pointer, a field ... *)
Definition wrapper_only (g : nat) : feats := Feats true true false false.
Definition template_int := Rec true false 0 0.
Example C103_example :
  record_has_bindings wrapper_only template_int = Some PubCrate
  /\ emitted wrapper_only (GFunc (Func 0 None false false [TPtr (TRecord template_int); TPrim] TPrim)) = Some PubCrate
  /\ emitted wrapper_only (GFunc (Func 0 None false false [TPtr (TRecord (Rec false false 1 0)); TPrim] TPrim)) = Some Public
  /\ emitted wrapper_only (GField 0 true (Some (TRecord template_int))) = Some PubCrate.
Proof. vm_compute. auto. Qed.

(** In every target: a function that returns std::vector<T>, std::unique_ptr<T> ..., a bridge with argument T, or an existing Rust type
    with argument T, where T is a [pub(crate)] template instantiation, is [pub].  (So it is in the golden file
    composable_bridging_template_type_rs_api.rs.) *)
Lemma public_leaf features o t : f_types (features o) = true -> pre t = [t] -> kind_supported (features o) t = true ->
  type_target_restriction_shallow features t = None -> first_error [t] = None -> emitted features (GFunc (Func o None false false [] t)) = Some Public.
Proof.
  intros T P K S F. cbn [emitted]. unfold func_has_bindings, func_features_ok, func_visibility, supported_in, targets_of, type_supported. cbn [fn_destructor fn_owner fn_defining fn_params fn_ret app forallb fn_template_member].
  rewrite dfs_iter_pre, P, T. cbn [forallb]. rewrite K. cbn [andb negb fold_left]. unfold type_visibility, type_target_restriction. rewrite dfs_iter_pre, P. cbn [fold_left]. now rewrite S, F.
Qed.
Theorem C103_arguments_refuted features o r v t : f_types (features o) = true -> record_has_bindings features r = Some PubCrate ->
  t = TUniform v [TRecord r] \/ t = TBridgeGeneric [TRecord r] \/ t = TExisting [TRecord r] ->
  emitted features (GFunc (Func o None false false [] t)) = Some Public /\ made_of t (TRecord r).
Proof.
  intros T H E. split.
  - apply public_leaf; auto; destruct E as [->|[->| ->]]; reflexivity.
  - destruct E as [->|[->| ->]]; (econstructor; [constructor; now left|constructor]).
Qed.
Print Assumptions C103_arguments_refuted.

(** * C104 *)
(** Paths in generated code: the struct or alias is public, or belongs to the target itself, provided that no alias of another target
    stands for a pointer to an unsupported type. *)
Theorem C104_paths_partial features g t d : emitted features g <> None -> In t (types_of g) -> instantiated_in (owner_of g) t -> spells t d ->
  match d with
  | TRecord r => record_has_bindings features r = Some PubCrate -> r_owner r = owner_of g
  | TAlias o u => (forall e, ~ made_of u (TError e)) -> alias_has_bindings features o u = Some PubCrate -> o = owner_of g
  | _ => True
  end.
Proof.
  intros _ _ L S.
  assert (M : made_of t d) by (clear L; induction S; [constructor|econstructor; eauto]).
  destruct d; auto.
  - intros H. apply hb_record_private in H as (U & _). apply L; [exact M|now apply ownerless_iff].
  - intros NE H. unfold alias_has_bindings in H. destruct (supported_in _ _ _); [|discriminate]. unfold type_visibility in H.
    destruct (type_target_restriction features (TAlias owner d)) as [[l|]|] eqn:R; [| |discriminate].
    + destruct (Nat.eqb_spec l owner) as [->|D]; [|discriminate]. destruct (restriction_spec _ _ _ R) as (_ & B). destruct (B _ eq_refl) as (c & Ic & Sc).
      destruct (shallow_made_of _ _ _ Sc) as (r & Mr & U & O & _). rewrite <- O. apply L; [|now apply ownerless_iff].
      eapply made_of_trans; [exact M|]. eapply made_of_trans; [apply pre_made_of; exact Ic|exact Mr].
    + exfalso. destruct (first_error (dfs_iter (TAlias owner d))) as [v|] eqn:F; [|discriminate]. rewrite dfs_iter_pre in F.
      assert (X : exists e, In (TError e) (pre (TAlias owner d))).
      { clear -F. induction (pre (TAlias owner d)) as [|[] l IH]; cbn [first_error] in F; try discriminate.
        all: try (destruct (IH F) as (e & I); exists e; now right). eexists. now left. }
      destruct X as (e & I). cbn [pre] in I. destruct I as [I|I]; [discriminate|]. apply (NE e). now apply pre_made_of.
Qed.
Print Assumptions C104_paths_partial.
Example C104_example : spells (TFunc true [TAlias 0 (TPtr (TRecord template_int))] TPrim) (TAlias 0 (TPtr (TRecord template_int)))
  /\ alias_has_bindings wrapper_only 0 (TPtr (TRecord template_int)) = Some PubCrate.
Proof. split; [econstructor; [constructor; now left|discriminate|constructor]|reflexivity]. Qed.
(** An alias in one target for a pointer to a bridged type (using P = std::string *, say) is [pub(crate)] there; functions of any other target that
    name it are generated all the same. *)
Theorem C104_alias_of_other_target_refuted features here there : here <> there ->
  f_types (features here) = true -> f_types (features there) = true -> f_wrapper (features here) = true -> f_wrapper (features there) = true ->
  let p := TPtr (TError None) in
  alias_has_bindings features there p = Some PubCrate
  /\ emitted features (GFunc (Func here None false false [TAlias there p] TPrim)) = Some PubCrate.
Proof.
  intros D A B C E. cbn [emitted]. unfold alias_has_bindings, func_has_bindings, func_features_ok, func_visibility, supported_in, targets_of, type_supported, type_visibility, type_target_restriction.
  cbn [fn_destructor fn_owner fn_defining fn_params fn_ret app forallb fn_template_member fold_left]. rewrite !dfs_iter_pre. cbn [pre forallb fold_left kind_supported]. rewrite A, B, C, E. split; reflexivity.
Qed.
Print Assumptions C104_alias_of_other_target_refuted.

(** * C105 *)
(** A target that does not opt in: its functions mention no unsupported type, no incomplete type, no template instantiation, no reference,
    as far as the generator looks. *)
Theorem C105_opt_in_partial features f v t u : func_has_bindings features f = Some v -> fn_destructor f = false ->
  In t (fn_params f ++ [fn_ret f]) -> plain t -> made_of t u ->
  let fs := features (fn_owner f) in
  f_types fs = true /\
  match u with
  | TError None | TIncomplete _ => f_wrapper fs = true
  | TRecord r => ownerless r -> f_wrapper fs = true \/ f_template fs = true
  | TRef _ | TRvalueRef _ => f_experimental fs = true
  | _ => True
  end.
Proof.
  intros H D I P M fs. unfold func_has_bindings in H. destruct (func_features_ok features f) eqn:F; [|discriminate]. clear H.
  unfold func_features_ok in F. rewrite D in F. rewrite forallb_forall in F. specialize (F _ I). unfold supported_in in F. rewrite forallb_forall in F.
  assert (G := F (fn_owner f)). unfold type_supported in G. fold fs in G. rewrite dfs_iter_pre in G.
  assert (O : In (fn_owner f) (targets_of (fn_defining f) (fn_owner f))) by (unfold targets_of; destruct (fn_defining f); cbn; auto).
  specialize (G O). apply andb_prop in G as (T & K). split; [exact T|]. rewrite forallb_forall in K. specialize (K _ (made_of_pre _ _ P M)).
  destruct u; auto; cbn [kind_supported] in K; auto.
  - now destruct override.
  - intros U. apply ownerless_iff in U. rewrite U in K. cbn [orb] in K. now apply orb_prop in K.
Qed.
Print Assumptions C105_opt_in_partial.
(** With the feature, a function that mentions an unsupported type is [pub(crate)], if all unsupported types in it are of that kind. *)
Theorem C105_unsupported_is_internal_partial features lib t : plain t -> made_of t (TError None) -> (forall v, ~ made_of t (TError (Some v))) ->
  type_visibility features lib t <> Some Public.
Proof.
  intros P M N H. assert (I := made_of_pre _ _ P M). unfold type_visibility in H. destruct (type_target_restriction features t) as [[l|]|]; [destruct (l =? lib); discriminate| |discriminate].
  rewrite dfs_iter_pre in H.
  assert (N' : forall v, ~ In (TError (Some v)) (pre t)) by (intros v J; apply (N v); now apply pre_made_of).
  assert (F : first_error (pre t) = Some PubCrate); [|rewrite F in H; discriminate].
  revert I N'. clear. induction (pre t) as [|c l IH]; intros I N'; [destruct I|]. destruct c; cbn [first_error].
  1: { destruct override; [|reflexivity]. destruct (N' v). now left. }
  all: apply IH; [destruct I as [E|I]; [discriminate E|exact I]|intros v' J; apply (N' v'); now right].
Qed.
Print Assumptions C105_unsupported_is_internal_partial.
Definition types_only (g : nat) : feats := Feats true false false false.
Example C105_example :
  func_has_bindings types_only (Func 0 None false false [TPtr (TError None)] TPrim) = None
  /\ func_has_bindings wrapper_only (Func 0 None false false [TPtr (TError None)] TPrim) = Some PubCrate
  /\ func_has_bindings types_only (Func 0 None false false [TPtr (TRecord (Rec false false 0 0))] TPrim) = Some Public.
Proof. vm_compute. auto. Qed.

(** std::vector<Unsupported*> gets a [pub] binding in every target that enables Crubit at all. *)
Theorem C105_elements_refuted features o v : f_types (features o) = true ->
  emitted features (GFunc (Func o None false false [] (TUniform v [TPtr (TError None)]))) = Some Public.
Proof. intros T. now apply public_leaf. Qed.
Print Assumptions C105_elements_refuted.
(** Variables: the features are not checked. *)
Theorem C105_variables_refuted features o : emitted features (GVar o (TPtr (TError None))) = Some PubCrate
  /\ emitted features (GVar o (TRef TPrim)) = Some Public /\ emitted features (GVar o (TPtr (TIncomplete o))) = Some Public.
Proof. auto. Qed.
Print Assumptions C105_variables_refuted.
(** Only the first unsupported type counts: next to a proto message (whose error is exempt) the others become public. *)
Theorem C105_first_error_refuted features lib :
  type_visibility features lib (TFunc true [TPtr (TError (Some Public)); TPtr (TError None)] TPrim) = Some Public
  /\ type_visibility features lib (TFunc true [TPtr (TError None); TPtr (TError (Some Public))] TPrim) = Some PubCrate.
Proof. auto. Qed.
Print Assumptions C105_first_error_refuted.
