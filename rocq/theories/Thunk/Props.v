(** C79-C84: calls from C++ to Rust through thunks. *)
From Coq Require Import List Arith ZArith Bool Lia String FinFun.
From Verif Require Import Thunk.Model Thunk.Spec Thunk.Proofs Thunk.Returns Thunk.Names.
Import ListNotations.
Local Open Scope string_scope.
Local Open Scope list_scope.

(** * Types for the examples *)
Definition plain (k : nat) : adt := ADT k None false false false true true true.
(** A struct with drop glue, movable. *)
Definition owner (k : nat) : adt := ADT k None false false true true false true.
(** A struct with drop glue and neither Default nor move constructor. *)
Definition pinned (k : nat) : adt := ADT k None false false true false false false.
(** [Option<T>]. *)
Definition option_adt (k : nat) : adt := ADT k (Some Composable) true false false true true true.
Definition converted (k : nat) : adt := ADT k (Some (Convert false)) false false true true true true.
Definition transmuted (k : nat) : adt := ADT k (Some (Transmute false)) false false false true true true.
Definition default_config := Config false false.

(** ((i32, Owner), Converted, (), [Owner; n]) *)
Definition nested : ty := Tuple [Tuple [Prim; Adt (owner 1)]; Adt (converted 2); Tuple []; Array (Adt (owner 1))].
Definition nested_value : cval :=
  VTuple [VTuple [VBits (RLeaf 1); VBits (RLeaf 2)]; VBits (RLeaf 3); VTuple []; VBits (RLeaf 4)].
Definition plus100 (k : nat) (r : rval) : rval := match r with RLeaf n => RLeaf (100 + n) | _ => r end.

(** * C79 *)

(** The C++ declaration of a thunk and its Rust definition have the same signature.  ([Option] is an ordinary enum.) *)
Theorem C79_declaration_matches_definition cfg is_constructor ps r :
  (forall a, adt_of r = Some a -> is_option a = true -> by_value cfg r = false) ->
  thunk_decl cfg is_constructor ps r = thunk_impl cfg ps r.
Proof.
  intros H. unfold thunk_decl, thunk_impl.
  assert (P : map (decl_param cfg) ps = map (impl_param cfg) ps).
  { apply map_ext. intros t. unfold decl_param, impl_param. destruct (is_bridged t) as [[[|]|[|]|]|]; reflexivity. }
  rewrite P. f_equal. unfold decl_return, impl_return.
  destruct (is_constructor && is_bridged_layout_compat_type r) eqn:C.
  - apply andb_true_iff in C. destruct C as [_ C]. destruct (is_bridged r) as [b|] eqn:B; [reflexivity|].
    destruct r as [| | | |[|t0 ts]| |a|a t]; try discriminate C; cbn in C.
    + reflexivity.
    + rewrite (H a eq_refl C). reflexivity.
    + rewrite (H a eq_refl C). reflexivity.
  - destruct (is_bridged r) as [b|]; reflexivity.
Qed.
Print Assumptions C79_declaration_matches_definition.

(** The wrapper uses the result in the way the declaration returns it. *)
Theorem C79_call_matches_declaration cfg r : call_return cfg r = decl_return cfg false r.
Proof. reflexivity. Qed.
Print Assumptions C79_call_matches_declaration.

(** No thunk for an [extern "C"] function: the C++ declaration is then that of the function itself, if no type is bridged. *)
Theorem C79_extern_c_partial cfg ps r :
  thunk_required cfg ps r = false -> is_bridged r = None -> Forall (fun t => is_bridged t = None) ps ->
  thunk_decl cfg false ps r = extern_fn ps r.
Proof.
  intros T B F. unfold thunk_required in T. apply negb_false_iff, andb_true_iff in T. destruct T as [Tr Tp].
  unfold thunk_decl, extern_fn, with_ret_ptr, decl_return. rewrite B, Tr. cbn. f_equal.
  rewrite forallb_forall in Tp. rewrite Forall_forall in F. apply map_ext_in. intros t Ht. unfold decl_param.
  rewrite (F t Ht), (Tp t Ht). reflexivity.
Qed.
Print Assumptions C79_extern_c_partial.

(** With a bridged type that is passed by value (a repr(transparent) struct) the declaration says pointer, the function says
    value. *)
Theorem C79_extern_c_refuted : exists cfg ps r,
  forallb (accept_param cfg) ps = true /\ accept_return cfg r = true /\ thunk_required cfg ps r = false /\
  thunk_decl cfg false ps r <> extern_fn ps r.
Proof.
  exists default_config, [Newtype (transmuted 1) Prim], (Tuple []). repeat split. discriminate.
Qed.
Print Assumptions C79_extern_c_refuted.

(** A thunk with a tuple, an array and a bridged type; a constructor of a tuple. *)
Example C79_example :
  thunk_decl default_config false [nested; Prim; Adt (option_adt 1)] nested = ([Pointer; ByValue Prim; Pointer; Pointer], None)
  /\ thunk_decl default_config true [Prim] (Tuple [Prim; Char]) = ([ByValue Prim; Pointer], None).
Proof. split; reflexivity. Qed.

(** * C80 *)

(** The Rust function receives the values the wrapper was called with. *)
Theorem C80_arguments_arrive cfg cpp_to_rust ts vs rs d :
  forallb (accept_param cfg) ts = true -> all_to_rust cfg cpp_to_rust ts vs = Some rs ->
  exists left, call_with cfg cpp_to_rust d ts vs = Some (rs, left).
Proof.
  intros A T. apply format_params in A. unfold call_with, empty_heap.
  destruct (create_all_holds vs (fun _ => CUninit) 0) as (xs & m & n & E & H & _). rewrite E.
  destruct (cc_params_post cfg cpp_to_rust ts 0 vs rs m xs 0 n n A T H (le_n n)) as (ds & es & m1 & n1 & E1 & _ & _ & _ & R).
  rewrite E1. rewrite R by (intros a _; reflexivity). eexists. reflexivity.
Qed.
Print Assumptions C80_arguments_arrive.

Example C80_example :
  forallb (accept_param default_config) [nested; Adt (option_adt 7); Char] = true /\
  all_to_rust default_config plus100 [nested; Adt (option_adt 7); Char] [nested_value; VBits (RLeaf 5); VBits (RLeaf 6)] =
    Some [RTuple [RTuple [RLeaf 1; RLeaf 2]; RLeaf 103; RTuple []; RLeaf 4]; RLeaf 105; RLeaf 6] /\
  option_map fst (call_with default_config plus100 5 [nested; Adt (option_adt 7); Char] [nested_value; VBits (RLeaf 5); VBits (RLeaf 6)]) =
    Some [RTuple [RTuple [RLeaf 1; RLeaf 2]; RLeaf 103; RTuple []; RLeaf 4]; RLeaf 105; RLeaf 6].
Proof. vm_compute. repeat split; reflexivity. Qed.

(** Why a tuple must not contain a type bridged with CrubitAbi: the pointer to its buffer would be taken for the buffer. *)
Example C80_composable_in_tuple :
  accept_param default_config (Tuple [Adt (option_adt 7)]) = false /\
  all_to_rust default_config plus100 [Tuple [Adt (option_adt 7)]] [VTuple [VBits (RLeaf 5)]] = Some [RTuple [RLeaf 105]] /\
  call_with default_config plus100 5 [Tuple [Adt (option_adt 7)]] [VTuple [VBits (RLeaf 5)]] = None.
Proof. vm_compute. repeat split; reflexivity. Qed.

(** * C82 *)

Lemma leaves_depth cfg t : forall v, depth (leaves cfg t v) <= depth v.
Proof.
  assert (D1 : forall v, 1 <= depth v) by (destruct v; cbn; lia).
  assert (DM : forall v, depth VMoved <= depth v) by (intros v; apply D1).
  induction t as [| | | |ts IH|t IH|a|a t IH] using ty_ind'; intros v; try (cbn [leaves]; lia).
  - destruct ts as [|t0 ts]; [cbn; lia|]. destruct (layout_compat_tuple cfg) eqn:L.
    + cbn [leaves]. rewrite L. destruct (existsb needs_drop (t0 :: ts)); [apply DM|lia].
    + destruct v as [|vs|]; [cbn [leaves]; rewrite L; lia| |cbn [leaves]; rewrite L; lia].
      rewrite leaves_tuple by exact L.
      change (S (depths (all_leaves cfg (t0 :: ts) vs)) <= S (depths vs)). apply le_n_S.
      revert vs. induction IH as [|t ts0 Ht _ IHts]; intros vs; [cbn; lia|]. destruct vs as [|v vs]; [cbn; lia|].
      cbn [all_leaves depths]. specialize (Ht v). specialize (IHts vs). lia.
  - cbn [leaves]. destruct (bridged a) as [[[|]|[|]|]|]; try destruct (by_value cfg (Adt a)); try destruct (drop a); try apply DM; lia.
  - cbn [leaves]. destruct (bridged a) as [[[|]|[|]|]|]; try destruct (by_value cfg (Newtype a t)); try destruct (drop a); try apply DM; lia.
Qed.

(** After the call a parameter object is moved-from exactly if Rust took over what it owned. *)
Theorem C82_ownership cfg cpp_to_rust ts vs rs d :
  forallb (accept_param cfg) ts = true -> all_to_rust cfg cpp_to_rust ts vs = Some rs -> Forall (fun v => depth v <= d) vs ->
  call_with cfg cpp_to_rust d ts vs = Some (rs, map Some (all_leaves cfg ts vs)).
Proof.
  intros A T D. apply format_params in A. unfold call_with, empty_heap.
  destruct (create_all_holds vs (fun _ => CUninit) 0) as (xs & m & n & E & H & _). rewrite E.
  destruct (cc_params_post cfg cpp_to_rust ts 0 vs rs m xs 0 n n A T H (le_n n)) as (ds & es & m1 & n1 & E1 & _ & _ & L & R).
  rewrite E1. rewrite R by (intros a _; reflexivity). do 2 f_equal. cbn [fst].
  eapply holds_all_observe; [exact L|].
  clear -D. revert vs D. induction ts as [|t ts IH]; intros vs D; [constructor|]. destruct vs as [|v vs]; [constructor|].
  inversion D; subst. cbn [all_leaves]. constructor; [pose proof (leaves_depth cfg t v); lia|auto].
Qed.
Print Assumptions C82_ownership.

(** In particular a type without drop glue is left as it was, unless it is bridged with CrubitAbi. *)
Lemma C82_no_drop cfg t v : needs_drop t = false -> is_composable t = false ->
  match t with Tuple _ => layout_compat_tuple cfg = true | _ => True end -> leaves cfg t v = v.
Proof.
  intros N C L. destruct t as [| | | |[|t0 ts]|t|a|a t]; try reflexivity.
  - cbn [leaves]. rewrite L. change (existsb needs_drop (t0 :: ts)) with (needs_drop (Tuple (t0 :: ts))). now rewrite N.
  - cbn in *. unfold is_composable in C. cbn in C. rewrite N. destruct (bridged a) as [[[|]|[|]|]|]; try reflexivity; try discriminate.
    now destruct (same_abi a).
  - cbn [leaves]. cbn in N. unfold is_composable in C. cbn in C. rewrite N. destruct (bridged a) as [[[|]|[|]|]|]; try reflexivity; try discriminate.
    now destruct (by_value cfg (Newtype a t)).
Qed.

Example C82_example :
  all_leaves default_config [nested; Adt (owner 3); Adt (plain 4)] [nested_value; VBits (RLeaf 8); VBits (RLeaf 9)] =
    [VTuple [VTuple [VBits (RLeaf 1); VMoved]; VMoved; VTuple []; VBits (RLeaf 4)]; VMoved; VBits (RLeaf 9)]
  /\ Forall (fun v => depth v <= 3) [nested_value; VBits (RLeaf 8); VBits (RLeaf 9)].
Proof. split; [reflexivity|]. repeat constructor. Qed.

(** * C81 *)

(** The wrapper returns the C++ value for what the Rust function returned. *)
Theorem C81_return_values cfg rust_to_cpp t r v h : to_cpp cfg rust_to_cpp t r = Some v -> return_from cfg rust_to_cpp t r h = Some v.
Proof. apply return_from_correct. Qed.
Print Assumptions C81_return_values.

Example C81_example :
  accept_return default_config (Tuple [Tuple [Prim; Adt (owner 1)]; Adt (converted 2); Array (Adt (owner 1))]) = true /\
  to_cpp default_config plus100 (Tuple [Tuple [Prim; Adt (owner 1)]; Adt (converted 2); Array (Adt (owner 1))])
    (RTuple [RTuple [RLeaf 1; RLeaf 2]; RLeaf 3; RLeaf 4]) =
  Some (VTuple [VTuple [VBits (RLeaf 1); VBits (RLeaf 2)]; VBits (RLeaf 103); VBits (RLeaf 4)]).
Proof. split; reflexivity. Qed.

(** A value that goes to Rust and comes back is the same, if the conversion functions of each type are inverse. *)
Theorem C81_round_trip cfg cpp_to_rust rust_to_cpp t :
  (forall k r, rust_to_cpp k (cpp_to_rust k r) = r) ->
  forall v r h, to_rust cfg cpp_to_rust t v = Some r -> return_from cfg rust_to_cpp t r h = Some v.
Proof.
  intros I v r h T. apply return_from_correct. revert v r T. clear h.
  induction t as [| | | |ts IH|t IH|a|a t IH] using ty_ind'; intros v r T.
  1-4,6: destruct v; cbn in T; try discriminate T; injection T as <-; reflexivity.
  - destruct ts as [|t0 ts].
    + cbn in T. destruct v as [|[|]|]; try discriminate T. injection T as <-. reflexivity.
    + destruct (layout_compat_tuple cfg) eqn:L.
      * cbn [to_rust] in T. rewrite L in T. destruct v; try discriminate T. injection T as <-. cbn [to_cpp]. now rewrite L.
      * rewrite to_rust_tuple in T by exact L. rewrite to_cpp_tuple by exact L. destruct v as [|vs|]; try discriminate T.
        destruct (all_to_rust cfg cpp_to_rust (t0 :: ts) vs) as [rs|] eqn:E; [|discriminate]. injection T as <-.
        enough (HH : all_to_cpp cfg rust_to_cpp (t0 :: ts) rs = Some vs) by now rewrite HH.
        revert vs rs E. induction IH as [|t ts0 Ht _ IHts]; intros vs rs E.
        -- destruct vs; [|discriminate]. cbn in E. injection E as <-. reflexivity.
        -- destruct vs as [|v vs]; [discriminate|]. cbn [all_to_rust] in E.
           destruct (to_rust cfg cpp_to_rust t v) as [r|] eqn:E1; [|discriminate].
           destruct (all_to_rust cfg cpp_to_rust ts0 vs) as [rs1|] eqn:E2; [|discriminate]. injection E as <-.
           cbn [all_to_cpp]. rewrite (Ht v r E1), (IHts vs rs1 E2). reflexivity.
  - cbn [to_rust] in T. cbn [to_cpp]. destruct (bridged a) as [[b|b|]|], v; try discriminate T; injection T as <-; try rewrite I; reflexivity.
  - cbn [to_rust] in T. cbn [to_cpp]. destruct (bridged a) as [[b|b|]|], v; try discriminate T; injection T as <-; try rewrite I; reflexivity.
Qed.
Print Assumptions C81_round_trip.

(** Constructors: the new object holds the value, for tuples and for types that are not bridged. *)
Theorem C81_constructor_partial cfg rust_to_cpp t r p m :
  match t with
  | Tuple (_ :: _) => True
  | Adt a | Newtype a _ => bridged a = None /\ (is_option a = true -> by_value cfg t = false)
  | _ => False
  end ->
  construct cfg rust_to_cpp t r p m = Some (CBits r).
Proof.
  intros H. unfold construct, decl_return. destruct t as [| | | |[|t0 ts]|t|a|a t]; try contradiction.
  - cbn. now rewrite set_same.
  - destruct H as [B O]. assert (IB : is_bridged (Adt a) = None) by exact B. rewrite IB.
    assert (W : rs_write cfg rust_to_cpp true (Adt a) r p m = Some (set m p (CBits r))).
    { cbn [rs_write]. rewrite IB. destruct (by_value cfg (Adt a)); reflexivity. }
    rewrite W, set_same. cbn [andb is_bridged_layout_compat_type]. destruct (is_option a); [rewrite O by reflexivity; reflexivity|].
    destruct (by_value cfg (Adt a)); reflexivity.
  - destruct H as [B O]. assert (IB : is_bridged (Newtype a t) = None) by exact B. rewrite IB.
    assert (W : rs_write cfg rust_to_cpp true (Newtype a t) r p m = Some (set m p (CBits r))).
    { cbn [rs_write]. rewrite IB. destruct (by_value cfg (Newtype a t)); reflexivity. }
    rewrite W, set_same. cbn [andb is_bridged_layout_compat_type]. destruct (is_option a); [rewrite O by reflexivity; reflexivity|].
    destruct (by_value cfg (Newtype a t)); reflexivity.
Qed.
Print Assumptions C81_constructor_partial.

(** For [rs_std::Option] (a layout compatible class) the Rust side of a copy or default constructor writes the encoding used to
    bridge [Option] to [std::optional] into the object. *)
Theorem C81_constructor_refuted : exists cfg rust_to_cpp t r p m c,
  format_ok cfg t Other = true /\ construct cfg rust_to_cpp t r p m = Some c /\ c = CEnc 1 r /\ c <> CBits r.
Proof.
  exists default_config, plus100, (Adt (option_adt 1)), (RLeaf 5), 0, (fun _ => CUninit). eexists.
  repeat split. discriminate.
Qed.
Print Assumptions C81_constructor_refuted.

(** * C83 *)

(** Every class mentioned in a type. *)
Fixpoint classes (t : ty) : list adt :=
  match t with Tuple ts => flat_map classes ts | Array e => classes e | Adt a | Newtype a _ => [a] | _ => [] end.
Definition full (a : adt) : Prop := has_move a = true /\ has_copy a = true /\ has_default a = true.

Lemma full_all t : Forall full (classes t) -> movable t = true /\ copyable t = true /\ default_constructible t = true.
Proof.
  induction t as [| | | |ts IH|t IH|a|a t IH] using ty_ind'; intros F; try (repeat split; reflexivity).
  - cbn in F. cbn [movable copyable default_constructible]. rewrite Forall_flat_map in F. rewrite Forall_forall in IH, F.
    rewrite !forallb_forall. split; [|split; [|reflexivity]]; intros e He; apply (IH e He (F e He)).
  - cbn in *. destruct (IH F) as (H1 & H2 & _). auto.
  - cbn in F. inversion F as [|? ? (H1 & H2 & H3) _]; subst. auto.
  - cbn in F. inversion F as [|? ? (H1 & H2 & H3) _]; subst. auto.
Qed.
Lemma full_slot t : Forall full (classes t) -> slot_compiles t = true.
Proof.
  intros F. destruct (full_all t F) as (M & _). unfold slot_compiles. destruct t as [| | | |[|]|[| | | |[|]| | |]| |]; try reflexivity; exact M.
Qed.

(** If all classes have copy, move and default constructors, wrappers compile. *)
Theorem C83_parameters_full_partial cfg t : Forall full (classes t) -> param_compiles cfg t = true.
Proof.
  induction t as [| | | |ts IH|t IH|a|a t IH] using ty_ind'; intros F; pose proof (full_all _ F) as (M & C & _); pose proof (full_slot _ F) as S;
    cbn [param_compiles].
  1-4,6: match goal with |- match ?b with Some _ => _ | None => if ?v then _ else _ end = true => destruct b; [reflexivity|]; destruct v; [exact C|] end; rewrite ?S; destruct (needs_drop _); reflexivity.
  - cbn [is_bridged adt_of]. destruct (by_value cfg (Tuple ts)); [exact C|]. rewrite S, orb_true_r.
    destruct (layout_compat_tuple cfg); [reflexivity|]. cbn in F. rewrite Forall_flat_map in F. rewrite Forall_forall in IH, F.
    rewrite forallb_forall. intros e He. apply (IH e He (F e He)).
  - destruct (is_bridged (Adt a)); [reflexivity|]. destruct (by_value cfg (Adt a)); [exact C|]. rewrite S, orb_true_r. reflexivity.
  - destruct (is_bridged (Newtype a t)); [reflexivity|]. destruct (by_value cfg (Newtype a t)); [exact C|]. rewrite S, orb_true_r. reflexivity.
Qed.
Print Assumptions C83_parameters_full_partial.

Theorem C83_returns_full_partial cfg t : Forall full (classes t) -> return_compiles cfg t = true.
Proof.
  assert (E : forall t, Forall full (classes t) -> element_compiles cfg t = true).
  { clear t. induction t as [| | | |ts IH|t IH|a|a t IH] using ty_ind'; intros F; pose proof (full_all _ F) as (M & C & D);
    cbn [element_compiles].
    1-4,6: match goal with |- match ?b with Some _ => _ | None => if ?v then _ else _ end = true => destruct b; [reflexivity|]; destruct v; [now rewrite D, C|] end; exact M.
    - cbn [is_bridged adt_of]. destruct (by_value cfg (Tuple ts)); [now rewrite D, C|].
      destruct (layout_compat_tuple cfg); [exact M|]. cbn in F. rewrite Forall_flat_map in F. rewrite Forall_forall in IH, F.
      rewrite forallb_forall. intros e He. apply (IH e He (F e He)).
    - destruct (is_bridged (Adt a)); [reflexivity|]. destruct (by_value cfg (Adt a)); [now rewrite D, C|]. exact M.
    - destruct (is_bridged (Newtype a t)); [reflexivity|]. destruct (by_value cfg (Newtype a t)); [now rewrite D, C|]. exact M. }
  intros F. unfold return_compiles. destruct (is_bridged t); [reflexivity|]. destruct (by_value cfg t); [reflexivity|].
  destruct t; try reflexivity. cbn. destruct (layout_compat_tuple cfg); [reflexivity|].
  cbn in F. rewrite Forall_flat_map in F. rewrite Forall_forall in F. rewrite forallb_forall. auto.
Qed.
Print Assumptions C83_returns_full_partial.

(** Parameters passed through memory that are not tuples: the generator's tests suffice, if classes with drop glue and Default
    are movable (lib.rs, C75) and the elements of arrays of arrays are themselves classes, numbers or such arrays. *)
Theorem C83_simple_parameters_partial cfg t :
  (forall a, In a (classes t) -> drop a = true -> has_default a = true -> has_move a = true) ->
  accept_param cfg t = true -> by_value cfg t = false -> match t with Tuple _ => False | Array (Array (Adt _ | Newtype _ _)) => True | Array (Array _) => False | _ => True end ->
  param_compiles cfg t = true.
Proof.
  intros WF A V T. unfold accept_param in A. apply andb_true_iff in A. destruct A as [_ A].
  destruct t as [| | | |ts|t|a|a t]; try discriminate V; try contradiction.
  - cbn [param_compiles is_bridged adt_of]. rewrite V. reflexivity.
  - cbn [param_compiles is_bridged adt_of]. rewrite V. reflexivity.
  - cbn [param_compiles is_bridged adt_of by_value]. cbn in A.
    destruct t as [| | | |[|t0 ts]|u|b|b u]; try reflexivity; try (rewrite orb_true_r; reflexivity); cbn in *.
    unfold is_drop_not_default in A. destruct u as [| | | | | |b|b u]; try contradiction.
    + cbn in *. destruct (drop b) eqn:D; [|reflexivity]. cbn in A. rewrite negb_involutive in A. cbn. apply WF; auto.
    + cbn in *. destruct (drop b) eqn:D; [|reflexivity]. cbn in A. rewrite negb_involutive in A. cbn. apply WF; auto.
  - cbn [param_compiles]. destruct (is_bridged (Adt a)); [reflexivity|]. rewrite V in *. cbn in A. cbn [slot_compiles movable]. rewrite A, orb_true_r. reflexivity.
  - cbn [param_compiles]. destruct (is_bridged (Newtype a t)); [reflexivity|]. rewrite V in *. cbn in A. cbn [slot_compiles movable]. rewrite A, orb_true_r. reflexivity.
Qed.
Print Assumptions C83_simple_parameters_partial.

(** In general accepted functions may not compile: a tuple parameter with a type that cannot be moved, *)
Theorem C83_parameter_refuted : exists cfg t, accept_param cfg t = true /\ param_compiles cfg t = false.
Proof. exists default_config, (Tuple [Adt (pinned 1); Prim]). split; reflexivity. Qed.
Print Assumptions C83_parameter_refuted.
(** a returned tuple with a repr(transparent) struct without Default, *)
Theorem C83_return_default_refuted : exists cfg a, accept_return cfg (Tuple [Newtype a Prim]) = true /\ has_copy a = true /\ has_move a = true /\
  return_compiles cfg (Tuple [Newtype a Prim]) = false.
Proof. exists default_config, (ADT 1 None false false false true true false). repeat split; reflexivity. Qed.
Print Assumptions C83_return_default_refuted.
(** a returned tuple with an array of a type that cannot be moved (alone the type is rejected there). *)
Theorem C83_return_array_refuted : exists cfg a, accept_return cfg (Tuple [Array (Adt a)]) = true /\ accept_return cfg (Tuple [Adt a]) = false /\
  return_compiles cfg (Tuple [Array (Adt a)]) = false.
Proof. exists default_config, (pinned 1). repeat split; reflexivity. Qed.
Print Assumptions C83_return_array_refuted.

Example C83_example :
  Forall full (classes (Tuple [Adt (plain 1); Tuple [Array (Adt (plain 2)); Newtype (plain 3) Prim]])) /\
  accept_param default_config (Tuple [Adt (plain 1); Tuple [Array (Adt (plain 2)); Newtype (plain 3) Prim]]) = true /\
  accept_param default_config (Array (Array (Adt (owner 1)))) = true.
Proof. split; [repeat constructor|split; reflexivity]. Qed.

(** * C84 *)

Lemma NoDup_map_inj_on {A B} (f : A -> B) (l : list A) :
  (forall x y, In x l -> In y l -> f x = f y -> x = y) -> NoDup l -> NoDup (map f l).
Proof.
  intros I ND. induction ND as [|d l Hd ND IH]; [constructor|]. cbn [map]. constructor.
  - intros H. apply in_map_iff in H. destruct H as (d' & Ed & Hd'). apply Hd.
    rewrite <- (I d' d); [exact Hd'|now right|now left|exact Ed].
  - apply IH. intros x y Hx Hy. apply I; now right.
Qed.

(** No two locals or parameters of a wrapper have the same name, if no parameter's name is another's followed by an underscore
    (and more), or starts with "__r". *)
Theorem C84_names_partial cfg cpp_to_rust params ts r xs h ds es h' :
  (forall i j, i < List.length ts -> j < List.length ts -> params i = params j -> i = j) ->
  (forall i j, i < List.length ts -> j < List.length ts -> ~ starts (params i ++ "_")%string (params j)) ->
  (forall i, i < List.length ts -> ~ starts "__r" (params i)) ->
  cc_params cfg cpp_to_rust 0 ts xs h = Some (ds, es, h') ->
  NoDup (map params (seq 0 (List.length ts)) ++ map (text params) ds ++ return_names cfg r).
Proof.
  intros D S R E. destruct (cc_params_names cfg cpp_to_rust ts 0 xs h ds es h' E) as [N F]. cbn [Nat.add] in F.
  destruct (return_names_good cfg r) as [NR FR]. rewrite Forall_forall in F, FR.
  set (n := List.length ts) in *.
  assert (PT : map params (seq 0 n) ++ map (text params) ds = map (text params) (map (fun i => (i, [])) (seq 0 n) ++ ds)).
  { rewrite map_app, map_map. f_equal. apply map_ext. intros i. unfold text. cbn. now rewrite sapp_nil. }
  rewrite app_assoc, PT.
  assert (W : forall d, In d (map (fun i => (i, [])) (seq 0 n) ++ ds) -> fst d < n /\ wfp (snd d)).
  { intros d Hd. apply in_app_iff in Hd. destruct Hd as [Hd|Hd].
    - apply in_map_iff in Hd. destruct Hd as (i & <- & Hi). apply in_seq in Hi. cbn. split; [lia|apply wfp_nil].
    - destruct (F d Hd) as (H1 & _ & H2). split; [lia|exact H2]. }
  apply NoDup_app_intro'.
  - assert (ND : NoDup (map (fun i : nat => ((i, []) : name)) (seq 0 n) ++ ds)).
    { apply NoDup_app_intro'; [|exact N|].
      - apply FinFun.Injective_map_NoDup; [|apply seq_NoDup]. intros i j Hij. congruence.
      - intros d H1 H2. apply in_map_iff in H1. destruct H1 as (i & <- & _). destruct (F _ H2) as (_ & Ne & _). now apply Ne. }
    refine (NoDup_map_inj_on (text params) _ _ ND). intros d d' Hd Hd' Ed.
    destruct (W d Hd) as [W1 W2]. destruct (W d' Hd') as [W1' W2'].
    exact (text_inj params n D S d d' W1 W1' W2 W2' Ed).
  - exact NR.
  - intros s H1 H2. apply in_map_iff in H1. destruct H1 as (d & <- & Hd). destruct (W d Hd) as [W1 W2].
    destruct (FR _ H2) as [s Es]. exact (text_not_ret params n R d s W1 W2 Es).
Qed.
Print Assumptions C84_names_partial.

(** fn f(x: (i32,), x_0: i32): [auto&& x_0] for the element clashes with the second parameter. *)
Theorem C84_names_refuted : exists cfg cpp_to_rust params ts xs h ds es h',
  forallb (accept_param cfg) ts = true /\ (forall i j, i < List.length ts -> j < List.length ts -> params i = params j -> i = j) /\
  cc_params cfg cpp_to_rust 0 ts xs h = Some (ds, es, h') /\
  ~ NoDup (map params (seq 0 (List.length ts)) ++ map (text params) ds).
Proof.
  exists default_config, plus100, (fun i => match i with 0 => "x" | _ => "x_0" end), [Tuple [Prim]; Prim], [0; 2],
    (fun a => match a with 0 => CTup [1] | _ => CBits (RLeaf 5) end, 3).
  eexists _, _, _. split; [reflexivity|]. split.
  - intros [|[|i]] [|[|j]]; cbn; intros; try lia; try reflexivity; discriminate.
  - split; [reflexivity|]. intros N. vm_compute in N. inversion N as [|? ? _ N1]; subst. inversion N1 as [|? ? H _]; subst. apply H. now left.
Qed.
Print Assumptions C84_names_refuted.

Example C84_example :
  let params := fun i => match i with 0 => "a" | 1 => "bc" | _ => "__param_2" end in
  (forall i, i < 3 -> ~ starts "__r" (params i)) /\
  option_map (fun x => map (text params) (fst (fst x)))
    (let (xs, h) := create_all [nested_value; VBits (RLeaf 5); VBits (RLeaf 6)] empty_heap in
     cc_params default_config plus100 0 [nested; Adt (option_adt 7); Adt (owner 1)] xs h) =
  Some ["a_0"; "a_0_0"; "a_0_cabi_0"; "a_0_1"; "a_0_1_slot"; "a_0_cabi_1"; "a_0_cabi"; "a_cabi_0"; "a_1"; "a_1_slot"; "a_cabi_1";
        "a_2"; "a_cabi_2"; "a_3"; "a_3_slot"; "a_cabi_3"; "a_cabi"; "bc_buffer"; "__param_2_slot"] /\
  return_names default_config (Tuple [Prim; Adt (converted 1)]) =
  ["__return_value_0_ret_val_holder"; "__return_value_0_storage"; "__return_value_1_ret_val_holder"; "__return_value_1_storage"; "__return_value_storage"].
Proof.
  split.
  - intros [|[|[|i]]] H; try lia; intros [r E]; discriminate E.
  - split; vm_compute; reflexivity.
Qed.
