(** * Properties C131-C134 *)
From Coq Require Import List Strings.String Ascii NArith Bool Lia.
Import ListNotations.
From Verif Require Import Forward.Model Forward.Spec Forward.Proofs Forward.Names.
Local Open Scope N_scope.
Local Open Scope list_scope.

(** Two complete bindings of class Foo (16 bytes, Unpin), one of Bar (8 bytes, pinned),
    one Rust type that is not a binding. *)
Definition E0 (d : nat) : def :=
  match d with
  | 0%nat | 1%nat => Def (Some "foo::Foo"%string) 16 true
  | 2%nat => Def (Some "Bar"%string) 8 false
  | _ => Def None 4 true
  end.
Definition foo_fwd : rty := Incomplete "foo::Foo" 7.
Definition bar_fwd : rty := Incomplete "Bar" 7.

Lemma E0_agree : definitions_agree E0.
Proof.
  intros d d' s. destruct d as [|[|[|d]]], d' as [|[|[|d']]]; cbn; intros A B;
    try discriminate; try (rewrite <- A in B; discriminate); auto.
Qed.

(** ** C131 *)

(** A cast compiles exactly when it is documented: same C++ class, same constness,
    same lifetime, same length, [&mut] only over [Unpin]. *)
Theorem C131_casts_are_documented_casts_partial : forall E unstable t u,
  no_max_array t -> no_max_array u ->
  (coercible E unstable t u <-> documented_cast E unstable t u).
Proof. intros. now apply coercible_documented. Qed.
Print Assumptions C131_casts_are_documented_casts_partial.

Example C131_nonvacuous :
  coercible E0 false (Ptr (KRef 1) (Slice (Ptr (KPinMut 2) (Incomplete "foo::Foo" 3))))
                     (Ptr (KPinRef 1) (Slice (Ptr (KRefMut 2) (Complete 0)))) /\
  ~ coercible E0 false (Ptr (KPinMut 2) (Incomplete "Bar" 3)) (Ptr (KRefMut 2) (Complete 2)) /\
  ~ coercible E0 false (Ptr (KRef 1) foo_fwd) (Ptr (KRef 1) bar_fwd) /\
  ~ coercible E0 false (Ptr (KRef 1) foo_fwd) (Ptr (KRef 2) foo_fwd) /\
  ~ coercible E0 false (Ptr KConst foo_fwd) (Ptr KMut foo_fwd) /\
  ~ coercible E0 false (Ptr (KCRef 1) foo_fwd) (Ptr (KRef 1) foo_fwd).
Proof.
  repeat split.
  - left. split; [reflexivity|]. split; [reflexivity|]. eexists. split; vm_compute; reflexivity.
  - intros [(_ & _ & n & A & B)|(a & t & u & A & _)]; discriminate.
  - intros [(_ & _ & n & A & B)|(a & t & u & A & _)]; [|discriminate]. vm_compute in A, B. congruence.
  - intros [(_ & _ & n & A & B)|(a & t & u & A & _)]; [|discriminate]. vm_compute in A, B. congruence.
  - intros [(_ & _ & n & A & B)|(a & t & u & A & _)]; [|discriminate]. vm_compute in A, B. congruence.
  - intros [(_ & _ & n & A & B)|(a & t & u & A & _)]; discriminate.
Qed.

(** Casting is symmetric and transitive. *)
Theorem C131_casts_compose : forall E unstable t u v,
  (coercible E unstable t u -> coercible E unstable u t) /\
  (coercible E unstable t u -> coercible E unstable u v -> coercible E unstable t v).
Proof.
  intros E un t u v. split.
  - intros [(A & B & n & C & D)|(a & t' & u' & A & B & n & C & D)].
    + left. split; auto. split; auto. exists n. auto.
    + right. exists a, u', t'. split; auto. split; auto. exists n. auto.
  - intros [(A & B & n & C & D)|(a & t' & u' & A & B & n & C & D)]
           [(A' & B' & n' & C' & D')|(a' & t2 & u2 & A' & B' & n' & C' & D')].
    + left. split; auto. split; auto. exists n. split; congruence.
    + subst. discriminate.
    + subst. discriminate.
    + subst. injection A' as -> ->. right. exists a', t', u2. split; auto. split; auto.
      exists n. split; congruence.
Qed.
Print Assumptions C131_casts_compose.

Lemma same_ptr E un k k' t u : same_cpp E un (Ptr k t) (Ptr k' u) -> same_cpp E un t u.
Proof.
  intros H. inversion H; subst; auto.
  match goal with K : binds _ _ _ |- _ => inversion K end.
Qed.

(** Without the restriction the claim is false: an array type of [usize::MAX]
    forward-declared elements shares its name with the slice type, so a thin reference
    seen through another reference casts to a fat one — without a panic. *)
Theorem C131_max_array_refuted :
  exists t u, wf t = true /\ wf u = true /\
    coercible E0 false t u /\ ~ documented_cast E0 false t u /\
    (forall v, List.length v = N.to_nat (size_of E0 t) -> cpp_coerce E0 t u v = Value v) /\
    (forall mem p, view_at E0 mem t p <> view_at E0 mem u p).
Proof.
  exists (Ptr (KRef 0) (Ptr (KRef 0) (Array foo_fwd usize_max))),
         (Ptr (KRef 0) (Ptr (KRef 0) (Slice foo_fwd))).
  split; [reflexivity|]. split; [reflexivity|]. split; [|split; [|split]].
  - left. split; [reflexivity|]. split; [reflexivity|].
    exists (NTuple [NRefUnit 0; NTuple [NRefUnit 0; NTuple [NUnits usize_max; symbol "foo::Foo"]]]).
    split; reflexivity.
  - intros [(_ & _ & H)|(a & t & u & A & _)]; [|discriminate].
    apply same_ptr in H. apply same_ptr in H. inversion H; subst.
    match goal with K : binds _ _ _ |- _ => inversion K end.
  - intros v L. change (N.to_nat (size_of E0 (Ptr (KRef 0) (Ptr (KRef 0) (Array foo_fwd usize_max)))))
      with 8%nat in L.
    unfold cpp_coerce. change (N.to_nat (size_of E0 (Ptr (KRef 0) (Ptr (KRef 0) (Slice foo_fwd)))))
      with 8%nat.
    change (size_of E0 (Ptr (KRef 0) (Ptr (KRef 0) (Array foo_fwd usize_max))) =?
            size_of E0 (Ptr (KRef 0) (Ptr (KRef 0) (Slice foo_fwd)))) with true.
    rewrite <- L, firstn_all. reflexivity.
  - intros mem p Q. rewrite !view_thin in Q by reflexivity. apply ptr_inj in Q.
    change (view_at E0 mem (Ptr (KRef 0) (Slice foo_fwd)) (mem p)) with
      (VSequence (mem p) (map (fun i => view_at E0 mem foo_fwd (mem (mem p) + i * size_of E0 foo_fwd))
                             (indices (mem (mem p + word))))) in Q.
    discriminate.
Qed.
Print Assumptions C131_max_array_refuted.

(** "If a container's element type supports casting, then casting is also supported for
    Vec<T>": false for every element type other than a shared reference. *)
Theorem C131_vec_of_other_elements_refuted : forall E unstable t u,
  (forall a e, t <> Ptr (KRef a) e) -> ~ coercible E unstable (Vec t) u.
Proof.
  intros E un t u H [(_ & _ & n & A & _)|(a & t' & u' & A & _)].
  - discriminate.
  - injection A as ->. now apply (H a t').
Qed.
Print Assumptions C131_vec_of_other_elements_refuted.

Example C131_vec_element_castable :
  coercible E0 false (Ptr KConst foo_fwd) (Ptr KConst (Complete 0)) /\
  ~ coercible E0 false (Vec (Ptr KConst foo_fwd)) (Vec (Ptr KConst (Complete 0))) /\
  coercible E0 false (Vec (Ptr (KRef 0) foo_fwd)) (Vec (Ptr (KRef 0) (Complete 0))).
Proof.
  split; [|split].
  - left. split; [reflexivity|]. split; [reflexivity|]. eexists. split; vm_compute; reflexivity.
  - apply C131_vec_of_other_elements_refuted. discriminate.
  - right. exists 0%nat, foo_fwd, (Complete 0). split; auto. split; auto.
    eexists. split; vm_compute; reflexivity.
Qed.

(** ** C132 *)

Lemma coerce_value E unstable t u v : coercible E unstable t u ->
  List.length v = N.to_nat (size_of E t) ->
  (size_of E t = size_of E u -> cpp_coerce E t u v = Value v) /\
  (size_of E t <> size_of E u -> cpp_coerce E t u v = Panicked).
Proof.
  intros C L.
  assert (V : forall x y, t = Vec x -> u = Vec y -> False \/ size_of E t = size_of E u).
  { intros x y -> ->. right. reflexivity. }
  assert (G : (exists x y, t = Vec x /\ u = Vec y) \/
              cpp_coerce E t u v =
              if size_of E t =? size_of E u
              then Value (firstn (N.to_nat (size_of E u)) v) else Panicked).
  { destruct t; try (right; reflexivity). destruct u; try (right; reflexivity).
    left. eauto. }
  destruct G as [(x & y & -> & ->)|G].
  - split; [reflexivity|]. intros Q. exfalso. now apply Q.
  - rewrite G. split; intros Q.
    + rewrite (proj2 (N.eqb_eq _ _) Q). rewrite <- Q, <- L, firstn_all. reflexivity.
    + rewrite (proj2 (N.eqb_neq _ _) Q). reflexivity.
Qed.

(** A cast never alters the value's bytes: it returns them all or panics, and it panics
    exactly when the two types have different sizes. *)
Theorem C132_bytes_kept_or_panic : forall E unstable t u v,
  coercible E unstable t u -> List.length v = N.to_nat (size_of E t) ->
  (cpp_coerce E t u v = Value v /\ List.length v = N.to_nat (size_of E u)) \/
  (cpp_coerce E t u v = Panicked /\ size_of E t <> size_of E u).
Proof.
  intros E un t u v C L. destruct (coerce_value E un t u v C L) as [A B].
  destruct (N.eq_dec (size_of E t) (size_of E u)) as [Q|Q].
  - left. split; auto. now rewrite <- Q.
  - right. auto.
Qed.
Print Assumptions C132_bytes_kept_or_panic.

(** Read as the target type, any bytes in any memory refer to the same C++ objects, at
    the same indices, as read as the source type — exactly when the elements of all
    arrays and slices in the two types are equally far apart. *)
Theorem C132_same_objects_iff_same_strides : forall E unstable t u,
  coercible E unstable t u -> wf t = true -> wf u = true ->
  ((forall mem p, view_at E mem t p = view_at E mem u p) <-> same_strides E t u).
Proof.
  intros E un t u C X Y. apply coercible_shape in C as [(A & B & H)|(a & t' & u' & -> & -> & H)].
  - split; intros S.
    + now apply view_strides.
    + now apply strides_view.
  - cbn [wf] in X, Y. apply andb_prop in X as [X _]. apply andb_prop in Y as [Y _].
    split; intros S.
    + pose proof (view_strides_vec E _ _ _ _ H X Y S) as Q. split; auto.
      now apply strides_ptr_size with E.
    + destruct S as [_ S]. now apply strides_view_vec.
Qed.
Print Assumptions C132_same_objects_iff_same_strides.

(** When all definitions of one C++ class agree on its size and no array or slice of
    forward-declared classes is involved: every cast of a pointer, reference or [Vec]
    succeeds and refers to the same objects. *)
Theorem C132_pointer_casts_keep_objects_partial : forall E unstable t u v,
  definitions_agree E -> coercible E unstable t u ->
  no_max_array t -> no_max_array u ->
  no_incomplete_elements t -> no_incomplete_elements u ->
  ((exists k e, t = Ptr k e) \/ (exists e, t = Vec e)) ->
  List.length v = N.to_nat (size_of E t) ->
  cpp_coerce E t u v = Value v /\
  (forall mem p, view_at E mem t p = view_at E mem u p).
Proof.
  intros E un t u v D C X Y P Q K L.
  destruct (coerce_value E un t u v C L) as [A _].
  apply coercible_shape in C as [(Z & Z' & H)|(a & t' & u' & -> & -> & H)].
  - pose proof (agree_strides E t u D H X Y P Q) as S. split.
    + apply A. destruct K as [(k & e & ->)|(e & ->)]; [|now apply shape_no_vec in H].
      inversion H; subst; [inversion H0|].
      apply (strides_ptr_size E); auto.
    + now apply strides_view.
  - cbn [no_max_array no_incomplete_elements] in *.
    pose proof (agree_strides E t' u' D H X Y (proj2 P) (proj2 Q)) as S. split.
    + now apply A.
    + now apply strides_view_vec.
Qed.
Print Assumptions C132_pointer_casts_keep_objects_partial.

Example C132_nonvacuous :
  let t := Ptr (KRef 1) (Slice (Ptr (KPinMut 2) foo_fwd)) in
  let u := Ptr (KPinRef 1) (Slice (Ptr (KRefMut 2) (Complete 0))) in
  definitions_agree E0 /\ coercible E0 false t u /\ no_max_array t /\ no_max_array u /\
  no_incomplete_elements t /\ no_incomplete_elements u /\ wf t = true /\ wf u = true /\
  size_of E0 t = 16 /\
  cpp_coerce E0 t u [1;2;3;4;5;6;7;8;9;10;11;12;13;14;15;16] =
    Value [1;2;3;4;5;6;7;8;9;10;11;12;13;14;15;16].
Proof.
  cbv zeta. split; [exact E0_agree|].
  split; [left; split; [reflexivity|]; split; [reflexivity|]; eexists; split; vm_compute; reflexivity|].
  repeat split.
Qed.

(** The documentation says that arrays and slices of forward-declared types cannot be
    cast; but [Incomplete] is [Sized] (and of size zero).  [&[Foo]] casts to a slice of
    the forward declaration without a panic, whose second element is the first object;
    casting that element back yields a [&Foo] to the wrong object. *)
Theorem C132_slices_of_forward_declared_refuted :
  exists t u, wf t = true /\ wf u = true /\ coercible E0 false t u /\
    (forall v, List.length v = N.to_nat (size_of E0 t) -> cpp_coerce E0 t u v = Value v) /\
    exists mem p x y y',
      view_at E0 mem t p = VSequence p [x; y] /\
      view_at E0 mem u p = VSequence p [x; y'] /\
      y = VObject (Some "foo::Foo"%string) 1016 /\ y' = VObject (Some "foo::Foo"%string) 1000.
Proof.
  exists (Ptr (KRef 0) (Slice (Complete 0))), (Ptr (KRef 0) (Slice foo_fwd)).
  assert (C : coercible E0 false (Ptr (KRef 0) (Slice (Complete 0))) (Ptr (KRef 0) (Slice foo_fwd))).
  { left. split; [reflexivity|]. split; [reflexivity|]. eexists.
    split; vm_compute; reflexivity. }
  split; [reflexivity|]. split; [reflexivity|]. split; [exact C|]. split.
  - intros v L. apply (coerce_value E0 false _ _ v C L). reflexivity.
  - exists (fun a => if a =? 0 then 1000 else 2), 0. do 3 eexists.
    split; [reflexivity|]. split; [reflexivity|]. split; reflexivity.
Qed.
Print Assumptions C132_slices_of_forward_declared_refuted.

(** A non-empty class cast by value to or from its forward declaration panics. *)
Theorem C132_by_value_to_forward_declared_panics : forall E unstable d s n v,
  d_name (E d) = Some s -> d_size (E d) <> 0 ->
  coercible E unstable (Complete d) (Incomplete s n) /\
  (List.length v = N.to_nat (d_size (E d)) -> cpp_coerce E (Complete d) (Incomplete s n) v = Panicked) /\
  cpp_coerce E (Incomplete s n) (Complete d) [] = Panicked.
Proof.
  intros E un d s n v D Z.
  assert (C : coercible E un (Complete d) (Incomplete s n)).
  { left. split; [reflexivity|]. split; [reflexivity|]. exists (symbol s). cbn [cpp_name].
    rewrite D. auto. }
  assert (C' : coercible E un (Incomplete s n) (Complete d)).
  { destruct (C131_casts_compose E un (Complete d) (Incomplete s n) (Complete d)) as [S _]. auto. }
  split; [exact C|]. split.
  - intros L. apply (coerce_value E un _ _ v C L). exact Z.
  - apply (coerce_value E un _ _ [] C' eq_refl). cbn. auto.
Qed.
Print Assumptions C132_by_value_to_forward_declared_panics.

(** ** C133 *)

(** No cast produces, anywhere inside its result, an unpinned exclusive reference to
    something that must not be moved. *)
Theorem C133_casts_never_unpin : forall E unstable t u a e,
  coercible E unstable t u -> occurs u (Ptr (KRefMut a) e) -> movable E e.
Proof.
  intros E un t u a e [(_ & _ & n & _ & B)|(b & t' & u' & _ & -> & n & _ & B)] O.
  - exact (named_excl E un u n B a e O).
  - inversion O; subst. inversion H0; subst. exact (named_excl E un u' n B a e H3).
Qed.
Print Assumptions C133_casts_never_unpin.

(** ... so if definitions of a class agree, an exclusive reference to a class obtained
    through its forward declaration is to a class all of whose bindings may be moved. *)
Theorem C133_unpinned_class_is_movable : forall E unstable t u a e s d,
  definitions_agree E -> coercible E unstable t u -> occurs u (Ptr (KRefMut a) e) ->
  binds E e s -> d_name (E d) = Some s -> d_unpin (E d) = true.
Proof.
  intros E un t u a e s d D C O B N. pose proof (C133_casts_never_unpin E un t u a e C O) as M.
  apply binds_is in B as [[x ->]|[x [-> Q]]]; inversion M; subst.
  destruct (D x d s Q N) as [_ K]. congruence.
Qed.
Print Assumptions C133_unpinned_class_is_movable.

Example C133_nonvacuous :
  coercible E0 false (Ptr (KPinMut 2) foo_fwd) (Ptr (KRefMut 2) (Complete 0)) /\
  occurs (Ptr (KRefMut 2) (Complete 0)) (Ptr (KRefMut 2) (Complete 0)) /\
  binds E0 (Complete 0) "foo::Foo".
Proof.
  split; [left; split; [reflexivity|]; split; [reflexivity|]; eexists; split; vm_compute; reflexivity|].
  split; constructor. reflexivity.
Qed.

(** The comment justifies [&T] to [Pin<&T>] with "[Pin::new] is safe", which needs
    [T: Unpin]: the cast is available for classes that must stay pinned, from a reference
    to an object that nobody promised to pin. *)
Theorem C133_pinning_needs_movable_refuted :
  exists E e, ~ movable E e /\
    coercible E false (Ptr (KRef 0) e) (Ptr (KPinRef 0) e).
Proof.
  exists E0, (Complete 2). split.
  - intros M. inversion M. discriminate.
  - left. split; [reflexivity|]. split; [reflexivity|]. eexists. split; vm_compute; reflexivity.
Qed.
Print Assumptions C133_pinning_needs_movable_refuted.

Lemma tag_copy E k k' t u g : ptr_tag E false k t = Some g -> ptr_tag E false k' u = Some g ->
  is_copy (Ptr k t) = is_copy (Ptr k' u).
Proof.
  destruct k, k'; cbn; try discriminate; auto.
  all: repeat (match goal with |- context [if ?b then _ else _] => destruct b end);
       try discriminate; auto.
  all: intros A B; rewrite <- A in B; discriminate.
Qed.

Lemma stable_copy E t : forall u, wf t = true -> wf u = true ->
  sized t = true -> sized u = true -> same_name E false t u -> is_copy t = is_copy u.
Proof.
  induction t as [s d|d|k t IH|t IH n|t IH|t IH]; intros u X Y Z Z' (m & N & M).
  - cbn [cpp_name] in N. apply some_inj in N. subst m. apply name_symbol in M.
    apply binds_is in M as [[? ->]|[? [-> _]]]; reflexivity.
  - cbn [cpp_name] in N. destruct (d_name (E d)) as [s|] eqn:D; try discriminate.
    apply some_inj in N. subst m. apply name_symbol in M.
    apply binds_is in M as [[? ->]|[? [-> _]]]; reflexivity.
  - cbn [cpp_name] in N. destruct (ptr_tag E false k t) as [g|] eqn:G; try discriminate.
    destruct (cpp_name E false t) as [n|] eqn:T; try discriminate. apply some_inj in N. subst m.
    destruct u as [s d|d|k' u|u l|u|u]; cbn [cpp_name] in M; try discriminate.
    + destruct (d_name (E d)); discriminate.
    + destruct (ptr_tag E false k' u) as [g'|] eqn:G'; try discriminate.
      destruct (cpp_name E false u); try discriminate. injection M as -> ->.
      exact (tag_copy E k k' t u g G G').
    + destruct (cpp_name E false u); try discriminate. injection M as <- <-.
      apply tag_cases in G. destruct G as [[Q _]|[[Q _]|[(b & Q & _)|(b & Q & _)]]]; discriminate.
  - cbn [cpp_name] in N. destruct (cpp_name E false t) as [n'|] eqn:T; try discriminate.
    apply some_inj in N. subst m.
    destruct u as [s d|d|k' u|u l|u|u]; cbn [cpp_name] in M; try discriminate.
    + destruct (d_name (E d)); discriminate.
    + destruct (ptr_tag E false k' u) as [g'|] eqn:G'; try discriminate.
      destruct (cpp_name E false u); try discriminate. injection M as -> ->.
      apply tag_cases in G'. destruct G' as [[Q _]|[[Q _]|[(b & Q & _)|(b & Q & _)]]]; discriminate.
    + destruct (cpp_name E false u) eqn:U; try discriminate. injection M as -> ->.
      cbn [wf] in X, Y. apply andb_prop in X as [X _]. apply andb_prop in X as [X X'].
      apply andb_prop in Y as [Y _]. apply andb_prop in Y as [Y Y'].
      cbn [is_copy]. apply IH; auto. exists n'. auto.
  - discriminate.
  - discriminate.
Qed.

(** Without the ["unstable"] impls, a value that can be duplicated casts only to values
    that can be duplicated: no exclusive reference appears twice. *)
Theorem C133_stable_casts_do_not_duplicate_partial : forall E t u,
  wf t = true -> wf u = true -> coercible E false t u ->
  (is_copy t = true <-> is_copy u = true) /\
  (is_copy t = true -> forall a e, u <> Ptr (KRefMut a) e /\ u <> Ptr (KPinMut a) e).
Proof.
  intros E t u X Y C.
  assert (Q : is_copy t = is_copy u).
  { destruct C as [(A & B & N)|(b & t' & u' & -> & -> & _)]; [|reflexivity].
    now apply stable_copy with E. }
  split; [now rewrite Q|]. rewrite Q. intros K a e.
  split; intros ->; discriminate.
Qed.
Print Assumptions C133_stable_casts_do_not_duplicate_partial.

(** With them it is false: [CMut] is [Copy] and casts to [&mut]. *)
Theorem C133_cmut_duplicates_exclusive_refuted :
  exists E t u a e, wf t = true /\ wf u = true /\ coercible E true t u /\
    is_copy t = true /\ u = Ptr (KRefMut a) e /\
    forall v, List.length v = N.to_nat (size_of E t) -> cpp_coerce E t u v = Value v.
Proof.
  exists E0, (Ptr (KCMut 0) (Complete 0)), (Ptr (KRefMut 0) (Complete 0)), 0%nat, (Complete 0).
  assert (C : coercible E0 true (Ptr (KCMut 0) (Complete 0)) (Ptr (KRefMut 0) (Complete 0))).
  { left. split; [reflexivity|]. split; [reflexivity|]. eexists. split; vm_compute; reflexivity. }
  split; [reflexivity|]. split; [reflexivity|]. split; [exact C|].
  split; [reflexivity|]. split; [reflexivity|].
  intros v L. apply (coerce_value E0 true _ _ v C L). reflexivity.
Qed.
Print Assumptions C133_cmut_duplicates_exclusive_refuted.

(** ** C134 *)

(** The generated forward declaration of class [k] in one target and the generated
    definition of class [k'] in another cast to each other exactly when they are the same
    C++ class and both targets have (or both lack) [LeadingColonsForCppType]. *)
Theorem C134_generated_symbols_match_iff : forall E unstable a n d l l' k k' s,
  good_class k -> good_class k' ->
  definition_symbol true (qual_of l' k') (spelled (k_name k')) = Some s ->
  d_name (E d) = Some s ->
  (coercible E unstable
     (Ptr (KRef a) (Incomplete (declaration_symbol (qual_of l k) (spelled (k_name k))) n))
     (Ptr (KRef a) (Complete d)) <->
   l = l' /\ path k = path k').
Proof.
  intros E un a n d l l' k k' s G G' S D. cbn [definition_symbol] in S. apply some_inj in S.
  rewrite <- (symbol_iff l l' k k' G G'). unfold declaration_symbol at 3. rewrite S. split.
  - intros [(_ & _ & m & A & B)|(? & ? & ? & A & _)]; [|discriminate].
    cbn [cpp_name ptr_tag] in A, B. rewrite D in B.
    assert (Q : symbol (declaration_symbol (qual_of l k) (spelled (k_name k))) = symbol s) by congruence.
    now apply symbol_inj in Q.
  - intros Q. left. split; [reflexivity|]. split; [reflexivity|].
    exists (NTuple [NRefUnit a; symbol s]). cbn [cpp_name ptr_tag]. rewrite D, Q. auto.
Qed.
Print Assumptions C134_generated_symbols_match_iff.

(** Different classes, or the same class twice: forward declarations cast to each other
    exactly when class and flag agree. *)
Theorem C134_declarations_match_iff : forall E unstable a n n' l l' k k',
  good_class k -> good_class k' ->
  (coercible E unstable
     (Ptr (KRef a) (Incomplete (declaration_symbol (qual_of l k) (spelled (k_name k))) n))
     (Ptr (KRef a) (Incomplete (declaration_symbol (qual_of l' k') (spelled (k_name k'))) n')) <->
   l = l' /\ path k = path k').
Proof.
  intros E un a n n' l l' k k' G G'. rewrite <- (symbol_iff l l' k k' G G'). split.
  - intros [(_ & _ & m & A & B)|(? & ? & ? & A & _)]; [|discriminate].
    cbn [cpp_name ptr_tag] in A, B. apply symbol_inj. congruence.
  - intros Q. left. split; [reflexivity|]. split; [reflexivity|]. rewrite Q.
    eexists. split; reflexivity.
Qed.
Print Assumptions C134_declarations_match_iff.

Definition foo_class : cpp_class :=
  Class ["ns"%string]
        [Comp "Outer" (Some ["int"%string])]
        (Comp "Foo" (Some ["ns"%string; "::"%string; "Bar"%string; "<"%string; "int"%string; ">"%string])).

Lemma plain_ident s : has_space s = false -> s <> ""%string -> s <> "::"%string ->
  s <> "<"%string -> s <> ">"%string -> plain s.
Proof. intros. repeat split; auto. Qed.

Example C134_nonvacuous :
  good_class foo_class /\
  declaration_symbol (qual_of true foo_class) (spelled (k_name foo_class)) =
    ":: ns :: Outer < int > :: Foo < ns :: Bar < int > >"%string.
Proof.
  split; [|reflexivity].
  split; [|split].
  - constructor; [|constructor]. apply plain_ident; try discriminate; reflexivity.
  - constructor; [|constructor]. split; [apply plain_ident; try discriminate; reflexivity|].
    split; [|reflexivity]. constructor; [|constructor]. split; [discriminate|reflexivity].
  - split; [apply plain_ident; try discriminate; reflexivity|].
    split; [|reflexivity]. cbn [c_args k_name foo_class].
    repeat constructor; discriminate.
Qed.

(** Hence "a forward declaration casts to the definition of the same class" is false when
    the two targets differ in that feature. *)
Theorem C134_same_class_always_casts_refuted :
  exists k s d, good_class k /\
    definition_symbol true (qual_of true k) (spelled (k_name k)) = Some s /\
    d_name (d 0%nat) = Some s /\
    ~ coercible d false
        (Ptr (KRef 0) (Incomplete (declaration_symbol (qual_of false k) (spelled (k_name k))) 0))
        (Ptr (KRef 0) (Complete 0)).
Proof.
  destruct C134_nonvacuous as [G _].
  exists foo_class, (":: ns :: Outer < int > :: Foo < ns :: Bar < int > >"%string),
    (fun _ => Def (Some (":: ns :: Outer < int > :: Foo < ns :: Bar < int > >"%string)) 8 true).
  split; [exact G|]. split; [reflexivity|]. split; [reflexivity|].
  intros C. apply (C134_generated_symbols_match_iff _ _ _ _ _ false true foo_class foo_class
    (":: ns :: Outer < int > :: Foo < ns :: Bar < int > >"%string)) in C; auto.
  destruct C as [C _]. discriminate.
Qed.
Print Assumptions C134_same_class_always_casts_refuted.
