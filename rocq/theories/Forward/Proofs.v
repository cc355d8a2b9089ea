(** * Lemmas for Forward *)
From Coq Require Import List Strings.String Ascii NArith Bool Lia.
Import ListNotations.
From Verif Require Import Forward.Model Forward.Spec.
Local Open Scope N_scope.
Local Open Scope list_scope.

Lemma symbol_inj s s' : symbol s = symbol s' -> s = s'.
Proof.
  unfold symbol. intros H. injection H as H.
  assert (K : list_ascii_of_string s = list_ascii_of_string s').
  { revert H. generalize (list_ascii_of_string s) (list_ascii_of_string s').
    intros l. induction l as [|a l IH]; intros [|b m] H; try discriminate; auto.
    cbn [map] in H. injection H as -> H. f_equal. auto. }
  rewrite <- (string_of_list_ascii_of_string s), <- (string_of_list_ascii_of_string s').
  now rewrite K.
Qed.

Lemma some_inj (A : Type) (x y : A) : Some x = Some y -> x = y.
Proof. congruence. Qed.
Arguments some_inj {A x y}.

Section Env.
  Variable E : nat -> def.
  Variable unstable : bool.

  Notation cpp_name := (cpp_name E unstable).
  Notation same_name := (same_name E unstable).
  Notation coercible := (coercible E unstable).
  Notation same_cpp := (same_cpp E unstable).
  Notation documented_cast := (documented_cast E unstable).

  Lemma movable_iff t : movable E t <-> unpin E t = true.
  Proof.
    induction t; cbn [unpin]; split; intros H; try discriminate; try (constructor; tauto).
    all: try (inversion H; subst; auto; fail).
    all: try (inversion H; subst; tauto).
  Qed.

  Lemma binds_name t s : binds E t s -> cpp_name t = Some (symbol s).
  Proof. intros [? ?|d s' H]; cbn [Model.cpp_name]; auto. now rewrite H. Qed.

  Lemma name_symbol t s : cpp_name t = Some (symbol s) -> binds E t s.
  Proof.
    destruct t as [n d|d|k t|t n|t|t]; cbn [Model.cpp_name]; intros H.
    - apply some_inj in H. apply symbol_inj in H. subst. constructor.
    - destruct (d_name (E d)) as [m|] eqn:M; try discriminate. apply some_inj in H.
      apply symbol_inj in H. subst. now constructor.
    - destruct (ptr_tag E unstable k t); try discriminate.
      destruct (cpp_name t); discriminate.
    - destruct (cpp_name t); discriminate.
    - destruct (cpp_name t); discriminate.
    - discriminate.
  Qed.

  Lemma shared_tag a k t : shared_form unstable a k -> ptr_tag E unstable k t = Some (NRefUnit a).
  Proof. intros [| |H]; cbn; auto. now rewrite H. Qed.

  Lemma excl_tag a k t : excl_form E unstable a k t -> ptr_tag E unstable k t = Some (NMutRefUnit a).
  Proof.
    intros [? H|?|? H]; cbn; auto; [|now rewrite H].
    apply movable_iff in H. now rewrite H.
  Qed.

  Lemma tag_cases k t g : ptr_tag E unstable k t = Some g ->
    (g = NConstUnit /\ k = KConst) \/ (g = NMutUnit /\ k = KMut) \/
    (exists a, g = NRefUnit a /\ shared_form unstable a k) \/
    (exists a, g = NMutRefUnit a /\ excl_form E unstable a k t).
  Proof.
    destruct k; cbn; intros H.
    all: try (injection H as <-).
    - auto.
    - auto.
    - right; right; left; eexists; split; eauto; constructor.
    - right; right; left; eexists; split; eauto; constructor.
    - destruct unstable eqn:U; try discriminate. injection H as <-.
      right; right; left; eexists; split; eauto; constructor; auto.
    - destruct (unpin E t) eqn:U; try discriminate. injection H as <-.
      right; right; right; eexists; split; eauto. constructor. now apply movable_iff.
    - right; right; right; eexists; split; eauto; constructor.
    - destruct unstable eqn:U; try discriminate. injection H as <-.
      right; right; right; eexists; split; eauto; constructor; auto.
  Qed.

  Lemma same_cpp_name t u : same_cpp t u -> same_name t u.
  Proof.
    unfold Model.same_name.
    induction 1 as [t u s B B'|t u H (n & N & M)|t u H (n & N & M)
                   |a k k' t u F F' H (n & N & M)|a k k' t u F F' H (n & N & M)
                   |t u m H (n & N & M)|t u H (n & N & M)].
    - exists (symbol s). split; now apply binds_name.
    - exists (NTuple [NConstUnit; n]). cbn [Model.cpp_name ptr_tag]. rewrite N, M. auto.
    - exists (NTuple [NMutUnit; n]). cbn [Model.cpp_name ptr_tag]. rewrite N, M. auto.
    - exists (NTuple [NRefUnit a; n]). cbn [Model.cpp_name].
      rewrite (shared_tag _ _ t F), (shared_tag _ _ u F'), N, M. auto.
    - exists (NTuple [NMutRefUnit a; n]). cbn [Model.cpp_name].
      rewrite (excl_tag _ _ _ F), (excl_tag _ _ _ F'), N, M. auto.
    - exists (NTuple [NUnits m; n]). cbn [Model.cpp_name]. rewrite N, M. auto.
    - exists (NTuple [NUnits usize_max; n]). cbn [Model.cpp_name]. rewrite N, M. auto.
  Qed.

  Lemma same_name_cpp t : forall u, no_max_array t -> no_max_array u ->
    same_name t u -> same_cpp t u.
  Proof.
    induction t as [s d|d|k t IH|t IH n|t IH|t IH]; intros u X Y (m & N & M).
    - cbn [Model.cpp_name] in N. injection N as <-. apply name_symbol in M.
      apply sc_class with s; auto. constructor.
    - cbn [Model.cpp_name] in N. destruct (d_name (E d)) as [s|] eqn:D; try discriminate.
      injection N as <-. apply name_symbol in M. apply sc_class with s; auto. now constructor.
    - cbn [Model.cpp_name] in N. destruct (ptr_tag E unstable k t) as [g|] eqn:G; try discriminate.
      destruct (cpp_name t) as [n|] eqn:T; try discriminate. injection N as <-.
      destruct u as [s d|d|k' u|u l|u|u]; cbn [Model.cpp_name] in M; try discriminate.
      + destruct (d_name (E d)); discriminate.
      + destruct (ptr_tag E unstable k' u) as [g'|] eqn:G'; try discriminate.
        destruct (cpp_name u) as [n'|] eqn:U; try discriminate. injection M as -> ->.
        assert (S : same_cpp t u).
        { apply IH; auto. exists n. auto. }
        apply tag_cases in G. apply tag_cases in G'.
        destruct G as [[-> ->]|[[-> ->]|[(a & -> & F)|(a & -> & F)]]];
        destruct G' as [[Q Q']|[[Q Q']|[(b & Q & F')|(b & Q & F')]]];
          try discriminate; subst.
        * now constructor.
        * now constructor.
        * injection Q as ->. now apply sc_shared with b.
        * injection Q as ->. now apply sc_excl with b.
      + destruct (cpp_name u); try discriminate. injection M as <- <-.
        destruct k; cbn in G; try discriminate; destruct unstable; try discriminate;
          destruct (unpin E t); discriminate.
      + destruct (cpp_name u); try discriminate. injection M as <- <-.
        destruct k; cbn in G; try discriminate; destruct unstable; try discriminate;
          destruct (unpin E t); discriminate.
    - cbn [Model.cpp_name] in N. destruct (cpp_name t) as [n'|] eqn:T; try discriminate.
      injection N as <-.
      destruct u as [s d|d|k' u|u l|u|u]; cbn [Model.cpp_name] in M; try discriminate.
      + destruct (d_name (E d)); discriminate.
      + destruct (ptr_tag E unstable k' u) as [g'|] eqn:G'; try discriminate.
        destruct (cpp_name u) as [n''|] eqn:U; try discriminate. injection M as -> ->.
        apply tag_cases in G'.
        destruct G' as [[Q Q']|[[Q Q']|[(b & Q & F')|(b & Q & F')]]]; discriminate.
      + destruct (cpp_name u) eqn:U; try discriminate. injection M as -> ->.
        cbn in X, Y. constructor. apply IH; try tauto. exists n'. auto.
      + destruct (cpp_name u); try discriminate. injection M as <- <-.
        cbn [no_max_array] in X. lia.
    - cbn [Model.cpp_name] in N. destruct (cpp_name t) as [n'|] eqn:T; try discriminate.
      injection N as <-.
      destruct u as [s d|d|k' u|u l|u|u]; cbn [Model.cpp_name] in M; try discriminate.
      + destruct (d_name (E d)); discriminate.
      + destruct (ptr_tag E unstable k' u) as [g'|] eqn:G'; try discriminate.
        destruct (cpp_name u) as [n''|] eqn:U; try discriminate. injection M as -> ->.
        apply tag_cases in G'.
        destruct G' as [[Q Q']|[[Q Q']|[(b & Q & F')|(b & Q & F')]]]; discriminate.
      + destruct (cpp_name u) eqn:U; try discriminate. injection M as -> ->.
        cbn [no_max_array] in Y. lia.
      + destruct (cpp_name u) eqn:U; try discriminate. injection M as ->.
        cbn in X, Y. constructor. apply IH; auto. exists n'. auto.
    - discriminate.
  Qed.

  Lemma sized_iff t : sized t = true <-> ~ unsized t.
  Proof.
    unfold unsized. destruct t; cbn; split; intros H; try discriminate; auto;
      try (intros (e & Q); discriminate).
    exfalso. apply H. eexists. eauto.
  Qed.

  Lemma coercible_documented t u : no_max_array t -> no_max_array u ->
    coercible t u <-> documented_cast t u.
  Proof.
    intros X Y. unfold Model.coercible, Spec.documented_cast. rewrite !sized_iff. split.
    - intros [(A & B & C)|(a & t' & u' & -> & -> & C)].
      + left. split; [exact A|]. split; [exact B|]. now apply same_name_cpp.
      + right. exists a, t', u'. split; auto. split; auto. now apply same_name_cpp.
    - intros [(A & B & C)|(a & t' & u' & -> & -> & C)].
      + left. split; [exact A|]. split; [exact B|]. now apply same_cpp_name.
      + right. exists a, t', u'. split; auto. split; auto. now apply same_cpp_name.
  Qed.

  (** ** Shape of types with the same name, maximal arrays included *)
  Inductive shape : rty -> rty -> Prop :=
  | sh_class t u s : binds E t s -> binds E u s -> shape t u
  | sh_ptr k k' t u : shape t u -> shape (Ptr k t) (Ptr k' u)
  | sh_array t u n : shape t u -> shape (Array t n) (Array u n)
  | sh_slice t u : shape t u -> shape (Slice t) (Slice u)
  | sh_as t u : shape t u -> shape (Array t usize_max) (Slice u)
  | sh_sa t u : shape t u -> shape (Slice t) (Array u usize_max).

  Lemma same_name_shape t : forall u, same_name t u -> shape t u.
  Proof.
    induction t as [s d|d|k t IH|t IH n|t IH|t IH]; intros u (m & N & M).
    - cbn [Model.cpp_name] in N. injection N as <-. apply name_symbol in M.
      apply sh_class with s; auto. constructor.
    - cbn [Model.cpp_name] in N. destruct (d_name (E d)) as [s|] eqn:D; try discriminate.
      injection N as <-. apply name_symbol in M. apply sh_class with s; auto. now constructor.
    - cbn [Model.cpp_name] in N. destruct (ptr_tag E unstable k t) as [g|] eqn:G; try discriminate.
      destruct (cpp_name t) as [n|] eqn:T; try discriminate. injection N as <-.
      destruct u as [s d|d|k' u|u l|u|u]; cbn [Model.cpp_name] in M; try discriminate.
      + destruct (d_name (E d)); discriminate.
      + destruct (ptr_tag E unstable k' u) as [g'|] eqn:G'; try discriminate.
        destruct (cpp_name u) as [n'|] eqn:U; try discriminate. injection M as -> ->.
        constructor. apply IH. exists n. auto.
      + destruct (cpp_name u); try discriminate. injection M as <- <-.
        apply tag_cases in G.
        destruct G as [[Q Q']|[[Q Q']|[(b & Q & F')|(b & Q & F')]]]; discriminate.
      + destruct (cpp_name u); try discriminate. injection M as <- <-.
        apply tag_cases in G.
        destruct G as [[Q Q']|[[Q Q']|[(b & Q & F')|(b & Q & F')]]]; discriminate.
    - cbn [Model.cpp_name] in N. destruct (cpp_name t) as [n'|] eqn:T; try discriminate.
      injection N as <-.
      destruct u as [s d|d|k' u|u l|u|u]; cbn [Model.cpp_name] in M; try discriminate.
      + destruct (d_name (E d)); discriminate.
      + destruct (ptr_tag E unstable k' u) as [g'|] eqn:G'; try discriminate.
        destruct (cpp_name u) as [n''|] eqn:U; try discriminate. injection M as -> ->.
        apply tag_cases in G'.
        destruct G' as [[Q Q']|[[Q Q']|[(b & Q & F')|(b & Q & F')]]]; discriminate.
      + destruct (cpp_name u) eqn:U; try discriminate. injection M as -> ->.
        constructor. apply IH. exists n'. auto.
      + destruct (cpp_name u) eqn:U; try discriminate. injection M as <- ->.
        constructor. apply IH. exists n'. auto.
    - cbn [Model.cpp_name] in N. destruct (cpp_name t) as [n'|] eqn:T; try discriminate.
      injection N as <-.
      destruct u as [s d|d|k' u|u l|u|u]; cbn [Model.cpp_name] in M; try discriminate.
      + destruct (d_name (E d)); discriminate.
      + destruct (ptr_tag E unstable k' u) as [g'|] eqn:G'; try discriminate.
        destruct (cpp_name u) as [n''|] eqn:U; try discriminate. injection M as -> ->.
        apply tag_cases in G'.
        destruct G' as [[Q Q']|[[Q Q']|[(b & Q & F')|(b & Q & F')]]]; discriminate.
      + destruct (cpp_name u) eqn:U; try discriminate. injection M as -> ->.
        constructor. apply IH. exists n'. auto.
      + destruct (cpp_name u) eqn:U; try discriminate. injection M as ->.
        constructor. apply IH. exists n'. auto.
    - discriminate.
  Qed.

  Lemma binds_is t s : binds E t s ->
    (exists d, t = Incomplete s d) \/ (exists d, t = Complete d /\ d_name (E d) = Some s).
  Proof. intros [? d|d ? H]; eauto. Qed.

  Lemma view_binds mem t s p : binds E t s -> view_at E mem t p = VObject (Some s) p.
  Proof. intros [? d|d ? H]; cbn; auto. now rewrite H. Qed.

  Lemma shape_slice_r t u : shape t (Slice u) ->
    (exists t', t = Slice t' /\ shape t' u) \/ (exists t', t = Array t' usize_max /\ shape t' u).
  Proof. intros H. inversion H; subst; eauto. inversion H1. Qed.

  (** views of pointers to non-slices *)
  Lemma view_thin mem k u p : sized u = true ->
    view_at E mem (Ptr k u) p = VPointer p (view_at E mem u (mem p)).
  Proof. destruct u; cbn; intros; auto; discriminate. Qed.

  Lemma seq_inj p q l m : VSequence p l = VSequence q m -> l = m.
  Proof. congruence. Qed.
  Lemma arr_inj p q l m : VArray p l = VArray q m -> l = m.
  Proof. congruence. Qed.
  Lemma ptr_inj p q v w : VPointer p v = VPointer q w -> v = w.
  Proof. congruence. Qed.
  Lemma cons_inj (a b : view) l m : a :: l = b :: m -> a = b /\ l = m.
  Proof. intros H. split; congruence. Qed.

  Definition addr (v : view) : N :=
    match v with VObject _ p | VPointer p _ | VSequence p _ | VArray p _ | VNothing p => p end.

  Lemma addr_view mem t p : addr (view_at E mem t p) = p.
  Proof. destruct t as [| |k []| | |]; reflexivity. Qed.

  Lemma shape_thin_strides t u : shape t u -> same_strides E t u -> sized t = sized u.
  Proof.
    intros H. destruct H as [t u s B B'| | | | |]; cbn; auto; try contradiction.
    apply binds_is in B. apply binds_is in B'.
    destruct B as [[d ->]|[d [-> _]]]; destruct B' as [[d' ->]|[d' [-> _]]]; auto.
  Qed.

  Lemma strides_view_gen t u : shape t u -> same_strides E t u ->
    (forall mem p, view_at E mem t p = view_at E mem u p) /\
    (forall a b, t = Slice a -> u = Slice b ->
       size_of E a = size_of E b /\ forall mem p, view_at E mem a p = view_at E mem b p).
  Proof.
    induction 1 as [t u s B B'|k k' t u H IH|t u n H IH|t u H IH|t u H IH|t u H IH];
      intros S.
    - split; [intros; now rewrite (view_binds _ _ _ _ B), (view_binds _ _ _ _ B')|].
      intros a b -> ->. inversion B.
    - split; [|intros; discriminate]. intros mem p.
      cbn [same_strides] in S. pose proof (shape_thin_strides _ _ H S) as ZZ.
      destruct (IH S) as [V W].
      destruct (sized t) eqn:T.
      + rewrite !view_thin by congruence. now rewrite V.
      + destruct t as [| | | |t|]; try discriminate. destruct u as [| | | |u|]; try discriminate.
        destruct (W t u eq_refl eq_refl) as [Q V'].
        cbn [view_at]. f_equal. rewrite Q. apply map_ext. intros i. apply V'.
    - split; [|intros; discriminate]. intros mem p.
      cbn [same_strides] in S. destruct S as [_ [Z|[Z S]]].
      + subst n. reflexivity.
      + destruct (IH S) as [V _]. cbn [view_at]. f_equal.
        destruct Z as [->|Q].
        * change (indices 1) with [0]. cbn [map]. now rewrite !N.mul_0_l, V.
        * rewrite Q. apply map_ext. intros i. apply V.
    - cbn [same_strides] in S. destruct S as [Q S]. destruct (IH S) as [V _]. split; [reflexivity|].
      intros a b A B. injection A as <-. injection B as <-. auto.
    - contradiction.
    - contradiction.
  Qed.

  Lemma strides_view t u : shape t u -> same_strides E t u ->
    forall mem p, view_at E mem t p = view_at E mem u p.
  Proof. intros H S. exact (proj1 (strides_view_gen _ _ H S)). Qed.

  Lemma strides_ptr_size t u : shape t u -> same_strides E t u -> ptr_size t = ptr_size u.
  Proof. intros H S. unfold ptr_size. now rewrite (shape_thin_strides _ _ H S). Qed.

  Lemma strides_view_vec k k' t u : shape t u -> same_strides E t u ->
    forall mem p, view_at E mem (Vec (Ptr k t)) p = view_at E mem (Vec (Ptr k' u)) p.
  Proof.
    intros H S mem p.
    pose proof (strides_view (Ptr k t) (Ptr k' u) (sh_ptr _ _ _ _ H) S) as V.
    cbn [view_at size_of] in *. f_equal. rewrite (strides_ptr_size _ _ H S).
    apply map_ext. intros i. apply V.
  Qed.

  (** The constant memory in which every word is 2 tells all differences. *)
  Definition two : N -> N := fun _ => 2.

  Lemma indices_two : indices 2 = [0; 1].
  Proof. reflexivity. Qed.

  Lemma indices_pos n : 0 < n -> exists l, indices n = 0 :: l.
  Proof.
    intros H. unfold indices. destruct (N.to_nat n) as [|k] eqn:K; [lia|]. cbn. eauto.
  Qed.

  Lemma indices_pos2 n : 1 < n -> exists l, indices n = 0 :: 1 :: l.
  Proof.
    intros H. unfold indices. destruct (N.to_nat n) as [|[|k]] eqn:K; [lia|lia|]. cbn. eauto.
  Qed.

  Lemma view_strides_gen t u : shape t u -> wf t = true -> wf u = true ->
    (sized t = true -> sized u = true ->
       forall p, view_at E two t p = view_at E two u p -> same_strides E t u) /\
    (forall a b, t = Slice a -> u = Slice b ->
       forall p, view_at E two a p = view_at E two b p -> same_strides E a b).
  Proof.
    induction 1 as [t u s B B'|k k' t u H IH|t u n H IH|t u H IH|t u H IH|t u H IH];
      intros X Y.
    - split.
      + intros _ _ p _. apply binds_is in B. apply binds_is in B'.
        destruct B as [[d ->]|[d [-> _]]]; destruct B' as [[d' ->]|[d' [-> _]]]; exact Logic.I.
      + intros a b -> ->. inversion B.
    - split; [|intros; discriminate]. intros _ _ p V.
      cbn [wf] in X, Y. destruct (IH X Y) as [A B]. cbn [same_strides].
      destruct (sized t) eqn:T; destruct (sized u) eqn:U.
      + rewrite !view_thin in V by congruence. injection V as V. eauto.
      + rewrite view_thin in V by congruence.
        destruct u as [| | | |u|]; try discriminate.
      + rewrite (view_thin _ _ u) in V by congruence.
        destruct t as [| | | |t|]; try discriminate.
      + destruct t as [| | | |t|]; try discriminate. destruct u as [| | | |u|]; try discriminate.
        cbn [view_at] in V. change (two (p + word)) with 2 in V. rewrite !indices_two in V.
        cbn [map] in V. apply seq_inj in V. apply cons_inj in V as [V0 V].
        apply cons_inj in V as [V1 _].
        rewrite !N.mul_0_l in V0. rewrite !N.mul_1_l in V1.
        split; [|apply (B _ _ eq_refl eq_refl _ V0)].
        apply (f_equal addr) in V1. rewrite !addr_view in V1. unfold two in V1. lia.
    - split; [|intros; discriminate]. intros _ _ p V.
      cbn [wf] in X, Y. apply andb_prop in X as [X _]. apply andb_prop in X as [X X'].
      apply andb_prop in Y as [Y _]. apply andb_prop in Y as [Y Y'].
      destruct (IH X Y) as [A _]. cbn [same_strides]. split; [reflexivity|].
      cbn [view_at] in V. apply arr_inj in V.
      destruct (N.eq_dec n 0) as [Z|Z]; [now left|right].
      destruct (N.eq_dec n 1) as [O|O].
      + split; [now left|]. subst n. destruct (indices_pos 1) as [l L]; [lia|].
        rewrite L in V. cbn [map] in V. apply cons_inj in V as [V0 _].
        rewrite !N.mul_0_l in V0. apply (A X' Y' _ V0).
      + destruct (indices_pos2 n) as [l L]; [lia|]. rewrite L in V. cbn [map] in V.
        apply cons_inj in V as [V0 V]. apply cons_inj in V as [V1 _]. rewrite !N.mul_0_l in V0. rewrite !N.mul_1_l in V1.
        split; [right|apply (A X' Y' _ V0)].
        apply (f_equal addr) in V1. rewrite !addr_view in V1. lia.
    - cbn [wf] in X, Y. apply andb_prop in X as [X X']. apply andb_prop in Y as [Y Y'].
      destruct (IH X Y) as [A _]. split; [discriminate|].
      intros a b P Q. injection P as <-. injection Q as <-. intros p V. exact (A X' Y' p V).
    - split; [discriminate|intros; discriminate].
    - split; [discriminate|intros; discriminate].
  Qed.

  Lemma view_strides t u : shape t u -> wf t = true -> wf u = true ->
    sized t = true -> sized u = true ->
    (forall mem p, view_at E mem t p = view_at E mem u p) -> same_strides E t u.
  Proof.
    intros H X Y A B V. destruct (view_strides_gen _ _ H X Y) as [R _].
    apply (R A B 0). apply V.
  Qed.

  Lemma view_vec mem e p : view_at E mem (Vec e) p =
    VSequence p (map (fun i => view_at E mem e (mem p + i * size_of E e))
                     (indices (mem (p + word)))).
  Proof. reflexivity. Qed.

  Lemma view_strides_vec k k' t u : shape t u -> wf t = true -> wf u = true ->
    (forall mem p, view_at E mem (Vec (Ptr k t)) p = view_at E mem (Vec (Ptr k' u)) p) ->
    same_strides E t u.
  Proof.
    intros H X Y V. specialize (V two 0).
    destruct (view_strides_gen _ _ (sh_ptr k k' _ _ H) X Y) as [A _].
    rewrite !view_vec in V. change (two (0 + word)) with 2 in V. rewrite indices_two in V.
    cbn [map] in V. apply seq_inj in V. apply cons_inj in V as [V0 _].
    rewrite !N.mul_0_l in V0. exact (A eq_refl eq_refl _ V0).
  Qed.

  (** ** Sizes *)
  Lemma agree_sizes t u : definitions_agree E -> shape t u ->
    no_max_array t -> no_max_array u ->
    bottom_incomplete t = false -> bottom_incomplete u = false -> size_of E t = size_of E u.
  Proof.
    intros D. induction 1 as [t u s B B'|k k' t u H IH|t u n H IH|t u H IH|t u H IH|t u H IH];
      intros X Y P Q; cbn [size_of].
    - apply binds_is in B. apply binds_is in B'.
      destruct B as [[d ->]|[d [-> A]]]; try discriminate.
      destruct B' as [[d' ->]|[d' [-> A']]]; try discriminate.
      cbn. now destruct (D d d' s A A').
    - unfold ptr_size. replace (sized u) with (sized t); auto.
      destruct H as [t u s B B'| | | |t u H|t u H]; cbn; auto; cbn in X, Y; try lia.
      apply binds_is in B. apply binds_is in B'.
      destruct B as [[d ->]|[d [-> A]]]; destruct B' as [[d' ->]|[d' [-> A']]]; reflexivity.
    - cbn in X, Y, P, Q. f_equal. apply IH; tauto.
    - reflexivity.
    - cbn [no_max_array] in X. lia.
    - cbn [no_max_array] in Y. lia.
  Qed.

  Lemma agree_strides t u : definitions_agree E -> shape t u ->
    no_max_array t -> no_max_array u ->
    no_incomplete_elements t -> no_incomplete_elements u -> same_strides E t u.
  Proof.
    intros D. induction 1 as [t u s B B'|k k' t u H IH|t u n H IH|t u H IH|t u H IH|t u H IH];
      intros X Y P Q; cbn [same_strides].
    - apply binds_is in B. apply binds_is in B'.
      destruct B as [[d ->]|[d [-> A]]]; destruct B' as [[d' ->]|[d' [-> A']]]; exact Logic.I.
    - auto.
    - cbn [no_max_array no_incomplete_elements] in *. split; auto. right.
      split; [right; apply agree_sizes; tauto|tauto].
    - cbn [no_max_array no_incomplete_elements] in *. split; [apply agree_sizes; tauto|tauto].
    - cbn [no_max_array] in X. lia.
    - cbn [no_max_array] in Y. lia.
  Qed.

  Lemma coercible_shape t u : coercible t u ->
    (sized t = true /\ sized u = true /\ shape t u) \/
    (exists a t' u', t = Vec (Ptr (KRef a) t') /\ u = Vec (Ptr (KRef a) u') /\ shape t' u').
  Proof.
    intros [(A & B & C)|(a & t' & u' & -> & -> & C)].
    - left. split; auto. split; auto. now apply same_name_shape.
    - right. exists a, t', u'. split; auto. split; auto. now apply same_name_shape.
  Qed.

  Lemma shape_no_vec t u : ~ shape (Vec t) u.
  Proof. intros H. inversion H; subst. inversion H0. Qed.

  (** ** Exclusive references *)
  Lemma named_excl t m : cpp_name t = Some m -> forall a e, occurs t (Ptr (KRefMut a) e) -> movable E e.
  Proof.
    revert m. induction t as [s d|d|k t IH|t IH n|t IH|t IH]; intros m N a e O;
      cbn [Model.cpp_name] in N.
    - inversion O.
    - inversion O.
    - destruct (ptr_tag E unstable k t) as [g|] eqn:G; try discriminate.
      destruct (cpp_name t) as [n|] eqn:T; try discriminate.
      inversion O; subst; eauto.
      cbn in G. destruct (unpin E e) eqn:U; try discriminate. now apply movable_iff.
    - destruct (cpp_name t) as [n'|] eqn:T; try discriminate. inversion O; subst; eauto.
    - destruct (cpp_name t) as [n'|] eqn:T; try discriminate. inversion O; subst; eauto.
    - discriminate.
  Qed.
End Env.
