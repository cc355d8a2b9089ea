(** * Proofs about names. *)
From Coq Require Import List Arith Bool String Ascii DecimalString DecimalNat Lia.
From Verif.CppCall Require Import Names.
Import ListNotations.
Local Open Scope string_scope.
Local Open Scope nat_scope.
Local Open Scope list_scope.

Notation chars := list_ascii_of_string.
Definition rc (s : string) : list ascii := rev (chars s).

Lemma chars_app : forall a b, chars (a ++ b)%string = chars a ++ chars b.
Proof. induction a; intros b; cbn; [reflexivity|]. f_equal. apply IHa. Qed.
Lemma rc_app : forall a b, rc (a ++ b)%string = rc b ++ rc a.
Proof. intros. unfold rc. rewrite chars_app, rev_app_distr. reflexivity. Qed.
Lemma rc_inj : forall a b, rc a = rc b -> a = b.
Proof.
  intros a b H. unfold rc in H. apply (f_equal (@rev ascii)) in H. rewrite !rev_involutive in H.
  rewrite <- (string_of_list_ascii_of_string a), <- (string_of_list_ascii_of_string b), H. reflexivity.
Qed.

Definition is_digit (c : ascii) : bool := let n := nat_of_ascii c in (48 <=? n) && (n <=? 57).

Lemma string_of_uint_digits : forall u, Forall (fun c => is_digit c = true) (chars (NilEmpty.string_of_uint u)).
Proof. induction u; cbn; constructor; auto. Qed.

Lemma rc_digits : forall n, Forall (fun c => is_digit c = true) (rc (decimal n)).
Proof. intros n. apply Forall_rev. apply string_of_uint_digits. Qed.

Lemma decimal_inj : forall n m, decimal n = decimal m -> n = m.
Proof.
  intros n m H. unfold decimal in H.
  apply (f_equal NilEmpty.uint_of_string) in H. rewrite !NilEmpty.usu in H. injection H as H.
  apply Unsigned.to_uint_inj. exact H.
Qed.

Lemma decimal_nonempty : forall n, exists d r, rc (decimal n) = d :: r /\ is_digit d = true.
Proof.
  intros n. pose proof (rc_digits n) as F. destruct (rc (decimal n)) as [|d r] eqn:E.
  - exfalso. assert (K : decimal n = "") by (apply rc_inj; exact E). unfold decimal in K.
    destruct (Nat.to_uint n) eqn:U; try discriminate.
    assert (n = 0) as ->.
    { pose proof (Unsigned.of_to n) as O. rewrite U in O. cbn in O. auto. }
    discriminate.
  - inversion F; subst. eauto.
Qed.

Lemma digits_split : forall c a b A B, is_digit c = false ->
  Forall (fun c => is_digit c = true) a -> Forall (fun c => is_digit c = true) b ->
  a ++ c :: A = b ++ c :: B -> a = b /\ A = B.
Proof.
  intros c a. induction a as [|x a IH]; intros b A B C Fa Fb H; destruct b as [|y b]; cbn in H.
  - injection H as H. auto.
  - exfalso. injection H as H _. inversion Fb; subst. congruence.
  - exfalso. injection H as H _. inversion Fa; subst. congruence.
  - injection H as -> H. inversion Fa; inversion Fb; subst.
    destruct (IH b A B C) as [-> ->]; auto.
Qed.

(** Names with a position: [__<word>_<position>]. *)
Definition positioned (s : string) : Prop := exists w i, s = ("__" ++ w ++ "_" ++ decimal i)%string.

Lemma positioned_inj : forall v w i j,
  ("__" ++ v ++ "_" ++ decimal i)%string = ("__" ++ w ++ "_" ++ decimal j)%string -> i = j.
Proof.
  intros v w i j H. apply (f_equal rc) in H. rewrite !rc_app in H.
  rewrite <- !app_assoc in H. change (rc "_") with ["_"%char] in H.
  rewrite <- !app_comm_cons in H. cbn [app] in H.
  apply digits_split in H; auto using rc_digits. destruct H as [H _]. apply decimal_inj. apply rc_inj. exact H.
Qed.

(** ... end in a digit. *)
Lemma positioned_last : forall s, positioned s -> exists d r, rc s = d :: r /\ is_digit d = true.
Proof.
  intros s (w & i & ->). rewrite !rc_app. destruct (decimal_nonempty i) as (d & r & -> & D).
  cbn [app]. eauto.
Qed.

Definition reserved (s : string) : bool := String.prefix "__" s.

Lemma reserved_app : forall s, reserved ("__" ++ s)%string = true.
Proof. intros s. cbn. destruct s; reflexivity. Qed.

(** The translated name of a parameter. *)
Definition user_pname (p : pname) : Prop := match p with Named s => reserved s = false | _ => True end.

Lemma translated_cases : forall i p, user_pname p ->
  (exists s, p = Named s /\ translated_param_name i p = s /\ reserved s = false) \/
  (exists w, translated_param_name i p = ("__" ++ w ++ "_" ++ decimal i)%string /\
             forall s, p <> Named s).
Proof.
  intros i [s| |s] U.
  - left. eauto.
  - right. exists "param". split; [reflexivity|discriminate].
  - right. exists s. split; [reflexivity|discriminate].
Qed.

Lemma translated_distinct : forall i j p q, user_pname p -> user_pname q -> i <> j ->
  (forall s, p = Named s -> q = Named s -> False) ->
  translated_param_name i p <> translated_param_name j q.
Proof.
  intros i j p q Up Uq Hij Hn E.
  destruct (translated_cases i p Up) as [(s & -> & Es & Rs)|(w & Ew & Nw)];
    destruct (translated_cases j q Uq) as [(t & -> & Et & Rt)|(v & Ev & Nv)].
  - apply (Hn s); [reflexivity|]. congruence.
  - rewrite Es, Ev in E. subst s. rewrite reserved_app in Rs. discriminate.
  - rewrite Ew, Et in E. subst t. rewrite reserved_app in Rt. discriminate.
  - rewrite Ew, Ev in E. apply positioned_inj in E. contradiction.
Qed.

Lemma in_translated : forall l i s, In s (translated_from i l) ->
  exists j p, nth_error l j = Some p /\ s = translated_param_name (i + j) p.
Proof.
  induction l as [|p l IH]; intros i s H; [destruct H|]. destruct H as [<-|H].
  - exists 0, p. rewrite Nat.add_0_r. auto.
  - destruct (IH _ _ H) as (j & q & E & ->). exists (S j), q. split; [exact E|]. f_equal. lia.
Qed.

(** The names the programmer gave. *)
Fixpoint given (l : list pname) : list string :=
  match l with [] => [] | Named s :: r => s :: given r | _ :: r => given r end.

Lemma in_given : forall l s, In s (given l) <-> In (Named s) l.
Proof.
  induction l as [|p l IH]; intros s; [reflexivity|]. destruct p; cbn [given In]; rewrite IH.
  - split; intros [H|H]; auto; left; congruence.
  - split; [auto|intros [H|H]; [discriminate|auto]].
  - split; [auto|intros [H|H]; [discriminate|auto]].
Qed.

Lemma translated_nodup : forall l i, Forall user_pname l -> NoDup (given l) -> NoDup (translated_from i l).
Proof.
  induction l as [|p l IH]; intros i U N; [constructor|]. inversion U; subst. cbn [translated_from].
  constructor.
  - intros K. apply in_translated in K. destruct K as (j & q & E & K).
    apply (translated_distinct i (S i + j) p q); auto; try lia.
    + apply nth_error_In in E. rewrite Forall_forall in H2. auto.
    + intros s -> ->. cbn [given] in N. inversion N; subst. apply H3. apply in_given. eapply nth_error_In; eassumption.
  - apply IH; auto. destruct p; cbn [given] in N; try assumption. inversion N; assumption.
Qed.

Lemma in_decoders : forall l i s, In s (decoders i l) ->
  exists x, s = ("__" ++ x ++ "_decoder")%string /\ In x (translated_from i (List.map fst l)).
Proof.
  induction l as [|[p b] l IH]; intros i s H; [destruct H|]. cbn [decoders] in H. cbn [List.map fst translated_from].
  destruct b.
  - destruct H as [<-|H].
    + exists (translated_param_name i p). split; [reflexivity|left; reflexivity].
    + destruct (IH _ _ H) as (x & -> & K). exists x. split; [reflexivity|right; exact K].
  - destruct (IH _ _ H) as (x & -> & K). exists x. split; [reflexivity|right; exact K].
Qed.

Lemma decoder_inj : forall x y, ("__" ++ x ++ "_decoder")%string = ("__" ++ y ++ "_decoder")%string -> x = y.
Proof.
  intros x y H. apply (f_equal rc) in H. rewrite !rc_app in H. rewrite <- !app_assoc in H.
  apply app_inv_head in H. apply app_inv_tail in H. apply rc_inj. exact H.
Qed.

Lemma decoders_nodup : forall l i, NoDup (translated_from i (List.map fst l)) -> NoDup (decoders i l).
Proof.
  induction l as [|[p b] l IH]; intros i N; [constructor|]. cbn [List.map fst translated_from] in N.
  inversion N; subst. cbn [decoders]. destruct b; [|auto].
  constructor; [|auto]. intros K. apply in_decoders in K. destruct K as (x & E & K).
  apply decoder_inj in E. subst x. contradiction.
Qed.

(** Classes of names. *)
Lemma in_translated_class : forall l i s, Forall user_pname l -> In s (translated_from i l) ->
  (In s (given l) /\ reserved s = false) \/ positioned s.
Proof.
  intros l i s U H. apply in_translated in H. destruct H as (j & p & E & ->).
  assert (Up : user_pname p) by (rewrite Forall_forall in U; apply U; eapply nth_error_In; eassumption).
  destruct (translated_cases (i + j) p Up) as [(t & -> & -> & R)|(w & -> & _)].
  - left. split; [|exact R]. apply in_given. eapply nth_error_In; eassumption.
  - right. exists w, (i + j). reflexivity.
Qed.

Lemma given_translated : forall l i s, In s (given l) -> In s (translated_from i l).
Proof.
  induction l as [|p l IH]; intros i s H; [destruct H|].
  destruct p; cbn [given] in H; cbn [translated_from translated_param_name].
  - destruct H as [->|H]; [left; reflexivity|right; auto].
  - right; auto.
  - right; auto.
Qed.

Lemma not_positioned : forall s d r, rc s = d :: r -> is_digit d = false -> ~ positioned s.
Proof. intros s d r E D P. apply positioned_last in P. destruct P as (d' & r' & E' & D'). congruence. Qed.

Lemma decoder_not_positioned : forall x, ~ positioned ("__" ++ x ++ "_decoder")%string.
Proof.
  intros x. eapply not_positioned.
  - rewrite !rc_app. cbn. reflexivity.
  - reflexivity.
Qed.

Lemma decoder_not : forall x s d, rc s = d -> firstn 8 d <> rc "_decoder" -> ("__" ++ x ++ "_decoder")%string <> s.
Proof.
  intros x s d E N H. apply N. subst. rewrite !rc_app. reflexivity.
Qed.

Definition outs (f : cpp_fn) : list string :=
  match n_ret f with ByOut => ["__return"] | ByBuffer => ["__return_abi_buffer"] | _ => [] end.
Definition this (f : cpp_fn) : list string :=
  match n_called f with FreeFunction _ _ => [] | _ => ["__this"] end.
Definition encs (f : cpp_fn) : list string :=
  match n_ret f with ByBuffer => ["__return_encoder"] | _ => [] end.
Definition lvs (f : cpp_fn) : list string :=
  match n_ret f with ByNamedRef => ["lvalue"] | _ => [] end.

Lemma all_names : forall f, thunk_params f ++ thunk_locals f =
  (outs f ++ this f) ++ translated_from 0 (List.map fst (n_params f)) ++ decoders 0 (n_params f) ++ encs f ++ lvs f.
Proof.
  intros f. unfold thunk_params, thunk_locals, param_idents, outs, this, encs, lvs.
  destruct (n_ret f), (n_called f); cbn [app]; rewrite ?app_nil_r; reflexivity.
Qed.

Lemma nodup_app : forall (A : Type) (a b : list A), NoDup a -> NoDup b -> (forall x, In x a -> ~ In x b) -> NoDup (a ++ b).
Proof.
  induction a as [|x a IH]; intros b Na Nb H; [exact Nb|]. inversion Na; subst. cbn. constructor.
  - rewrite in_app_iff. intros [K|K]; [contradiction|]. exact (H x (or_introl eq_refl) K).
  - apply IH; auto. intros y Hy. apply H. right. exact Hy.
Qed.

(** Every generated name is reserved; the fixed ones end as they do. *)
Lemma fixed_class : forall f s, In s (outs f ++ this f ++ encs f) ->
  reserved s = true /\ ~ positioned s /\ (forall x, ("__" ++ x ++ "_decoder")%string <> s) /\ s <> "lvalue".
Proof.
  intros f s H.
  assert (K : s = "__return" \/ s = "__return_abi_buffer" \/ s = "__this" \/ s = "__return_encoder").
  { unfold outs, this, encs in H. destruct (n_ret f), (n_called f); cbn in H; intuition. }
  destruct K as [->|[->|[->| ->]]]; (split; [reflexivity|]); split;
    try (eapply not_positioned; [cbn; reflexivity|reflexivity]);
    (split; [intros x; eapply decoder_not; [reflexivity|cbn; discriminate]|discriminate]).
Qed.

Section Thunk.
  Variable f : cpp_fn.
  Hypothesis user : Forall user_pname (List.map fst (n_params f)).
  Hypothesis distinct : NoDup (given (List.map fst (n_params f))).

  Lemma names_nodup :
    NoDup (thunk_params f ++ thunk_locals f) <->
    (n_ret f = ByNamedRef -> ~ In "lvalue" (given (List.map fst (n_params f)))).
  Proof.
    rewrite all_names.
    pose proof (translated_nodup _ 0 user distinct) as Nt.
    split.
    - intros N R K. unfold lvs, encs in N. rewrite R in N. cbn [app] in N.
      apply (given_translated _ 0) in K.
      rewrite !app_assoc in N. apply NoDup_remove in N. rewrite app_nil_r in N. destruct N as [_ N].
      apply N. rewrite !in_app_iff. tauto.
    - intros H.
      apply nodup_app.
      + unfold outs, this. destruct (n_ret f), (n_called f); cbn; repeat constructor; cbn; intuition discriminate.
      + apply nodup_app; [exact Nt| |].
        * apply nodup_app; [apply decoders_nodup; exact Nt| |].
          -- unfold encs, lvs. destruct (n_ret f); cbn; repeat constructor; intros [].
          -- intros s K1 K2. apply in_decoders in K1. destruct K1 as (x & -> & _).
             apply in_app_iff in K2. destruct K2 as [K2|K2].
             ++ destruct (fixed_class f ("__" ++ x ++ "_decoder")%string) as (_ & _ & D & _);
                  [rewrite !in_app_iff; auto|]. exact (D x eq_refl).
             ++ unfold lvs in K2. destruct (n_ret f); try contradiction. destruct K2 as [K2|[]]. discriminate.
        * intros s K1 K2. rewrite !in_app_iff in K2.
          destruct (in_translated_class _ _ _ user K1) as [[Kg Kr]|Kp].
          -- destruct K2 as [K2|[K2|K2]].
             ++ apply in_decoders in K2. destruct K2 as (x & -> & _). rewrite reserved_app in Kr. discriminate.
             ++ destruct (fixed_class f s) as (Rs & _); [rewrite !in_app_iff; auto|]. congruence.
             ++ unfold lvs in K2. destruct (n_ret f) eqn:R; try contradiction. destruct K2 as [<-|[]].
                exact (H eq_refl Kg).
          -- destruct K2 as [K2|[K2|K2]].
             ++ apply in_decoders in K2. destruct K2 as (x & -> & _). exact (decoder_not_positioned _ Kp).
             ++ destruct (fixed_class f s) as (_ & Ps & _); [rewrite !in_app_iff; auto|]. contradiction.
             ++ unfold lvs in K2. destruct (n_ret f) eqn:R; try contradiction. destruct K2 as [<-|[]].
                revert Kp. eapply not_positioned; [cbn; reflexivity|reflexivity].
      + intros s K1 K2. destruct (fixed_class f s) as (Rs & Ps & Ds & Ls).
        { rewrite !in_app_iff in *. tauto. }
        rewrite !in_app_iff in K2. destruct K2 as [K2|[K2|[K2|K2]]].
        * destruct (in_translated_class _ _ _ user K2) as [[_ Kr]|Kp]; [congruence|contradiction].
        * apply in_decoders in K2. destruct K2 as (x & -> & _). exact (Ds x eq_refl).
        * unfold outs, this, encs in *. destruct (n_ret f), (n_called f); cbn in *; intuition (subst; discriminate).
        * unfold lvs in K2. destruct (n_ret f); try contradiction. destruct K2 as [<-|[]]. exact (Ls eq_refl).
  Qed.

  Lemma call_meaning : forall g, n_called f = FreeFunction [] g -> reserved g = false ->
    (call_means f = TheFunction <->
     ~ In g (given (List.map fst (n_params f))) /\ (n_ret f = ByNamedRef -> g <> "lvalue")).
  Proof.
    intros g C Rg. unfold call_means. rewrite C.
    assert (E : existsb (String.eqb g) (thunk_params f ++ thunk_locals f) = true <->
                In g (given (List.map fst (n_params f))) \/ (n_ret f = ByNamedRef /\ g = "lvalue")).
    { rewrite existsb_exists. split.
      - intros (s & K & Es). apply String.eqb_eq in Es. subst s. rewrite all_names in K.
        rewrite !in_app_iff in K.
        assert (Fx : In g (outs f ++ this f ++ encs f) -> False).
        { intros Kx. apply fixed_class in Kx. destruct Kx as [Kx _]. congruence. }
        rewrite !in_app_iff in Fx.
        destruct K as [[K|K]|[K|[K|[K|K]]]]; try tauto.
        + destruct (in_translated_class _ _ _ user K) as [[Kg _]|Kp]; [auto|].
          destruct Kp as (w & i & ->). rewrite reserved_app in Rg. discriminate.
        + apply in_decoders in K. destruct K as (x & -> & _). rewrite reserved_app in Rg. discriminate.
        + unfold lvs in K. destruct (n_ret f); try contradiction. destruct K as [K|[]]. auto.
      - intros H. exists g. split; [|apply String.eqb_refl]. rewrite all_names. rewrite !in_app_iff.
        destruct H as [H|[H ->]].
        + right. left. apply given_translated. exact H.
        + right. right. right. right. unfold lvs. rewrite H. left. reflexivity. }
    destruct (existsb _ _) eqn:X.
    - destruct (proj1 E eq_refl) as [K|[K1 K2]]; split; intros H; try discriminate; exfalso; tauto.
    - split; [intros _|reflexivity]. split.
      + intros K. discriminate (proj2 E (or_introl K)).
      + intros R Eg. discriminate (proj2 E (or_intror (conj R Eg))).
  Qed.
End Thunk.

(** Constructors in Rust. *)
Lemma resolve_app : forall a b s, resolve (a ++ b) s = match resolve b s with Some c => Some c | None => resolve a s end.
Proof.
  induction a as [|[x c] a IH]; intros b s; cbn [app resolve].
  - destruct (resolve b s); reflexivity.
  - rewrite IH. destruct (resolve b s); reflexivity.
Qed.

Lemma resolve_none : forall l i s, ~ In s l -> resolve (bind_args i l) s = None.
Proof.
  induction l as [|x l IH]; intros i s H; [reflexivity|]. cbn [bind_args resolve].
  rewrite IH by (intros K; apply H; right; exact K).
  destruct (String.eqb_spec s x); [exfalso; apply H; left; congruence|reflexivity].
Qed.

Lemma resolve_arg : forall l i j s, NoDup l -> nth_error l j = Some s -> resolve (bind_args i l) s = Some (Arg (i + j)).
Proof.
  induction l as [|x l IH]; intros i j s N E; [destruct j; discriminate|].
  inversion N; subst. cbn [bind_args resolve]. destruct j as [|j]; cbn in E.
  - injection E as ->. rewrite resolve_none by assumption. rewrite String.eqb_refl. f_equal. f_equal. lia.
  - rewrite (IH (S i) j s) by assumption. f_equal. f_equal. lia.
Qed.

Lemma ctor_resolves : forall l j s, NoDup l -> nth_error l j = Some s ->
  (resolve (ctor_bindings l) s = Some (Arg j) <-> s <> "tmp").
Proof.
  intros l j s N E. unfold ctor_bindings. rewrite resolve_app. cbn [resolve].
  destruct (String.eqb_spec s "tmp") as [->|H].
  - split; [discriminate|congruence].
  - rewrite (resolve_arg l 0 j s N E). tauto.
Qed.

(** Symbols. *)
Section Symbols.
  Variable xid : nat -> bool.
  Hypothesis xid_digit : forall n, 48 <= n <= 57 -> xid n = true.
  Hypothesis xid_u : xid 117 = true.
  Hypothesis xid_underscore : xid 95 = true.

  Lemma uint_codes_xid : forall u, forallb xid (uint_codes u) = true.
  Proof. induction u; cbn [uint_codes forallb]; rewrite ?IHu, ?andb_true_r; try reflexivity; apply xid_digit; lia. Qed.

  Lemma escape_xid : forall c, forallb xid (escape c) = true.
  Proof.
    intros c. unfold escape. rewrite !forallb_app, uint_codes_xid. cbn [forallb]. rewrite xid_u, xid_underscore. reflexivity.
  Qed.

  Lemma fragment_xid : forall m, forallb xid (ident_fragment_from_mangled_name xid m) = true.
  Proof.
    intros m. unfold ident_fragment_from_mangled_name.
    set (m' := match m with 1 :: r => r | _ => m end). clearbody m'.
    destruct (forallb xid m') eqn:E; [exact E|]. clear E.
    induction m' as [|c m' IH]; [reflexivity|]. cbn [List.map List.concat]. rewrite forallb_app, IH, andb_true_r.
    destruct (xid c) eqn:X; [cbn; rewrite X; reflexivity|apply escape_xid].
  Qed.

  Lemma fragment_clean : forall m, forallb xid m = true -> xid 1 = false -> ident_fragment_from_mangled_name xid m = m.
  Proof.
    intros m H X. unfold ident_fragment_from_mangled_name.
    destruct m as [|c r]; [reflexivity|].
    destruct (Nat.eq_dec c 1) as [->|Hc]; [cbn in H; rewrite X in H; discriminate|].
    assert (E : match c :: r with 1 :: r' => r' | _ => c :: r end = c :: r).
    { destruct c as [|[|c]]; try reflexivity. congruence. }
    rewrite E, H. reflexivity.
  Qed.
End Symbols.
