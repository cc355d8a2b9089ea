(** * Properties C138-C142: calling C++ from Rust. *)
From Coq Require Import List Arith Bool Lia String.
From Verif.CppCall Require Import Model Spec Proofs Proofs2 Proofs3 Proofs4 Names NamesProofs.
Import ListNotations.
Local Open Scope string_scope.
Local Open Scope nat_scope.
Local Open Scope list_scope.

(** ** C138: both sides of the call agree on how every parameter and the result travel. *)

Theorem C138_thunk_declaration_matches_definition :
  forall (unpin movable same_abi : nat -> bool) (f : func), accepted unpin movable f ->
  exists rps rres th,
    generate_function_thunk unpin same_abi f = Some (rps, rres) /\
    generate_cc_thunk unpin same_abi f = Some th /\
    Forall2 (agree (rust_param same_abi) (cpp_param same_abi)) rps (all_params th) /\
    agree (rust_result same_abi) (cpp_result same_abi) rres (ct_result th).
Proof. intros unpin movable same_abi f. apply thunk_contract. Qed.
Print Assumptions C138_thunk_declaration_matches_definition.

Theorem C138_direct_declaration_matches_function :
  forall (unpin movable same_abi : nat -> bool) (f : func), accepted unpin movable f ->
  can_skip_cc_thunk same_abi f = true ->
  exists rps rres,
    generate_function_thunk unpin same_abi f = Some (rps, rres) /\
    Forall2 (agree (rust_param same_abi) (cpp_abi same_abi)) rps (f_params f) /\
    agree (rust_result same_abi) (cpp_abi same_abi) rres (f_ret f) /\
    is_virtual f = false /\ f_inline f = false /\ f_template f = false /\ f_c_conv f = true.
Proof. intros unpin movable same_abi f. apply direct_contract. Qed.
Print Assumptions C138_direct_declaration_matches_function.

(** An environment: class 0 is [Unpin], 1 is not but can be moved, 2 is [Unpin] with a deleted move
    constructor; type 0 has the same ABI in both languages. *)
Definition ex_unpin (r : nat) : bool := negb (Nat.eqb r 1).
Definition ex_movable (r : nat) : bool := negb (Nat.eqb r 2).
Definition ex_copyable (r : nat) : bool := true.
Definition ex_same (x : nat) : bool := Nat.eqb x 0.

(** A virtual method of C1, [C0 m(int, C0, C1, C0&&, Bridge, alias of C0&) &&]. *)
Definition ex_method : func :=
  Func (Method RQual true)
    [CPtr NonNull (CRec 1); CPrim 0; CRec 0; CRec 1; CPtr RRef (CRec 0); CBridge 0; CAlias 5 (CPtr LRef (CRec 0))]
    (CRec 0) true false true false.
(** [C0&& f(int, pointer to C0)], not inline. *)
Definition ex_plain : func := Func Free [CPrim 3; CPtr Nullable (CRec 0)] (CPtr RRef (CRec 0)) false false true false.
Definition ex_ctor : func := Func Constructor [CPtr LRef (CRec 0); CRec 1; CEnum 4] CVoid true false true false.

Ltac pass := first
  [ eapply pa_rec; [repeat constructor|intros; reflexivity] | eapply pa_ptr; repeat constructor; fail
  | eapply pa_prim; repeat constructor; fail | eapply pa_enum; repeat constructor; fail
  | eapply pa_bridge; repeat constructor; fail ].
Ltac passes := repeat (apply Forall_cons; [pass|]); apply Forall_nil.

Example ex_method_accepted : accepted ex_unpin ex_movable ex_method.
Proof. split; [passes|]. split; [intros H; inversion H|]. do 3 eexists. reflexivity. Qed.
Example ex_plain_accepted : accepted ex_unpin ex_movable ex_plain /\ can_skip_cc_thunk ex_same ex_plain = true.
Proof. split; [|reflexivity]. split; [passes|]. split; [intros H; inversion H|exact Logic.I]. Qed.
Example ex_ctor_accepted : accepted ex_unpin ex_movable ex_ctor.
Proof. split; [passes|]. split; [intros H; inversion H|]. split; [do 2 eexists; reflexivity|reflexivity]. Qed.

(** ** C139: a call reaches the right C++ function once, with the arguments it was given, and the
    result comes back.
    ** C140: every temporary made for a call is ended, exactly once, and nothing else changes. *)

Theorem C139_call_delivers_arguments_and_result :
  forall (unpin movable copyable same_abi : nat -> bool) (f : func) xs c r w,
  accepted unpin movable f -> Forall (fun t => ~ awkward movable t) (f_params f) ->
  Forall2 (fits_param same_abi) (rust_params f) xs -> call_returns same_abi f c r -> fresh_above w ->
  exists w' ev, rust_call unpin movable copyable same_abi f xs c w = Some (r, w') /\
    correct_call same_abi f w xs ev /\ log w' = log w ++ [ev].
Proof.
  intros unpin movable copyable same_abi f xs c r w A Aw Fi Rt Fr.
  destruct (rust_call_ok unpin movable copyable same_abi f xs c r w A Aw Fi Rt Fr) as (w' & ev & E & C & L & _).
  exists w', ev. auto.
Qed.
Print Assumptions C139_call_delivers_arguments_and_result.

Theorem C140_temporaries_end_exactly_once :
  forall (unpin movable copyable same_abi : nat -> bool) (f : func) xs c r w,
  accepted unpin movable f -> Forall (fun t => ~ awkward movable t) (f_params f) ->
  Forall2 (fits_param same_abi) (rust_params f) xs -> call_returns same_abi f c r -> fresh_above w ->
  exists w', rust_call unpin movable copyable same_abi f xs c w = Some (r, w') /\
    (forall a, objs w' a = objs w a).
Proof.
  intros unpin movable copyable same_abi f xs c r w A Aw Fi Rt Fr.
  destruct (rust_call_ok unpin movable copyable same_abi f xs c r w A Aw Fi Rt Fr) as (w' & ev & E & C & L & O).
  exists w'. auto.
Qed.
Print Assumptions C140_temporaries_end_exactly_once.

Definition empty_world : world := World (fun _ => None) 10 [].
Definition ex_args : list rarg := [AWord 3; AWord 7; AOwn 41; AOwn 42; AWord 4; AOwn 43; AWord 5].

Ltac not_awkward :=
  repeat constructor;
  let H := fresh in intros H; inversion H; subst;
    repeat match goal with K : stands_for _ _ |- _ => inversion K; clear K; subst end; discriminate.

Example ex_method_call :
  Forall (fun t => ~ awkward ex_movable t) (f_params ex_method) /\
  Forall2 (fits_param ex_same) (rust_params ex_method) ex_args /\
  call_returns ex_same ex_method (CObj 99) (ROwn 99) /\ fresh_above empty_world /\
  exists w', rust_call ex_unpin ex_movable ex_copyable ex_same ex_method ex_args (CObj 99) empty_world = Some (ROwn 99, w') /\
    log w' = [Called (ToMethod true Xvalue 3)
                [GScalar 7; GObj 14 41; GObj 15 42; GRef Xvalue 4; GObj 16 43; GRef Lvalue 5]].
Proof.
  split; [not_awkward|]. split.
  { apply Forall2_cons; [eapply fp_ptr; constructor|].
    apply Forall2_cons; [eapply fp_prim; constructor|].
    apply Forall2_cons; [eapply fp_rec; constructor|].
    apply Forall2_cons; [eapply fp_rec; constructor|].
    apply Forall2_cons; [eapply fp_ptr; constructor|].
    apply Forall2_cons; [eapply fp_bridge; constructor|].
    apply Forall2_cons; [eapply fp_ptr; repeat constructor|]. apply Forall2_nil. }
  split; [constructor|]. split; [intros a _; reflexivity|].
  eexists. split; [vm_compute; reflexivity|reflexivity].
Qed.

(** Neither exception is idle.  [using R = C0&&; void f(R x)]: the thunk passes the variable [x], an
    lvalue, which does not bind. *)
Definition ex_alias : func := Func Free [CAlias 9 (CPtr RRef (CRec 0))] CVoid true false true false.
Theorem C139_alias_of_rvalue_reference_refuted :
  accepted ex_unpin ex_movable ex_alias /\
  Forall2 (fits_param ex_same) (rust_params ex_alias) [AWord 3] /\
  call_returns ex_same ex_alias CNothing RUnit /\ fresh_above empty_world /\
  rust_call ex_unpin ex_movable ex_copyable ex_same ex_alias [AWord 3] CNothing empty_world = None.
Proof.
  split. { split; [|split; [|exact Logic.I]].
           - constructor; [|constructor]. eapply pa_ptr. repeat constructor.
           - intros H. inversion H. }
  split. { constructor; [|constructor]. eapply fp_ptr. repeat constructor. }
  split; [constructor|]. split; [intros a _; reflexivity|]. reflexivity.
Qed.
Print Assumptions C139_alias_of_rvalue_reference_refuted.

(** [struct C2 { C2(const C2&) = default; C2(C2&&) = delete; }; void f(C2)]: the thunk moves. *)
Definition ex_unmovable : func := Func Free [CRec 2] CVoid true false true false.
Theorem C139_deleted_move_constructor_refuted :
  accepted ex_unpin ex_movable ex_unmovable /\ ex_copyable 2 = true /\
  Forall2 (fits_param ex_same) (rust_params ex_unmovable) [AOwn 3] /\
  call_returns ex_same ex_unmovable CNothing RUnit /\ fresh_above empty_world /\
  rust_call ex_unpin ex_movable ex_copyable ex_same ex_unmovable [AOwn 3] CNothing empty_world = None.
Proof.
  split. { split; [|split; [|exact Logic.I]].
           - constructor; [|constructor]. eapply pa_rec; [constructor|discriminate].
           - intros H. inversion H. }
  split; [reflexivity|].
  split. { constructor; [|constructor]. eapply fp_rec. constructor. }
  split; [constructor|]. split; [intros a _; reflexivity|]. reflexivity.
Qed.
Print Assumptions C139_deleted_move_constructor_refuted.

(** ** C141: the names in thunks and bodies mean what they should. *)

(** C++ parameters: distinct names, none of them reserved; unnamed ones and expanded packs get names. *)
Definition cpp_params_ok (f : cpp_fn) : Prop :=
  NoDup (given (List.map fst (n_params f))) /\
  Forall (fun p => forall s, p = Named s -> String.prefix "__" s = false) (List.map fst (n_params f)).

Lemma params_user : forall f, cpp_params_ok f -> Forall user_pname (List.map fst (n_params f)).
Proof.
  intros f [_ H]. eapply Forall_impl; [|exact H]. intros [s| |s] K; cbn; auto.
Qed.

(** All variables of the thunk are different exactly if no parameter of a function that returns [T&&] is
    called [lvalue]. *)
Theorem C141_thunk_variables_distinct_iff : forall f, cpp_params_ok f ->
  (NoDup (thunk_params f ++ thunk_locals f) <->
   ~ (n_ret f = ByNamedRef /\ In (Named "lvalue") (List.map fst (n_params f)))).
Proof.
  intros f H. rewrite (names_nodup f (params_user f H) (proj1 H)). rewrite in_given. tauto.
Qed.
Print Assumptions C141_thunk_variables_distinct_iff.

(** The called function is found exactly if it is not a global function with a parameter of its own
    name (or one called [lvalue] that returns [T&&]). *)
Theorem C141_callee_found_iff : forall f, cpp_params_ok f ->
  (forall g, n_called f = FreeFunction [] g -> String.prefix "__" g = false) ->
  (call_means f = TheFunction <->
   forall g, n_called f = FreeFunction [] g ->
     ~ In (Named g) (List.map fst (n_params f)) /\ ~ (n_ret f = ByNamedRef /\ g = "lvalue")).
Proof.
  intros f H Rg. destruct (n_called f) as [[|n ns] g|g|] eqn:C.
  2-4: (unfold call_means; rewrite C; split; [intros _ g' K; discriminate|reflexivity]).
  rewrite (call_meaning f (params_user f H) g C (Rg g eq_refl)). rewrite in_given. split.
  - intros [A B] g' K. injection K as <-. tauto.
  - intros K. destruct (K g eq_refl) as [A B]. split; [exact A|]. intros R E. apply B. auto.
Qed.
Print Assumptions C141_callee_found_iff.

Example C141_example :
  let f := CppFn (FreeFunction ["ns"] "g") [(Named "x", true); (Unnamed, true); (Expanded "args", false); (Named "return", false)] ByBuffer in
  cpp_params_ok f /\ NoDup (thunk_params f ++ thunk_locals f) /\ call_means f = TheFunction.
Proof.
  cbn zeta. match goal with |- cpp_params_ok ?f /\ _ => assert (H : cpp_params_ok f) end.
  { split.
    - cbn. repeat constructor; cbn; intuition discriminate.
    - repeat constructor; cbn; intros s K; try discriminate; injection K as <-; reflexivity. }
  split; [exact H|]. split; [|reflexivity]. apply (C141_thunk_variables_distinct_iff _ H). cbn. intros [K _]. discriminate.
Qed.

(** [inline int foo(int foo);] and [T&& f(int lvalue);] give thunks that do not compile. *)
Theorem C141_parameter_named_like_function_refuted : exists f, cpp_params_ok f /\
  n_called f = FreeFunction [] "foo" /\ call_means f <> TheFunction.
Proof.
  exists (CppFn (FreeFunction [] "foo") [(Named "foo", false)] ByValue). split; [split|split].
  - cbn. repeat constructor; cbn; intuition discriminate.
  - repeat constructor; cbn; intros s K; injection K as <-; reflexivity.
  - reflexivity.
  - vm_compute. discriminate.
Qed.
Print Assumptions C141_parameter_named_like_function_refuted.
Theorem C141_parameter_named_lvalue_refuted : exists f, cpp_params_ok f /\
  n_called f = FreeFunction ["ns"] "f" /\ ~ NoDup (thunk_params f ++ thunk_locals f).
Proof.
  exists (CppFn (FreeFunction ["ns"] "f") [(Named "lvalue", false)] ByNamedRef). split; [split|split].
  - cbn. repeat constructor; cbn; intuition discriminate.
  - repeat constructor; cbn; intros s K; injection K as <-; reflexivity.
  - reflexivity.
  - intros N. inversion N; subst. apply H1. left. reflexivity.
Qed.
Print Assumptions C141_parameter_named_lvalue_refuted.

(** Rust: the body of a [From] constructor passes each parameter exactly if none is called [tmp]. *)
Theorem C141_constructor_arguments_iff : forall params, NoDup params ->
  ((forall j s, nth_error params j = Some s -> resolve (ctor_bindings params) s = Some (Arg j)) <->
   ~ In "tmp" params) /\
  resolve (ctor_bindings params) "tmp" = Some Slot.
Proof.
  intros params N. split.
  - split.
    + intros H K. apply In_nth_error in K. destruct K as [j K].
      apply (proj1 (ctor_resolves params j "tmp" N K) (H j "tmp" K)). reflexivity.
    + intros H j s E. apply (ctor_resolves params j s N E). intros ->. apply H. eapply nth_error_In; eassumption.
  - unfold ctor_bindings. rewrite resolve_app. reflexivity.
Qed.
Print Assumptions C141_constructor_arguments_iff.

Theorem C141_constructor_parameter_tmp_refuted :
  resolve (ctor_bindings ["tmp"]) "tmp" <> Some (Arg 0).
Proof. vm_compute. discriminate. Qed.
Print Assumptions C141_constructor_parameter_tmp_refuted.

(** Types are spelled by their C++ names, but enums that were renamed for Rust are not. *)
Theorem C141_types_spelled_in_cpp : forall it, it_kind it <> EnumItem \/ it_rs it = it_cc it ->
  cpp_type_name it = it_ns it ++ [it_cc it].
Proof. intros [k ns cc rs] [H|H]; unfold cpp_type_name; cbn in *; destruct k; congruence. Qed.
Print Assumptions C141_types_spelled_in_cpp.
Theorem C141_renamed_enum_refuted : exists it, it_kind it = EnumItem /\ cpp_type_name it <> it_ns it ++ [it_cc it].
Proof. exists (Item EnumItem ["ns"] "Color" "Colour"). split; [reflexivity|discriminate]. Qed.
Print Assumptions C141_renamed_enum_refuted.

(** Thunk symbols. *)
Section Symbols.
  Variable xid : nat -> bool.
  Hypothesis xid_digit : forall n, 48 <= n <= 57 -> xid n = true.
  Hypothesis xid_letter : xid 117 = true.
  Hypothesis xid_underscore : xid 95 = true.
  Hypothesis xid_control : xid 1 = false.

  Theorem C141_thunk_symbol_is_identifier : forall prefix hash c t m,
    forallb xid prefix = true -> forallb xid hash = true ->
    forallb xid (thunk_ident xid prefix hash c t m) = true.
  Proof.
    intros prefix hash c t m Hp Hh. unfold thunk_ident. rewrite !forallb_app, Hp. cbn.
    rewrite (fragment_xid xid xid_digit xid_letter xid_underscore). rewrite andb_true_r.
    destruct (c || t); [exact Hh|reflexivity].
  Qed.

  Theorem C141_thunk_symbols_distinct : forall prefix hash m1 m2,
    forallb xid m1 = true -> forallb xid m2 = true -> m1 <> m2 ->
    thunk_ident xid prefix hash false false m1 <> thunk_ident xid prefix hash false false m2.
  Proof.
    intros prefix hash m1 m2 H1 H2 N E. unfold thunk_ident in E. cbn [orb app] in E.
    apply app_inv_head in E. rewrite !fragment_clean in E by assumption. contradiction.
  Qed.
End Symbols.
Print Assumptions C141_thunk_symbol_is_identifier.
Print Assumptions C141_thunk_symbols_distinct.

Definition ascii_xid (n : nat) : bool :=
  ((48 <=? n) && (n <=? 57)) || ((65 <=? n) && (n <=? 90)) || ((97 <=? n) && (n <=? 122)) || Nat.eqb n 95.
Example C141_symbols_example :
  (forall n, 48 <= n <= 57 -> ascii_xid n = true) /\ ascii_xid 117 = true /\ ascii_xid 95 = true /\ ascii_xid 1 = false.
Proof.
  split; [|vm_compute; auto]. intros n H. unfold ascii_xid.
  destruct (Nat.leb_spec 48 n); [|lia]. destruct (Nat.leb_spec n 57); [|lia]. reflexivity.
Qed.
(** Mangled names with other characters ([asm("a$b")]): two functions can get one symbol. *)
Theorem C141_thunk_symbols_collide_refuted : exists m1 m2, m1 <> m2 /\
  thunk_ident ascii_xid [] [] false false m1 = thunk_ident ascii_xid [] [] false false m2.
Proof. exists [97; 36; 98], [97; 95; 117; 51; 54; 95; 98]. split; [discriminate|reflexivity]. Qed.
Print Assumptions C141_thunk_symbols_collide_refuted.

(** ** C142: an accessor that bypasses C++ reads and writes the field the C++ accessor would. *)

Lemma declaring_located : forall path c i o fd, located c path i o fd ->
  exists d, declaring c path = Some d /\ nth_error (class_fields d) i = Some fd.
Proof.
  induction path as [|k path IH]; intros c i o fd H; inversion H; subst; cbn [declaring class_bases].
  - eexists. split; [reflexivity|]. assumption.
  - match goal with K : nth_error _ _ = Some (_, _) |- _ => rewrite K end. eapply IH; eassumption.
Qed.

Lemma read_holds : forall m a n, List.length (read_bytes m a n) = n /\ holds m a (read_bytes m a n).
Proof.
  intros m a n. unfold read_bytes. split; [rewrite map_length, seq_length; reflexivity|].
  intros k x H. assert (L : k < n).
  { assert (K : nth_error (map m (seq a n)) k <> None) by congruence. apply nth_error_Some in K.
    rewrite map_length, seq_length in K. exact K. }
  rewrite nth_error_map in H. rewrite (nth_error_nth' (seq a n) 0) in H by (rewrite seq_length; exact L).
  rewrite seq_nth in H by exact L. cbn in H. congruence.
Qed.

Lemma write_outside : forall l m a b, b < a -> write_bytes m a l b = m b.
Proof.
  induction l as [|x l IH]; intros m a b H; [reflexivity|]. cbn [write_bytes]. rewrite IH by lia.
  destruct (Nat.eqb_spec b a); [lia|reflexivity].
Qed.
Lemma write_beyond : forall l m a b, a + List.length l <= b -> write_bytes m a l b = m b.
Proof.
  induction l as [|x l IH]; intros m a b H; [reflexivity|]. cbn [write_bytes List.length] in *. rewrite IH by lia.
  destruct (Nat.eqb_spec b a); [lia|reflexivity].
Qed.
Lemma write_holds : forall l m a, holds (write_bytes m a l) a l.
Proof.
  induction l as [|x l IH]; intros m a k y H; [destruct k; discriminate|]. cbn [write_bytes].
  destruct k as [|k]; cbn in H.
  - injection H as <-. rewrite Nat.add_0_r. rewrite write_outside by lia. rewrite Nat.eqb_refl. reflexivity.
  - replace (a + S k) with (S a + k) by lia. apply IH. exact H.
Qed.

Theorem C142_getter_reads_the_field : forall c path i o fd m self,
  located c path i o fd -> o = fd_offset fd -> (self + o) mod fd_align fd = 0 ->
  exists l, get_member_func_semantic false c (ReturnsField path i) = Some fd /\ direct_get m self fd = Fine l /\
    List.length l = fd_size fd /\ holds m (self + o) l.
Proof.
  intros c path i o fd m self L -> Al. destruct (declaring_located _ _ _ _ _ L) as (d & Ed & En).
  exists (read_bytes m (self + fd_offset fd) (fd_size fd)). unfold get_member_func_semantic. cbn [accessor_offset]. rewrite Ed.
  split; [exact En|]. unfold direct_get. rewrite Al. split; [reflexivity|]. apply read_holds.
Qed.
Print Assumptions C142_getter_reads_the_field.

Theorem C142_setter_writes_the_field : forall c path i o fd m self l,
  located c path i o fd -> o = fd_offset fd -> (self + o) mod fd_align fd = 0 -> List.length l = fd_size fd ->
  exists m', get_member_func_semantic false c (AssignsField path i) = Some fd /\ direct_set m self fd l = Fine m' /\
    holds m' (self + o) l /\
    forall b, b < self + o \/ self + o + fd_size fd <= b -> m' b = m b.
Proof.
  intros c path i o fd m self l L -> Al Ln. destruct (declaring_located _ _ _ _ _ L) as (d & Ed & En).
  exists (write_bytes m (self + fd_offset fd) l). unfold get_member_func_semantic. cbn [accessor_offset]. rewrite Ed.
  split; [exact En|]. unfold direct_set. rewrite Al. split; [reflexivity|]. split; [apply write_holds|].
  intros b [H|H]; [apply write_outside; exact H|apply write_beyond; lia].
Qed.
Print Assumptions C142_setter_writes_the_field.

Lemma here : forall c i fd o, nth_error (class_fields c) i = Some fd -> o = fd_offset fd -> located c [] i o fd.
Proof. intros [bs fs] i fd o H ->. constructor. exact H. Qed.
Lemma in_base : forall c k off b path i o' o fd, nth_error (class_bases c) k = Some (off, b) ->
  located b path i o' fd -> o = off + o' -> located c (k :: path) i o fd.
Proof. intros [bs fs] k off b path i o' o fd H L ->. econstructor; eassumption. Qed.

(** [struct B0 { int a; }; struct B1 { int b; }; struct D : B0, B1 { int d; … }]. *)
Definition ex_class : class :=
  Class [(0, Class [] [Field 0 0 4 4]); (4, Class [] [Field 1 0 4 4])] [Field 2 8 4 4].
Example C142_example : located ex_class [] 0 8 (Field 2 8 4 4) /\ located ex_class [0] 0 0 (Field 0 0 4 4).
Proof.
  split; [apply here; reflexivity|].
  eapply (in_base ex_class 0 0); [reflexivity|apply here; reflexivity|reflexivity].
Qed.

(** [int D::get() const { return b; }] where [b] comes from the second base: reads [a]. *)
Theorem C142_inherited_field_refuted : exists c path i o fd m self l,
  located c path i o fd /\ (self + o) mod fd_align fd = 0 /\
  get_member_func_semantic false c (ReturnsField path i) = Some fd /\ direct_get m self fd = Fine l /\ ~ holds m (self + o) l.
Proof.
  exists ex_class, [1], 0, 4, (Field 1 0 4 4), (fun b => b), 16, [16; 17; 18; 19].
  split; [eapply (in_base ex_class 1 4); [reflexivity|apply here; reflexivity|reflexivity]|].
  split; [reflexivity|]. split; [reflexivity|]. split; [reflexivity|].
  intros H. specialize (H 0 16 eq_refl). discriminate.
Qed.
Print Assumptions C142_inherited_field_refuted.

(** A packed class: the field is where it should be, but the read is misaligned (undefined in Rust). *)
Theorem C142_packed_class_refuted : exists c path i o fd (m : nat -> nat) self,
  located c path i o fd /\ o = fd_offset fd /\
  get_member_func_semantic false c (ReturnsField path i) = Some fd /\ direct_get m self fd = Misaligned.
Proof.
  exists (Class [] [Field 0 0 1 1; Field 1 1 4 4]), [], 1, 1, (Field 1 1 4 4), (fun b => b), 16.
  split; [apply here; reflexivity|]. auto.
Qed.
Print Assumptions C142_packed_class_refuted.

(** A virtual getter that a derived class overrides: C++ runs the overrider, the accessor reads the
    field of the overridden one. *)
Theorem C142_overridden_getter_refuted : exists base derived fd o' fd' (m : nat -> nat) self l,
  executed true (base, ReturnsField [] 0) (Some (derived, ReturnsField [] 0)) (derived, ReturnsField [] 0) /\
  get_member_func_semantic true base (ReturnsField [] 0) = Some fd /\ direct_get m self fd = Fine l /\
  located derived [] 0 o' fd' /\ ~ holds m (self + o') l.
Proof.
  exists (Class [] [Field 0 8 4 4]), (Class [(0, Class [] [Field 0 8 4 4])] [Field 1 12 4 4]),
    (Field 0 8 4 4), 12, (Field 1 12 4 4), (fun b => b), 16, [24; 25; 26; 27].
  split; [constructor|]. split; [reflexivity|]. split; [reflexivity|].
  split; [apply here; reflexivity|].
  intros H. specialize (H 0 24 eq_refl). discriminate.
Qed.
Print Assumptions C142_overridden_getter_refuted.
