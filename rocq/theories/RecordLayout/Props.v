(** The properties of the layout of generated types. *)
From Coq Require Import List Arith ZArith Bool Lia ZifyNat.
From Verif Require Import RecordLayout.Model RecordLayout.Spec RecordLayout.Proofs RecordLayout.Chain RecordLayout.Struct
  RecordLayout.Union RecordLayout.NoPanic RecordLayout.Accept.
Import ListNotations.
Local Open Scope nat_scope.
Local Open Scope list_scope.

(** * Concrete classes *)

Definition u8 := RsType 1 1 true.
Definition i32 := RsType 4 4 true.
Definition i64 := RsType 8 8 true.
Definition of (ds : list data) : class := Class ds 0 1 0 1 false true false false.

Ltac conc := repeat match goal with |- Forall _ _ => constructor | |- _ /\ _ => split end.
Ltac pow := match goal with |- pow2 ?n => first [now exists 0|now exists 1|now exists 2|now exists 3] end.

(** [struct : Base { char a; private: int b; int c : 3, d : 9; [[no_unique_address]] E e; long f; };], the base (with a virtual
    table) of 12 bytes; [b] has no Rust type. *)
Definition rich : class :=
  Class [ Data 0 (Plain 1 1 1) 96 (Some u8) false; Data 1 (Plain 4 4 4) 128 None false;
          Data 2 (Bits 3 4) 160 (Some i32) false; Data 3 (Bits 9 4) 163 (Some i32) false;
          Data 4 (Empty 1 1) 0 None false; Data 5 (Plain 8 8 8) 192 (Some i64) false ] 12 8 16 1 true false true false.
Example rich_valid : valid rich.
Proof.
  constructor; cbn [rich c_data head base_align aligned_attr derived].
  - eexists. eapply p_plain; [reflexivity|lia|reflexivity|]. eapply p_plain; [reflexivity|lia|reflexivity|].
    eapply p_bits; [reflexivity|lia|cbn; lia|reflexivity|]. eapply p_bits; [reflexivity|lia|cbn; lia|discriminate|].
    eapply p_empty; [reflexivity|reflexivity|]. eapply p_plain; [reflexivity|lia|reflexivity|]. apply p_nil.
  - conc; cbn; conc; try exact Logic.I; pow.
  - split; pow.
  - discriminate.
  - conc; cbn; auto.
Qed.
Example rich_supported : supported rich.
Proof.
  constructor.
  - reflexivity.
  - intros ds1 d ds2 E [a M]. assert (I : In d (c_data rich)) by (rewrite E; apply in_app_iff; right; now left).
    cbn in I. repeat destruct I as [<-|I]; try discriminate M; contradiction.
  - conc; cbn; auto.
  - conc; cbn; try discriminate; auto.
  - right. reflexivity.
Qed.
Example rich_distinct : distinct rich.
Proof. unfold distinct, rich. cbn. repeat constructor; cbn; intros H; repeat destruct H as [H|H]; try discriminate; contradiction. Qed.

(** * C85: no generated code compiles that has another layout than C++ *)

Theorem C85_compiled_struct_has_cpp_layout : forall c l, valid c -> distinct c -> accepted (import c) l ->
  fst l = (class_size c, class_align c) /\ forall d, In d (c_data c) -> addressable d -> in_place (snd l) d.
Proof.
  intros c l V D A. destruct (v_placed _ V) as [last P]. split.
  - destruct l as [[s a] offs]. destruct A as (_ & -> & -> & _). reflexivity.
  - apply (accepted_in_place (import c) c eq_refl (placed_sized _ _ _ _ P) l eq_refl D A).
Qed.
Print Assumptions C85_compiled_struct_has_cpp_layout.

Lemma union_sized c : valid_union c -> Forall sized_ok (c_data c).
Proof. intros V. apply Forall_forall. intros d I. now apply (u_sized c). Qed.

Theorem C85_compiled_union_has_cpp_layout : forall c l, valid_union c -> distinct c -> accepted (import_union c) l ->
  fst l = (union_size c, union_align c) /\ forall d, In d (c_data c) -> addressable d -> in_place (snd l) d.
Proof.
  intros c l V D A. split.
  - destruct l as [[s a] offs]. destruct A as (_ & -> & -> & _). reflexivity.
  - apply (accepted_in_place (import_union c) c eq_refl (union_sized c V) l eq_refl D A).
Qed.
Print Assumptions C85_compiled_union_has_cpp_layout.

(** * C86: the generator does not panic *)

Theorem C86_struct_generated : forall c, valid c -> layout (import c) <> None.
Proof. intros c V. unfold layout. rewrite (generate_some c (import c) eq_refl eq_refl V eq_refl). discriminate. Qed.
Print Assumptions C86_struct_generated.

Lemma union_definitions r l : is_union r = true ->
  Forall (fun i => i_offset i = 0 /\ (exists e, i_end i = Some (S e)) /\ forall f, i_ir i = Some f -> f_offset f = 0) l ->
  forall prev, definitions r prev l <> None.
Proof.
  intros U. induction 1 as [|i l (O & (e & E) & F) _ IH]; intros prev; [discriminate|]. cbn [definitions]. rewrite U, E. cbn [orb].
  replace (match prev with Some p => match i_ir p with Some _ => match i_end p with Some _ => true | None => true end | None => true end | None => true end) with true
    by (destruct prev as [p|]; [destruct (i_ir p); [destruct (i_end p)|]|]; reflexivity).
  specialize (IH (Some i)). destruct (definitions r (Some i) l) as [[fs o]|]; [|contradiction]. unfold field_definition. rewrite U, O.
  destruct (i_ir i) as [f|].
  - rewrite (F f eq_refl). destruct (type_for_layout r f); discriminate.
  - discriminate.
Qed.
Lemma coalesce_forall (P : item -> Prop) : (forall i j, i_ir i = None -> i_ir j = None -> P i -> P j -> P (Item None (i_offset i) (i_end j))) ->
  forall l i, P i -> Forall P l -> Forall P (coalesce_from i l).
Proof.
  intros H. induction l as [|j l IH]; intros i Pi F; cbn [coalesce_from]; [constructor; auto|]. inversion F as [|? ? Pj F']; subst.
  destruct (i_ir i) eqn:Ei; [constructor; auto|]. destruct (i_ir j) eqn:Ej; [constructor; auto|]. apply IH; auto.
Qed.

Theorem C86_union_generated : forall c, valid_union c -> generate (import_union c) <> None.
Proof.
  intros c V. unfold generate. cbn [fields import_union]. rewrite (u_to_items c V) by auto.
  set (items := coalesce _).
  assert (F : Forall (fun i => i_offset i = 0 /\ (exists e, i_end i = Some (S e)) /\ forall f, i_ir i = Some f -> f_offset f = 0) items).
  { assert (F : Forall (fun i => i_offset i = 0 /\ (exists e, i_end i = Some (S e)) /\ forall f, i_ir i = Some f -> f_offset f = 0) (map u_item (filter sized (c_data c)))).
    { apply Forall_forall. intros i I. apply in_map_iff in I. destruct I as (d & <- & I). apply filter_In in I. destruct I as [I Z].
      pose proof (u_sized c V d I) as O. split; [reflexivity|]. split.
      - unfold u_item, sized, zero_size, sized_ok, import_field in *. cbn [i_end]. destruct (d_member d); cbn in *; try discriminate;
          match goal with |- exists e, Some ?n = _ => exists (n - 1); f_equal; lia end.
      - cbn [u_item i_ir]. destruct (is_bits d); [discriminate|]. intros f [= <-]. rewrite import_offset. now apply (u_offset c V). }
    subst items. destruct (map u_item (filter sized (c_data c))) as [|i its]; [constructor|]. inversion F; subst. apply coalesce_forall; auto.
    intros x y _ _ (O & _) (_ & E & _). split; [exact O|]. split; [exact E|discriminate]. }
  pose proof (union_definitions (import_union c) items eq_refl F None) as D. destruct (definitions _ None items) as [[fs o]|]; [|contradiction].
  assert (BO : byte_offsets items = true).
  { unfold byte_offsets. apply forallb_forall. intros i I. rewrite Forall_forall in F. destruct (F i I) as (_ & _ & O). destruct (i_ir i) as [f|]; [|reflexivity].
    now rewrite (O f eq_refl). }
  rewrite BO. discriminate.
Qed.
Print Assumptions C86_union_generated.

(** * C87: structs compile *)

Theorem C87_struct_compiles_partial : forall c, valid c -> supported c ->
  accepted (import c) (class_size c, class_align c, visible_offsets (c_data c)).
Proof.
  intros c V S. destruct (v_placed _ V) as [last P]. split; [now apply struct_layout|]. split; [reflexivity|]. split; [reflexivity|].
  intros p I. now rewrite (asserted_eq (import c) c eq_refl (placed_sized _ _ _ _ P) eq_refl) in I.
Qed.
Print Assumptions C87_struct_compiles_partial.
Example rich_layout : layout (import rich) = Some (32, 8, [(0, 12); (1, 16); (5, 24)]).
Proof. vm_compute. reflexivity. Qed.
Example rich_accepted : accepted (import rich) (32, 8, [(0, 12); (1, 16); (5, 24)]).
Proof. exact (C87_struct_compiles_partial rich rich_valid rich_supported). Qed.

(** What [supported] excludes cannot be allowed. *)
Definition rejected (c : class) : Prop := valid c /\ ~ exists l, accepted (import c) l.
Ltac rej := intros [[[s a] offs] (L & S & _)]; vm_compute in L, S; congruence.
Ltac vld := constructor; cbn [c_data head base_align aligned_attr derived of]; [|conc; cbn; conc; try exact Logic.I; pow|split; pow|try discriminate; auto|conc; cbn; auto].

(** [struct { char a; int : 0; char b; };] *)
Theorem C87_zero_width_bit_field_refuted : exists c, rejected c.
Proof.
  exists (of [Data 0 (Plain 1 1 1) 0 (Some u8) false; Data 1 (ZeroBits 1) 32 (Some i32) false; Data 2 (Plain 1 1 1) 32 (Some u8) false]).
  split; [|rej]. vld. eexists. eapply p_plain; [reflexivity|lia|reflexivity|]. eapply p_zero; [reflexivity|cbn; lia|reflexivity|].
  eapply p_plain; [reflexivity|lia|reflexivity|]. apply p_nil.
Qed.
Print Assumptions C87_zero_width_bit_field_refuted.
(** [struct { char a; int : 0; };] *)
Theorem C87_trailing_zero_width_bit_field_refuted : exists c, rejected c.
Proof.
  exists (of [Data 0 (Plain 1 1 1) 0 (Some u8) false; Data 1 (ZeroBits 1) 32 (Some i32) false]).
  split; [|rej]. vld. eexists. eapply p_plain; [reflexivity|lia|reflexivity|]. eapply p_zero; [reflexivity|cbn; lia|reflexivity|]. apply p_nil.
Qed.
Print Assumptions C87_trailing_zero_width_bit_field_refuted.
(** [struct : HasVirtualTable { [[no_unique_address]] Empty e; int x; };] *)
Theorem C87_empty_first_member_of_derived_refuted : exists c, rejected c.
Proof.
  exists (Class [Data 0 (Empty 1 1) 0 None false; Data 1 (Plain 4 4 4) 64 (Some i32) false] 8 8 8 1 true false false false).
  split; [|rej]. vld. eexists. eapply p_empty; [reflexivity|reflexivity|]. eapply p_plain; [reflexivity|lia|reflexivity|]. apply p_nil.
Qed.
Print Assumptions C87_empty_first_member_of_derived_refuted.
(** [struct { [[no_unique_address]] Empty e; };] *)
Theorem C87_only_empty_members_refuted : exists c, rejected c.
Proof.
  exists (of [Data 0 (Empty 1 1) 0 None false]). split; [|rej]. vld. eexists. eapply p_empty; [reflexivity|reflexivity|]. apply p_nil.
Qed.
Print Assumptions C87_only_empty_members_refuted.
(** [struct : virtual Base { int x; };], the base of 16 bytes, after [x]. *)
Theorem C87_virtual_base_refuted : exists c, rejected c.
Proof.
  exists (Class [Data 0 (Plain 4 4 4) 64 (Some i32) false] 8 8 32 1 true false false false).
  split; [|rej]. vld. eexists. eapply p_plain; [reflexivity|lia|reflexivity|]. apply p_nil.
Qed.
Print Assumptions C87_virtual_base_refuted.
(** [struct { char a; alignas(4) char b; };], with experimental features. *)
Theorem C87_alignas_refuted : exists c, rejected c.
Proof.
  exists (Class [Data 0 (Plain 1 1 1) 0 (Some u8) false; Data 1 (Plain 1 1 4) 32 (Some u8) true] 0 1 0 1 false true true false).
  split; [|rej]. vld. eexists. eapply p_plain; [reflexivity|lia|reflexivity|]. eapply p_plain; [reflexivity|lia|reflexivity|]. apply p_nil.
Qed.
Print Assumptions C87_alignas_refuted.
(** [struct alignas(8) Empty {}; struct { [[no_unique_address]] Empty e; char c; };] *)
Theorem C87_aligned_empty_member_refuted : exists c, rejected c.
Proof.
  exists (of [Data 0 (Empty 8 8) 0 None false; Data 1 (Plain 1 1 1) 0 (Some u8) false]).
  split; [|rej]. vld. eexists. eapply p_empty; [reflexivity|reflexivity|]. eapply p_plain; [reflexivity|lia|reflexivity|]. apply p_nil.
Qed.
Print Assumptions C87_aligned_empty_member_refuted.

(** * C88: unions compile *)

Theorem C88_union_compiles_partial : forall c, valid_union c -> supported_union c ->
  accepted (import_union c) (union_size c, union_align c, visible_offsets (c_data c)).
Proof.
  intros c V S. split; [now apply union_layout|]. split; [reflexivity|]. split; [reflexivity|].
  intros p I. now rewrite (asserted_eq (import_union c) c eq_refl (union_sized c V) eq_refl) in I.
Qed.
Print Assumptions C88_union_compiles_partial.
(** [union { char a[5]; int b : 17; int c : 9; short d; };] with a member of a type Rust does not have. *)
Definition rich_union : class :=
  of [Data 0 (Plain 5 1 1) 0 None false; Data 1 (Bits 17 4) 0 (Some i32) false; Data 2 (Bits 9 4) 0 (Some i32) false; Data 3 (Plain 2 2 2) 0 (Some (RsType 2 2 true)) false].
Example rich_union_valid : valid_union rich_union.
Proof. constructor; cbn [rich_union of c_data aligned_attr]; try pow; conc; cbn; conc; auto; try lia; pow. Qed.
Example rich_union_supported : supported_union rich_union.
Proof.
  constructor; cbn [rich_union of c_data].
  - right. eexists. split; [now left|reflexivity].
  - conc; vm_compute; auto; lia.
  - conc; cbn; auto.
  - conc; cbn; discriminate.
Qed.
Example rich_union_layout : layout (import_union rich_union) = Some (8, 4, [(0, 0); (3, 0)]).
Proof. vm_compute. reflexivity. Qed.
Example rich_union_distinct : distinct rich_union.
Proof. unfold distinct. cbn. repeat constructor; cbn; intros H; repeat destruct H as [H|H]; try discriminate; contradiction. Qed.

Definition rejected_union (c : class) : Prop := valid_union c /\ ~ exists l, accepted (import_union c) l.
(** [union { int wide : 100; int a : 3; };] *)
Theorem C88_wide_bit_field_refuted : exists c, rejected_union c.
Proof.
  exists (of [Data 0 (Bits 100 4) 0 (Some i32) false; Data 1 (Bits 3 4) 0 (Some i32) false]). split; [|rej].
  constructor; cbn [of c_data aligned_attr]; try pow; conc; cbn; conc; auto; try lia; pow.
Qed.
Print Assumptions C88_wide_bit_field_refuted.
(** [union { [[no_unique_address]] Empty e; };] *)
Theorem C88_only_empty_members_refuted : exists c, rejected_union c.
Proof.
  exists (of [Data 0 (Empty 1 1) 0 None false]). split; [|intros [[[s a] offs] (L & S & _)]; vm_compute in L; discriminate].
  constructor; cbn [of c_data aligned_attr]; try pow; conc; cbn; conc; auto; pow.
Qed.
Print Assumptions C88_only_empty_members_refuted.

(** * C89: thread-safe records *)

Theorem C89_thread_safe_compiles : forall c, valid c -> accepted (import_thread_safe c) (class_size c, class_align c, []).
Proof.
  intros c V. pose proof (class_align_pow2 c V) as A2. pose proof (pow2_pos _ A2) as A0.
  split; [|split; [reflexivity|split; [reflexivity|intros p []]]].
  unfold layout. rewrite (generate_some c (import_thread_safe c) eq_refl eq_refl V eq_refl). cbn [thread_safe import_thread_safe is_union r_size r_align].
  rewrite orb_true_r. cbn [andb]. unfold rs_struct. cbn [place rf_align rf_size rf_id]. rewrite round_up_1. cbn [Nat.add].
  assert (AA : rs_align [RsField None (class_size c) 1] (if 1 <? class_align c then Some (class_align c) else None) = class_align c).
  { unfold rs_align. cbn [map rf_align max_list fold_right]. destruct (Nat.ltb_spec 1 (class_align c)); lia. }
  rewrite AA. destruct (round_up_multiple (fold_right Nat.max (Nat.max 1 (extent c)) (map m_end (c_data c))) _ A0) as [k K].
  fold (class_size c) in K. rewrite K, round_up_of_multiple by exact A0. reflexivity.
Qed.
Print Assumptions C89_thread_safe_compiles.
Example thread_safe_rich : accepted (import_thread_safe rich) (32, 8, []).
Proof. exact (C89_thread_safe_compiles rich rich_valid). Qed.

(** * C90: accessors of [[no_unique_address]] members *)

Lemma accessors_in public fs l o t : accessors public fs = Some (Some l) -> In (o, t) l ->
  exists f, In f fs /\ f_no_unique_address f = true /\ o = f_offset f / 8 /\ f_type f = Some t.
Proof.
  revert l. induction fs as [|f fs IH]; intros l; cbn [accessors]; [intros [= <-]; contradiction|].
  destruct (negb (public f) || negb (f_no_unique_address f)) eqn:B.
  - intros E I. destruct (IH l E I) as (g & I1 & H). exists g. split; [now right|exact H].
  - destruct (f_offset f mod 8 =? 0); [|discriminate]. destruct (f_type f) as [t'|] eqn:T; [|discriminate].
    destruct (accessors public fs) as [[l'|]|]; try discriminate. intros [= <-] [E|I].
    + inversion E; subst. exists f. split; [now left|]. split; [|now split]. apply orb_false_iff in B. destruct B as [_ B]. now apply negb_false_iff.
    + destruct (IH l' eq_refl I) as (g & I1 & H). exists g. split; [now right|exact H].
Qed.

(** The reference an accessor returns, for an object at an address [base] that is right for the class, is to a place inside of
    the object where a member of that type is, and is aligned. *)
Theorem C90_accessor_in_bounds_and_aligned : forall c public l o t base, valid c ->
  (forall d t n, In d (c_data c) -> d_type d = Some t -> object_of d = Some n -> (rt_size t, rt_align t) = n) ->
  accessors public (fields (import c)) = Some (Some l) -> In (o, t) l -> (exists k, base = k * class_align c) ->
  o + rt_size t <= class_size c /\ (exists k, base + o = k * rt_align t) /\
  exists d, In d (c_data c) /\ d_offset d = 8 * o /\ d_type d = Some t.
Proof.
  intros c public l o t base V T E I [k K]. destruct (accessors_in _ _ _ _ _ E I) as (f & If & N & -> & Tf).
  cbn [fields import] in If. apply in_map_iff in If. destruct If as (d & <- & Id). rewrite import_offset.
  pose proof (class_align_pow2 c V) as A2. pose proof (pow2_pos _ A2) as A0.
  assert (Td : d_type d = Some t) by (unfold import_field in Tf; destruct (d_member d); exact Tf).
  destruct (v_placed _ V) as [last P].
  assert (OFF : match d_member d with Plain _ _ _ | Bits _ _ | ZeroBits _ => True | Overlapping _ _ a | Empty _ a => exists q, d_offset d = 8 * (q * a) end).
  { clear - P Id V. pose proof (v_aligns _ V) as VA. rewrite Forall_forall in VA. destruct (VA d Id) as [D2 _]. apply pow2_pos in D2. clear V VA.
    revert P. generalize (8 * head c), false. intros pos b P. induction P as [|? ? ? ? ? s ta a M S0 O P IH|? ? ? ? ? s n a M S0 O P IH|? ? ? ? ? s a M O P IH|? ? ? ? ? w a M W O O8 P IH|? ? ? ? ? a M O O8 P IH];
      [contradiction| | | | |]; (destruct Id as [->|Id]; [|now apply IH]); rewrite M in *; cbn [m_align] in D2; auto.
    - destruct (round_up_multiple (ceil8 pos) a D2) as [q Q]. exists q. now rewrite O, Q.
    - apply Nat.mod_divides in O; [|lia]. destruct O as [q Q]. exists q. lia. }
  assert (AL : m_align (d_member d) <= class_align c).
  { unfold class_align. pose proof (max_list_in (map (fun d => m_align (d_member d)) (c_data c)) _ (in_map _ _ _ Id)). lia. }
  pose proof (v_aligns _ V) as VA. rewrite Forall_forall in VA. destruct (VA d Id) as [D2 _].
  destruct (pow2_divides _ _ D2 A2 AL) as [m M2]. pose proof (class_size_ge c d Id A0) as CS. specialize (T d t).
  unfold import_field, m_end, object_of in *. destruct (d_member d) as [s ta a|s n a|s a|w a|a] eqn:M; cbn in N; try discriminate; cbn [m_align] in *.
  - specialize (T _ Id Td eq_refl). inversion T; subst s a. destruct OFF as [q Q]. rewrite Q in CS |- *.
    rewrite (Nat.mul_comm 8), Nat.div_mul in CS |- * by lia. split; [exact CS|]. split.
    + exists (k * m + q). rewrite K, M2. nia.
    + exists d. split; [exact Id|]. split; [lia|exact Td].
  - specialize (T _ Id Td eq_refl). inversion T; subst s a. destruct OFF as [q Q]. rewrite Q in CS |- *.
    rewrite (Nat.mul_comm 8), Nat.div_mul in CS |- * by lia. split; [exact CS|]. split.
    + exists (k * m + q). rewrite K, M2. nia.
    + exists d. split; [exact Id|]. split; [lia|exact Td].
Qed.
Print Assumptions C90_accessor_in_bounds_and_aligned.
(** [struct { [[no_unique_address]] A a; char b; };], [A] of size 8 with 3 bytes of tail padding: [b] is inside of [a]. *)
Definition overlapping : class :=
  of [Data 0 (Overlapping 8 5 4) 0 (Some (RsType 8 4 false)) false; Data 1 (Plain 1 1 1) 40 (Some u8) false].
Example overlapping_valid : valid overlapping.
Proof.
  unfold overlapping. vld. eexists. eapply p_overlapping; [reflexivity|lia|reflexivity|]. eapply p_plain; [reflexivity|lia|reflexivity|]. apply p_nil.
Qed.
Example overlapping_layout : layout (import overlapping) = Some (8, 4, [(0, 0); (1, 5)]) /\
  accessors (fun _ => true) (fields (import overlapping)) = Some (Some [(0, RsType 8 4 false)]).
Proof. vm_compute. split; reflexivity. Qed.

(** A public [[no_unique_address]] member of a type without bindings takes away the bindings of the whole record. *)
Theorem C90_all_records_get_accessors_refuted : exists c, valid c /\ accessors (fun _ => true) (fields (import c)) = Some None.
Proof.
  exists (of [Data 0 (Overlapping 8 5 4) 0 None false]). split; [|reflexivity].
  vld. eexists. eapply p_overlapping; [reflexivity|lia|reflexivity|]. apply p_nil.
Qed.
Print Assumptions C90_all_records_get_accessors_refuted.
