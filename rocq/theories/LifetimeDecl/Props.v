(** C155 - C158: names of lifetimes, and lifetimes of functions from annotations. *)
From Coq Require Import List NArith ZArith Ascii String Bool Lia.
From Verif.Lifetimes Require Import Model.
From Verif.FnLifetimes Require Import Model.
From Verif.LifetimeDecl Require Import Model Spec Proofs Proofs2 Proofs3 Proofs4 Proofs5 Proofs6.
Import ListNotations.
Local Open Scope list_scope.

(** ** C155 *)
Theorem C155_names_and_lifetimes_are_one_to_one_partial t c :
  uses t c -> (N.of_nat (List.length (n2l t)) < place static_name)%N -> one_to_one t.
Proof. intros U B. exact (good_one_to_one t c (uses_good t c U B)). Qed.
Print Assumptions C155_names_and_lifetimes_are_one_to_one_partial.
Theorem C155_bound_names_stay_bound t c m x : uses t c -> lookup_name t m = Some x ->
  (forall n l t' c', lifetime_for n t c = (l, t', c') -> lookup_name t' m = Some x /\ lookup_name t' n = Some l) /\
  (forall l n t', name_for l t = (n, t') -> lookup_name t' m = Some x) /\
  (forall n l t', add_name n l t = Some t' -> lookup_name t' m = Some x).
Proof.
  intros _ L. split; [|split].
  - intros n l t' c' E. split; [exact (lifetime_for_keeps _ _ _ _ _ _ _ _ E L)|exact (proj1 (lifetime_for_spec _ _ _ _ _ _ E))].
  - intros l n t' E. exact (name_for_keeps _ _ _ _ _ _ E L).
  - intros n l t' E. exact (add_name_keeps _ _ _ _ _ _ E L).
Qed.
Print Assumptions C155_bound_names_stay_bound.
Theorem C155_generated_names_are_the_first_free_partial t c l n t' :
  uses t c -> (N.of_nat (List.length (n2l t')) < place static_name)%N -> (l < c)%Z ->
  lookup_lifetime t l = None -> name_for l t = (n, t') ->
  word n /\ lookup_name t n = None /\ lookup_name t' n = Some l /\ lookup_lifetime t' l = Some n /\
  forall w, word w -> (place w < place n)%N -> lookup_name t w <> None.
Proof.
  intros U B C L E. pose proof (name_for_grows t l n t' E) as Gr. assert (G : good t c) by (apply uses_good; [exact U|lia]).
  assert (G' : good t' c) by (exact (good_lifetime t c l n t' G C E B)).
  destruct (name_for_first t c l n t' G L E) as (W & N & F1 & F2 & F). split; [exact W|].
  assert (S : n <> static_name).
  { intros ->. apply (g_static _ _ G'). apply find_name_in in F1. now apply in_fst in F1. }
  assert (L' : lookup_name t' n = Some l) by (unfold lookup_name; destruct (text_eqb_spec n static_name); [contradiction|exact F1]).
  split; [unfold lookup_name; destruct (text_eqb_spec n static_name); [contradiction|now apply find_name_none]|].
  split; [exact L'|]. split; [|exact F]. now apply (good_one_to_one t' c G').
Qed.
Print Assumptions C155_generated_names_are_the_first_free_partial.
(** How far "static" is: more than two hundred million names. *)
Example place_of_static : place static_name = 234916997%N.
Proof. vm_compute. reflexivity. Qed.
(** After that many lifetimes the name of 'static is given to another one. *)
Theorem C155_one_to_one_always_refuted : exists t c, uses t c /\ ~ one_to_one t.
Proof.
  destruct static_generated as (t & c & l & t' & U & L & N & E). exists t', c. split; [exact (u_lifetime t c l static_name t' U L E)|].
  intro O. assert (H : lookup_lifetime t' l = Some static_name).
  { unfold name_for in E. destruct (Z.eqb_spec l Static); [contradiction|]. destruct (find_lifetime l (l2n t)) eqn:F.
    - injection E as E1 <-. unfold lookup_lifetime. destruct (Z.eqb_spec l Static); [contradiction|]. now rewrite F, E1.
    - injection E as E1 <-. unfold lookup_lifetime. destruct (Z.eqb_spec l Static); [contradiction|]. cbn [l2n find_lifetime]. now rewrite Z.eqb_refl, E1. }
  apply O in H. unfold lookup_name in H. rewrite text_eqb_refl in H. injection H as H. congruence.
Qed.
Print Assumptions C155_one_to_one_always_refuted.
Definition two_names : table := snd (name_for 3%Z (snd (name_for 2%Z empty_table))).
Theorem C155_rebinding_keeps_one_to_one_refuted : exists t c n l t', uses t c /\ one_to_one t /\ rebind n l t = Some t' /\ ~ one_to_one t'.
Proof.
  assert (U : uses two_names 4%Z).
  { unfold two_names. apply (u_lifetime _ 4%Z 3%Z (T "b") _ (u_lifetime _ 4%Z 2%Z (T "a") _ (u_start 4%Z ltac:(lia)) ltac:(lia) eq_refl)); [lia|vm_compute; reflexivity]. }
  exists two_names, 4%Z, (T "a"), 3%Z, (Table [(T "b", 3%Z); (T "a", 3%Z)] [(3%Z, T "a"); (3%Z, T "b")] 2%N). split; [exact U|].
  split; [apply (good_one_to_one _ 4%Z), uses_good; [exact U|vm_compute; reflexivity]|]. split; [vm_compute; reflexivity|].
  intro O. assert (H : lookup_name (Table [(T "b", 3%Z); (T "a", 3%Z)] [(3%Z, T "a"); (3%Z, T "b")] 2%N) (T "b") = Some 3%Z) by (vm_compute; reflexivity).
  apply O in H. vm_compute in H. discriminate.
Qed.
Print Assumptions C155_rebinding_keeps_one_to_one_refuted.
(** Names are generated that Rust does not accept as names of lifetimes. *)
Theorem C155_generated_names_are_not_keywords_refuted : exists t c l n t', uses t c /\ (l < c)%Z /\ name_for l t = (n, t') /\ rust_keyword n.
Proof.
  destruct (many 44) as (t & c & U & N & C & A & B).
  assert (F : find_lifetime c (l2n t) = None) by (apply find_lifetime_none; intro I; apply B in I; lia).
  assert (S : c <> Static) by (unfold Static; lia).
  destruct (name_for_new t c S F) as (i & E & I1 & I2 & I3).
  assert (i = next t) as ->.
  { destruct (N.eq_dec i (next t)) as [|D]; [assumption|]. exfalso. destruct (A _ (I3 (next t) ltac:(lia))) as (j & J & Q). apply name_inj in Q. lia. }
  eexists t, (c + 1)%Z, c, _, _. split; [now apply u_new|]. split; [lia|]. split; [exact E|]. rewrite N. vm_compute. left. reflexivity.
Qed.
Print Assumptions C155_generated_names_are_not_keywords_refuted.
Example C155_case : uses two_names 4%Z /\ lookup_name two_names (T "b") = Some 3%Z /\ lookup_lifetime two_names 2%Z = Some (T "a") /\ name_from_index 26%N = T "aa".
Proof.
  split; [|vm_compute; auto]. unfold two_names.
  apply (u_lifetime _ 4%Z 3%Z (T "b") _ (u_lifetime _ 4%Z 2%Z (T "a") _ (u_start 4%Z ltac:(lia)) ltac:(lia) eq_refl)); [lia|vm_compute; reflexivity].
Qed.

(** ** C156 *)
Lemma given_later st1 st2 st3 slots ls : keeps st1 st2 -> keeps st2 st3 ->
  (Forall2 (given_input st1 st2) slots ls -> Forall2 (given_input st1 st3) slots ls) /\
  (Forall2 (given_input st2 st3) slots ls -> Forall2 (given_input st1 st3) slots ls).
Proof.
  intros (A & B) (C & D). split; apply forall2_imp; intros [n|] l; cbn; auto; lia.
Qed.
Lemma this_slots_named d : this_slots_for true d = this_slots d.
Proof. reflexivity. Qed.

Definition slot_dec (a b : option text) : {a = b} + {a <> b}.
Proof. decide equality. apply list_eq_dec, ascii_dec. Defined.
(** The inputs of a declaration. *)
Lemma inputs_of elision d st : uses (tab st) (counter st) -> AnnotatedD d ->
  elision = true \/ d_dtor d = true \/ ~ unwritten (input_slots d) ->
  exists th ps la lb st2, FitsThis (d_this d) th la /\ Fits_args (d_params d) ps lb /\
    supply (param_factory elision (d_dtor d)) (input_slots d) st = Ok (la ++ lb, st2) /\
    Forall2 (given_input st st2) (input_slots d) (la ++ lb) /\ keeps st st2 /\ ok_state st2 /\ uses (tab st2) (counter st2) /\
    match supply (return_factory elision th ps) (slots_v (d_return d)) st2 with
    | Err e => annotations elision d st = Err e
    | Ok (lc, st3) => exists r, Fits (d_return d) r lc /\ annotations elision d st = Ok (FL ps r th, st3)
    end.
Proof.
  intros U A H. assert (O : ok_state st) by (apply uses_older; exact U). unfold input_slots in *.
  assert (H1 : elision = true \/ d_dtor d = true \/ ~ In None (this_slots d)).
  { destruct H as [?|[?|H]]; auto. right. right. intro I. apply H. apply in_or_app. auto. }
  assert (H2 : elision = true \/ d_dtor d = true \/ ~ In None (slots_args (d_params d))).
  { destruct H as [?|[?|H']]; auto. right. right. intro I. apply H'. apply in_or_app. auto. }
  destruct (supply_inputs elision (d_dtor d) (this_slots d) st O H1) as (la & st1 & E1 & O1 & K1 & F1 & U1).
  destruct (supply_inputs elision (d_dtor d) (slots_args (d_params d)) st1 O1 H2) as (lb & st2 & E2 & O2 & K2 & F2 & U2).
  pose proof (create_decl_supply (param_factory elision (d_dtor d)) true (return_factory elision) d st A) as D.
  rewrite this_slots_named, E1 in D. destruct D as (th & Ft & D). rewrite E2 in D. destruct D as (ps & Fp & D).
  exists th, ps, la, lb, st2. split; [exact Ft|]. split; [exact Fp|]. split; [rewrite supply_app, E1, E2; reflexivity|].
  split; [apply Forall2_app; [exact (proj1 (given_later _ _ _ _ _ K1 K2) F1)|exact (proj2 (given_later _ _ _ _ _ K1 K2) F2)]|].
  split; [exact (keeps_trans _ _ _ K1 K2)|]. split; [exact O2|]. split; [auto|exact D].
Qed.
Lemma inputs_refused d st : uses (tab st) (counter st) -> AnnotatedD d -> d_dtor d = false -> unwritten (input_slots d) ->
  annotations false d st = Err ElisionNotEnabled.
Proof.
  intros U A Dt I. assert (O : ok_state st) by (apply uses_older; exact U).
  pose proof (create_decl_supply (param_factory false (d_dtor d)) true (return_factory false) d st A) as D. rewrite this_slots_named in D. rewrite Dt in D.
  unfold unwritten, input_slots in I. unfold annotations. rewrite Dt. destruct (in_dec slot_dec None (this_slots d)) as [J|J].
  - now rewrite (supply_inputs_refused _ st O J) in D.
  - apply in_app_or in I. destruct I as [I|I]; [contradiction|].
    destruct (supply_inputs false false (this_slots d) st O (or_intror (or_intror J))) as (la & st1 & E1 & O1 & _). rewrite E1 in D. destruct D as (th & _ & D).
    now rewrite (supply_inputs_refused _ st1 O1 I) in D.
Qed.

(** What a declared function gets. *)
Theorem C156_places_get_the_declared_lifetimes elision d st f st' : uses (tab st) (counter st) ->
  annotations elision d st = Ok (f, st') ->
  AnnotatedD d /\ exists th ps r la lb lc, f = FL ps r th /\ FitsDecl d f la lb lc /\
    Forall2 (given_input st st') (input_slots d) (la ++ lb) /\ Forall2 (given_result st' th ps) (slots_v (d_return d)) lc /\
    (forall n l, lookup_name (tab st) n = Some l -> lookup_name (tab st') n = Some l) /\ uses (tab st') (counter st').
Proof.
  intros U E. assert (A : AnnotatedD d) by exact (create_decl_annotated _ _ _ _ _ _ _ E). split; [exact A|].
  assert (H : elision = true \/ d_dtor d = true \/ ~ unwritten (input_slots d)).
  { destruct elision; [auto|]. destruct (d_dtor d) eqn:Dt; [auto|]. right. right. intro I. rewrite (inputs_refused d st U A Dt I) in E. discriminate. }
  destruct (inputs_of elision d st U A H) as (th & ps & la & lb & st2 & Ft & Fp & _ & F & K & O2 & U2 & D).
  assert (H2 : ~ In None (slots_v (d_return d)) \/ (elision = true /\ exists l, single_input th ps = Some l)).
  { destruct (in_dec slot_dec None (slots_v (d_return d))) as [J|J]; [|auto]. right.
    destruct elision; [|rewrite (supply_outputs_refused false th ps _ st2 O2 J (or_introl eq_refl)) in D; rewrite D in E; discriminate].
    split; [reflexivity|]. destruct (single_input th ps) as [l|] eqn:S; [now exists l|].
    rewrite (supply_outputs_refused true th ps _ st2 O2 J (or_intror S)) in D. rewrite D in E. discriminate. }
  destruct (supply_outputs elision th ps (slots_v (d_return d)) st2 O2 H2) as (lc & st3 & E3 & O3 & K3 & F3 & U3). rewrite E3 in D. destruct D as (r & Fr & D). rewrite D in E. injection E as <- <-.
  exists th, ps, r, la, lb, lc. split; [reflexivity|]. split; [split; [exact Ft|split; [exact Fp|exact Fr]]|].
  split; [exact (proj1 (given_later _ _ _ _ _ K K3) F)|]. split; [|split; [exact (proj1 (keeps_trans _ _ _ K K3))|auto]].
  refine (forall2_imp _ _ _ _ _ F3). intros [n|] l; cbn; [auto|]. apply (single_spec th ps l (this_shape _ _ _ Ft)).
Qed.
Print Assumptions C156_places_get_the_declared_lifetimes.
(** When it succeeds, and which error is reported. *)
Theorem C156_without_elision_all_must_be_written d st : uses (tab st) (counter st) -> AnnotatedD d ->
  (d_dtor d = true \/ ~ unwritten (input_slots d)) /\ ~ unwritten (slots_v (d_return d)) <-> exists f st', annotations false d st = Ok (f, st').
Proof.
  intros U A. split.
  - intros (H & N). destruct (inputs_of false d st U A (or_intror H)) as (th & ps & la & lb & st2 & Ft & Fp & _ & F & K & O2 & U2 & D).
    destruct (supply_outputs false th ps (slots_v (d_return d)) st2 O2 (or_introl N)) as (lc & st3 & E3 & _). rewrite E3 in D. destruct D as (r & _ & D). eauto.
  - intros (f & st' & E). assert (H : d_dtor d = true \/ ~ unwritten (input_slots d)).
    { destruct (d_dtor d) eqn:Dt; [auto|]. right. intro I. rewrite (inputs_refused d st U A Dt I) in E. discriminate. }
    split; [exact H|]. intro I. destruct (inputs_of false d st U A (or_intror H)) as (th & ps & la & lb & st2 & Ft & Fp & _ & F & K & O2 & U2 & D).
    rewrite (supply_outputs_refused false th ps _ st2 O2 I (or_introl eq_refl)) in D. congruence.
Qed.
Print Assumptions C156_without_elision_all_must_be_written.
Theorem C156_errors elision d st : uses (tab st) (counter st) -> AnnotatedD d ->
  (exists f st', annotations elision d st = Ok (f, st')) \/
  annotations elision d st = Err (if elision then CannotElideOutputLifetimes else ElisionNotEnabled).
Proof.
  intros U A. assert (H : elision = true \/ d_dtor d = true \/ ~ unwritten (input_slots d) \/ annotations elision d st = Err (if elision then CannotElideOutputLifetimes else ElisionNotEnabled)).
  { destruct elision; [auto|]. destruct (d_dtor d) eqn:Dt; [auto|].
    destruct (in_dec slot_dec None (input_slots d)) as [J|J]; [|auto]. right. right. right. exact (inputs_refused d st U A Dt J). }
  assert (H' : (elision = true \/ d_dtor d = true \/ ~ unwritten (input_slots d)) \/ annotations elision d st = Err (if elision then CannotElideOutputLifetimes else ElisionNotEnabled)) by tauto.
  clear H. destruct H' as [H|H]; [|auto].
  destruct (inputs_of elision d st U A H) as (th & ps & la & lb & st2 & Ft & Fp & _ & F & K & O2 & U2 & D).
  destruct (in_dec slot_dec None (slots_v (d_return d))) as [J|J].
  - destruct elision.
    + destruct (single_input th ps) as [l|] eqn:S.
      * destruct (supply_outputs true th ps (slots_v (d_return d)) st2 O2 (or_intror (conj eq_refl (ex_intro _ l S)))) as (lc & st3 & E3 & _). rewrite E3 in D. destruct D as (r & _ & D). left. eauto.
      * rewrite (supply_outputs_refused true th ps _ st2 O2 J (or_intror S)) in D. auto.
    + rewrite (supply_outputs_refused false th ps _ st2 O2 J (or_introl eq_refl)) in D. auto.
  - destruct (supply_outputs elision th ps (slots_v (d_return d)) st2 O2 (or_introl J)) as (lc & st3 & E3 & _). rewrite E3 in D. destruct D as (r & _ & D). left. eauto.
Qed.
Print Assumptions C156_errors.
(** With elision, only a result without a name and without an elided lifetime is an error. *)
Theorem C156_elision_fails_only_without_a_single_lifetime d st : uses (tab st) (counter st) -> AnnotatedD d ->
  exists th ps la lb st2, FitsThis (d_this d) th la /\ Fits_args (d_params d) ps lb /\ Forall2 (given_input st st2) (input_slots d) (la ++ lb) /\
    (annotations true d st = Err CannotElideOutputLifetimes <-> unwritten (slots_v (d_return d)) /\ ~ exists l, elided th ps l).
Proof.
  intros U A. destruct (inputs_of true d st U A (or_introl eq_refl)) as (th & ps & la & lb & st2 & Ft & Fp & _ & F & K & O2 & U2 & D).
  exists th, ps, la, lb, st2. split; [exact Ft|]. split; [exact Fp|]. split; [exact F|]. pose proof (this_shape _ _ _ Ft) as Sh. split.
  - intro E. destruct (in_dec slot_dec None (slots_v (d_return d))) as [J|J].
    + split; [exact J|]. intros (l & El). apply (single_spec th ps l Sh) in El.
      destruct (supply_outputs true th ps (slots_v (d_return d)) st2 O2 (or_intror (conj eq_refl (ex_intro _ l El)))) as (lc & st3 & E3 & _). rewrite E3 in D. destruct D as (r & _ & D). congruence.
    + destruct (supply_outputs true th ps (slots_v (d_return d)) st2 O2 (or_introl J)) as (lc & st3 & E3 & _). rewrite E3 in D. destruct D as (r & _ & D). congruence.
  - intros (J & N). destruct (single_input th ps) as [l|] eqn:S; [exfalso; apply N; exists l; now apply (single_spec th ps l Sh)|].
    now rewrite (supply_outputs_refused true th ps _ st2 O2 J (or_intror S)) in D.
Qed.
Print Assumptions C156_elision_fails_only_without_a_single_lifetime.
(** A badly formed annotation is an error. *)
Theorem C156_bad_annotations_are_errors elision d st f st' : ~ AnnotatedD d -> annotations elision d st <> Ok (f, st').
Proof. intros N E. apply N. exact (create_decl_annotated _ _ _ _ _ _ _ E). Qed.
Print Assumptions C156_bad_annotations_are_errors.
(** A place where nothing is written has a lifetime of its own, unless a name is written
    that could be one of the generated ones. *)
Theorem C156_unwritten_lifetimes_are_distinct_partial elision d st f st' : uses (tab st) (counter st) ->
  (forall n, In (Some n) (input_slots d) -> lookup_name (tab st) n <> None \/ ~ word n) ->
  annotations elision d st = Ok (f, st') ->
  exists la lb lc, FitsDecl d f la lb lc /\
    forall i j l, nth_error (input_slots d) i = Some None -> nth_error (la ++ lb) i = Some l -> i <> j -> nth_error (la ++ lb) j <> Some l.
Proof.
  intros U W E. assert (A : AnnotatedD d) by exact (create_decl_annotated _ _ _ _ _ _ _ E).
  assert (H : elision = true \/ d_dtor d = true \/ ~ unwritten (input_slots d)).
  { destruct elision; [auto|]. destruct (d_dtor d) eqn:Dt; [auto|]. right. right. intro I. rewrite (inputs_refused d st U A Dt I) in E. discriminate. }
  destruct (inputs_of elision d st U A H) as (th & ps & la & lb & st2 & Ft & Fp & S & F & K & O2 & U2 & D).
  destruct (supply (return_factory elision th ps) (slots_v (d_return d)) st2) as [[lc st3]|]; [|congruence]. destruct D as (r & Fr & D). rewrite D in E. injection E as <- <-.
  exists la, lb, lc. split; [split; [exact Ft|split; [exact Fp|exact Fr]]|].
  exact (proj1 (distinct_inputs elision (d_dtor d) (fun n => In (Some n) (input_slots d)) (input_slots d) st (la ++ lb) st2 (uses_older _ _ U) (fun n I => I) W S)).
Qed.
Print Assumptions C156_unwritten_lifetimes_are_distinct_partial.
Definition int : ty := TPlain false [].
Definition ref (n : string) : ty := TPtr false [[T n]] int.
Definition bare : ty := TPtr false [] int.
Definition start : state := State empty_table 2%Z.
(** [f(int* x, int* $a y)]: x and y share a lifetime. *)
Definition captured : decl := Decl None [] (TCons (TSome bare) (TCons (TSome (ref "a")) TNil)) int false.
Theorem C156_unwritten_lifetimes_are_distinct_refuted : exists d st f st' la lb lc i j l,
  uses (tab st) (counter st) /\ annotations true d st = Ok (f, st') /\ FitsDecl d f la lb lc /\
  nth_error (input_slots d) i = Some None /\ i <> j /\ nth_error (la ++ lb) i = Some l /\ nth_error (la ++ lb) j = Some l.
Proof.
  exists captured, start, (FL (ACons (OSome (VPtr false 2%Z (VPlain false))) (ACons (OSome (VPtr false 2%Z (VPlain false))) ANil)) (VPlain false) ONone).
  eexists _, [], [2%Z; 2%Z], [], 0%nat, 1%nat, 2%Z. split; [apply (u_start 2%Z); lia|]. split; [vm_compute; reflexivity|]. split.
  - split; [apply ft_none|]. split; [|apply fits_plain].
    assert (F : forall an, Fits (TPtr false an int) (VPtr false 2%Z (VPlain false)) ([] ++ [2%Z])) by (intro an; apply fits_ptr; [intros (x & y & E); discriminate|apply fits_plain]).
    apply (fits_cons (TSome bare) _ [2%Z] _ _ [2%Z] (fits_some _ _ _ (F []))). apply (fits_cons (TSome (ref "a")) _ [2%Z] _ _ [] (fits_some _ _ _ (F _))). apply fits_nil.
  - split; [reflexivity|]. split; [discriminate|]. split; reflexivity.
Qed.
Print Assumptions C156_unwritten_lifetimes_are_distinct_refuted.
(** A method: the result borrows from [this]. *)
Example C156_case : exists st', annotations true (Decl (Some (TRec false [] TNil [])) [] (TCons (TSome bare) TNil) bare false) start =
  Ok (FL (ACons (OSome (VPtr false 3%Z (VPlain false))) ANil) (VPtr false 2%Z (VPlain false)) (OSome (VPtr false 2%Z (VRec false ANil []))), st').
Proof. eexists. vm_compute. reflexivity. Qed.
Example C156_cannot_elide : annotations true (Decl None [] (TCons (TSome bare) (TCons (TSome bare) TNil)) bare false) start = Err CannotElideOutputLifetimes.
Proof. vm_compute. reflexivity. Qed.
Example C156_fn_pointers_do_not_count : exists st', annotations true (Decl None [] (TCons (TSome (TPtr false [] (TFun [] (FT TNil int)))) (TCons (TSome bare) TNil)) bare false) start =
  Ok (FL (ACons (OSome (VPtr false Static (VFun (FL ANil (VPlain false) ONone)))) (ACons (OSome (VPtr false 2%Z (VPlain false))) ANil)) (VPtr false 2%Z (VPlain false)) ONone, st').
Proof. eexists. vm_compute. reflexivity. Qed.

(** ** C158 *)
(** Exactly the strings with as many names as there are places are accepted, and the i-th
    name is the lifetime of the i-th place. *)
Theorem C158_names_go_to_places_in_order d s st ns : Names (lex [] s) ns -> AnnotatedD d ->
  ((exists f st', parse d s st = Ok (f, st')) <-> List.length ns = List.length (all_slots d)) /\
  forall f st', parse d s st = Ok (f, st') -> exists la lb lc, FitsDecl d f la lb lc /\
    Forall2 (fun n l => lookup_name (tab st') n = Some l) ns (la ++ lb ++ lc) /\
    extends ns (tab st) (counter st) (tab st') (counter st') /\ (uses (tab st) (counter st) -> uses (tab st') (counter st')).
Proof.
  intros N A. destruct (parse_spec d s st ns N) as (P1 & P2). split.
  - split; [intros (f & st' & E); exact (proj2 (P1 f st' E))|]. intro L. destruct (P2 A L) as (f & la & lb & lc & st' & E & _). eauto.
  - intros f st' E. destruct (P2 A (proj2 (P1 f st' E))) as (f2 & la & lb & lc & st2 & E2 & F & B). rewrite E in E2. injection E2 as <- <-.
    exists la, lb, lc. split; [exact F|]. destruct B as (B1 & B2 & B3 & _). auto.
Qed.
Print Assumptions C158_names_go_to_places_in_order.
Definition one_arg : decl := Decl None [] (TCons (TSome bare) TNil) bare false.
(** Punctuation means nothing: the name after the arrow is that of the parameter. *)
Theorem C158_the_arrow_separates_results_refuted : exists d st f st',
  parse d (T "-> a, b") st = Ok (f, st') /\ parse d (T "a -> b") st = Ok (f, st').
Proof. exists one_arg, start. eexists _, _. split; vm_compute; reflexivity. Qed.
Print Assumptions C158_the_arrow_separates_results_refuted.
(** Any other token is a name. *)
Theorem C158_names_are_identifiers_refuted : exists d st f st', parse d (T "1 -> *") st = Ok (f, st').
Proof. exists one_arg, start. eexists _, _. vm_compute. reflexivity. Qed.
Print Assumptions C158_names_are_identifiers_refuted.
Example C158_case : AnnotatedD one_arg /\ Names (lex [] (T "a -> static")) [T "a"; T "static"] /\
  exists st', parse one_arg (T "a -> static") start = Ok (FL (ACons (OSome (VPtr false 2%Z (VPlain false))) ANil) (VPtr false Static (VPlain false)) ONone, st').
Proof.
  assert (B : AnnotatedV bare) by (apply (an_ptr false [] int []); [reflexivity|cbn; lia|intros (x & y & E); discriminate|now apply an_plain]).
  split; [split; [exists []; split; reflexivity|split; [apply an_some; [exact B|apply an_nil]|exact B]]|]. split.
  - change (lex [] (T "a -> static")) with [T "a"; T "->"; T "static"]. apply nm_name; [|apply nm_sep; [|apply nm_name; [|apply nm_nil]]].
    + intro S. unfold is_separator in S. cbn in S. repeat (destruct S as [S|S]; [discriminate S|]). destruct S.
    + unfold is_separator. cbn. tauto.
    + intro S. unfold is_separator in S. cbn in S. repeat (destruct S as [S|S]; [discriminate S|]). destruct S.
  - eexists. vm_compute. reflexivity.
Qed.

(** ** C157 *)
(** Printing and reading back. *)
Theorem C157_printed_lifetimes_read_back_partial fmt d f la lb lc st :
  AnnotatedD d -> match d_this d with Some t => ~ as_fun t | None => True end -> FitsDecl d f la lb lc -> one_level_f f ->
  (forall l, In l (la ++ lb ++ lc) -> name_like (fmt l) /\ lookup_name (tab st) (fmt l) = Some l) ->
  parse d (print_f fmt f) st = Ok (f, st).
Proof.
  intros A Nf F L H.
  assert (N : Names (lex [] (print_f fmt f)) (map fmt (la ++ lb ++ lc))).
  { apply (print_names fmt d f la lb lc F Nf L). apply Forall_forall. intros l I. apply (H l I). }
  destruct (parse_spec d (print_f fmt f) st _ N) as (_ & P).
  assert (Len : List.length (map fmt (la ++ lb ++ lc)) = List.length (all_slots d)).
  { rewrite map_length. unfold all_slots, this_slots. destruct f as [ps r th]. destruct F as (F1 & F2 & F3). rewrite !app_length, (proj1 (proj2 (proj2 fits_length)) _ _ _ F2), (proj1 fits_length _ _ _ F3).
    inversion F1 as [Q1 Q2 Q3|t v l ls Fv Q1 Q2 Q3]; subst; [reflexivity|]. rewrite !app_length, (proj1 fits_length _ _ _ Fv). reflexivity. }
  destruct (P A Len) as (f2 & la2 & lb2 & lc2 & st2 & E & F2 & (B1 & B2 & _ & B4)). rewrite E.
  destruct B4 as (T1 & T2). { apply Forall_forall. intros n I. apply in_map_iff in I. destruct I as (l & <- & I). rewrite (proj2 (H l I)). discriminate. }
  assert (Es : st2 = st) by (destruct st, st2; cbn in *; congruence). subst st2.
  assert (Eq : la ++ lb ++ lc = la2 ++ lb2 ++ lc2).
  { clear - B1 H. revert B1 H. generalize (la ++ lb ++ lc) as xs, (la2 ++ lb2 ++ lc2) as ys. induction xs as [|x xs IH]; intros ys B H; inversion B as [|? y ? ys' B1 B2]; subst; [reflexivity|].
    destruct (H x (or_introl eq_refl)) as (_ & Hx). rewrite Hx in B1. injection B1 as <-. f_equal. apply IH; [exact B2|]. intros l I. apply H. now right. }
  f_equal. f_equal. destruct f as [ps r th], f2 as [ps2 r2 th2]. destruct F as (G1 & G2 & G3), F2 as (K1 & K2 & K3).
  assert (L1 : List.length la = List.length la2).
  { clear - G1 K1. inversion G1 as [Q1 Q2 Q3|t v l ls Fv Q1 Q2 Q3]; subst; inversion K1 as [R1 R2 R3|t2 v2 l2 ls2 Fv2 R1 R2 R3]; subst; try congruence.
    rewrite <- Q1 in R1. injection R1 as ->. rewrite !app_length, (proj1 fits_length _ _ _ Fv), (proj1 fits_length _ _ _ Fv2). reflexivity. }
  apply app_eq in Eq; [|exact L1]. destruct Eq as (-> & Eq).
  apply app_eq in Eq; [|rewrite (proj1 (proj2 (proj2 fits_length)) _ _ _ G2), (proj1 (proj2 (proj2 fits_length)) _ _ _ K2); reflexivity]. destruct Eq as (-> & ->).
  assert (Eth : th2 = th).
  { inversion G1 as [Q1 Q2 Q3|t v l ls Fv Q1 Q2 Q3]; inversion K1 as [R1 R2 R3|t2 v2 l2 ls2 Fv2 R1 R2 R3]; subst; try congruence.
    rewrite <- Q1 in R1. injection R1 as ->. apply app_inj_tail in R3. destruct R3 as (-> & ->). now rewrite (proj1 fits_unique _ _ _ Fv _ Fv2). }
  rewrite Eth, (proj1 (proj2 (proj2 fits_unique)) _ _ _ G2 _ K2), (proj1 fits_unique _ _ _ G3 _ K3). reflexivity.
Qed.
Print Assumptions C157_printed_lifetimes_read_back_partial.
Definition abc (l : lifetime) : text := if Z.eqb l 2 then T "a" else if Z.eqb l 3 then T "b" else T "c".
Definition three : state := State (snd (name_for 4%Z two_names)) 5%Z.
Definition takes (t : ty) : decl := Decl None [] (TCons (TSome t) TNil) int false.
Definition at_ (l : lifetime) : vl := VPtr false l (VPlain false).
Definition none : vl := VPlain false.
Lemma bare_annotated : AnnotatedV bare.
Proof. apply (an_ptr false [] int []); [reflexivity|cbn; lia|intros (x & y & E); discriminate|now apply an_plain]. Qed.
Lemma bare_fits l : Fits bare (at_ l) [l].
Proof. apply (fits_ptr false [] int (VPlain false) l []); [intros (x & y & E); discriminate|apply fits_plain]. Qed.
Lemma takes_annotated t : AnnotatedV t -> AnnotatedD (takes t).
Proof. intro A. split; [exists []; split; reflexivity|]. split; [apply an_some; [exact A|apply an_nil]|now apply an_plain]. Qed.
Lemma takes_fits t v ls : Fits t v ls -> FitsDecl (takes t) (FL (ACons (OSome v) ANil) none ONone) [] ls [].
Proof.
  intro F. split; [apply ft_none|]. split; [|apply fits_plain]. rewrite <- (app_nil_r ls). apply fits_cons; [now apply fits_some|apply fits_nil].
Qed.
(** A class with a lifetime parameter and a template argument: they are swapped. *)
Definition both : ty := TRec false [true] (TCons (TSome bare) TNil) [].
Theorem C157_parameters_and_template_arguments_read_back_refuted : exists fmt d f la lb lc st f',
  AnnotatedD d /\ d_this d = None /\ FitsDecl d f la lb lc /\
  (forall l, In l (la ++ lb ++ lc) -> name_like (fmt l) /\ lookup_name (tab st) (fmt l) = Some l) /\
  parse d (print_f fmt f) st = Ok (f', st) /\ f' <> f.
Proof.
  exists abc, (takes both), (FL (ACons (OSome (VRec false (ACons (OSome (at_ 3%Z)) ANil) [(true, 2%Z)])) ANil) none ONone), [], [2%Z; 3%Z], [], three.
  exists (FL (ACons (OSome (VRec false (ACons (OSome (at_ 2%Z)) ANil) [(true, 3%Z)])) ANil) none ONone). split; [|split; [reflexivity|split; [|split; [|split]]]].
  - apply takes_annotated. apply (an_rec false [true] _ [] []); [reflexivity|auto|apply an_some; [apply bare_annotated|apply an_nil]].
  - apply takes_fits. apply (fits_rec false [true] (TCons (TSome bare) TNil) [] (ACons (OSome (at_ 3%Z)) ANil) [(true, 2%Z)] [3%Z]); [reflexivity|].
    apply (fits_cons (TSome bare) _ [3%Z] TNil ANil []); [apply fits_some, bare_fits|apply fits_nil].
  - intros l [<-|[<-|[]]]; (split; [split; [discriminate|repeat constructor]|vm_compute; reflexivity]).
  - vm_compute. reflexivity.
  - discriminate.
Qed.
Print Assumptions C157_parameters_and_template_arguments_read_back_refuted.
(** Template arguments of template arguments: "<<" is one token, and the string is
    rejected. *)
Definition pair_of (a b : ty) : ty := TRec false [] (TCons (TSome a) (TCons (TSome b) TNil)) [].
Definition pair_v (a b : vl) : vl := VRec false (ACons (OSome a) (ACons (OSome b) ANil)) [].
Lemma pair_annotated a b : AnnotatedV a -> AnnotatedV b -> AnnotatedV (pair_of a b).
Proof. intros A B. apply (an_rec false [] _ [] []); [reflexivity|auto|]. apply an_some; [exact A|]. apply an_some; [exact B|apply an_nil]. Qed.
Lemma pair_fits a b v w ls ms : Fits a v ls -> Fits b w ms -> Fits (pair_of a b) (pair_v v w) (ls ++ ms).
Proof.
  intros F G. apply (fits_rec false [] _ [] _ [] (ls ++ ms)); [reflexivity|]. apply fits_cons; [now apply fits_some|]. rewrite <- (app_nil_r ms).
  apply fits_cons; [now apply fits_some|apply fits_nil].
Qed.
Theorem C157_nested_template_arguments_read_back_refuted : exists fmt d f la lb lc st,
  AnnotatedD d /\ d_this d = None /\ FitsDecl d f la lb lc /\
  (forall l, In l (la ++ lb ++ lc) -> name_like (fmt l) /\ lookup_name (tab st) (fmt l) = Some l) /\
  parse d (print_f fmt f) st = Err Other.
Proof.
  exists abc, (takes (pair_of (pair_of bare bare) bare)), (FL (ACons (OSome (pair_v (pair_v (at_ 2%Z) (at_ 3%Z)) (at_ 4%Z))) ANil) none ONone), [], [2%Z; 3%Z; 4%Z], [], three.
  split; [|split; [reflexivity|split; [|split]]].
  - apply takes_annotated. apply pair_annotated; [apply pair_annotated; apply bare_annotated|apply bare_annotated].
  - apply takes_fits. apply (pair_fits (pair_of bare bare) bare _ _ [2%Z; 3%Z] [4%Z]); [apply (pair_fits bare bare _ _ [2%Z] [3%Z]); apply bare_fits|apply bare_fits].
  - intros l [<-|[<-|[<-|[]]]]; (split; [split; [discriminate|repeat constructor]|vm_compute; reflexivity]).
  - vm_compute. reflexivity.
Qed.
Print Assumptions C157_nested_template_arguments_read_back_refuted.
(** One level is fine. *)
Example C157_case : exists f, FitsDecl (takes (pair_of bare bare)) f [] [2%Z; 3%Z] [] /\ one_level_f f /\ print_f abc f = T "(<a, b>)" /\
  parse (takes (pair_of bare bare)) (print_f abc f) three = Ok (f, three).
Proof.
  exists (FL (ACons (OSome (pair_v (at_ 2%Z) (at_ 3%Z))) ANil) none ONone). split; [apply takes_fits; apply (pair_fits bare bare _ _ [2%Z] [3%Z]); apply bare_fits|].
  split; [cbn; auto 10|]. split; vm_compute; reflexivity.
Qed.
