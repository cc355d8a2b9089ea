From Coq Require Import List Bool Arith Lia Permutation.
From Verif Require Import Overloads.Model Overloads.Spec Overloads.Proofs.
Import ListNotations.

(** * C106: overload sets *)

(** A function reaches the generated crate exactly when it is the only choice for its Rust
    name: no other function asks for that name, or all the others are deprecated and it is
    not. *)
Theorem C106_emitted_iff_unique_choice F f k :
  ids_distinct F -> In f F -> wants F f k ->
  ((exists i, In i (emitted F) /\ i_key i = k /\ i_fn i = f_id f) <-> unique_choice F f k).
Proof.
  intros N If (neg & ok & G). split.
  - intros (i & Ii & Ek & Ef). apply emitted_iff in Ii as (g & U & Eg & _); auto.
    rewrite Ek in U. assert (g = f) as ->; auto.
    apply (nodup_id_inj F); auto. destruct U; auto. congruence.
  - intros U. exists (mkI k (f_id f) neg ok). cbn. split; auto.
    apply emitted_iff; auto. exists f. cbn. auto.
Qed.
Print Assumptions C106_emitted_iff_unique_choice.

(** No Rust name (path, or trait impl for a type) is defined by two C++ functions. *)
Theorem C106_no_name_defined_twice F i j :
  ids_distinct F -> In i (emitted F) -> In j (emitted F) -> i_key i = i_key j -> i = j.
Proof.
  intros N Hi Hj E.
  apply emitted_iff in Hi as (f & Uf & Ef & Gf); auto.
  apply emitted_iff in Hj as (g & Ug & Eg & Gg); auto.
  assert (Efg : f_id f = f_id g).
  { destruct (Nat.eq_dec (f_id f) (f_id g)) as [|Ne]; auto. exfalso.
    destruct Uf as (If & Wf & Of), Ug as (Ig & Wg & Og).
    rewrite <- E in Wg. rewrite E in Wf.
    specialize (Of g Ig Wg (not_eq_sym Ne)) as [O1 _].
    specialize (Og f If Wf Ne) as [_ O2]. congruence. }
  assert (f = g) as <-.
  { apply (nodup_id_inj F); auto. destruct Uf; auto. destruct Ug; auto. }
  destruct i, j; cbn in *. congruence.
Qed.
Print Assumptions C106_no_name_defined_twice.

(** The order of the declarations does not matter. *)
Theorem C106_declaration_order_irrelevant F F' i :
  ids_distinct F -> Permutation F F' -> (In i (emitted F) <-> In i (emitted F')).
Proof.
  intros N P.
  assert (N' : ids_distinct F').
  { unfold ids_distinct in *. eapply Permutation_NoDup; [|exact N]. now apply Permutation_map. }
  rewrite !emitted_iff by auto. split; intros (f & U & Ef & G); exists f.
  - split; [|split]; auto. eapply unique_choice_perm; eauto.
    now rewrite <- (generate_perm F F').
  - split; [|split]; auto. eapply unique_choice_perm; [apply Permutation_sym|]; eauto.
    now rewrite (generate_perm F F').
Qed.
Print Assumptions C106_declaration_order_irrelevant.

(** Marking every overload but one as deprecated gives that one its binding. *)
Theorem C106_deprecating_the_others F f k :
  ids_distinct F -> In f F -> wants F f k -> f_depr f = false ->
  (forall g, In g F -> wants F g k -> f_id g <> f_id f -> f_depr g = true) ->
  exists i, In i (emitted F) /\ i_key i = k /\ i_fn i = f_id f.
Proof.
  intros N If W D O. apply C106_emitted_iff_unique_choice; auto.
  split; [|split]; auto. intros g Ig Wg Ne. split; auto.
Qed.
Print Assumptions C106_deprecating_the_others.

Definition fn (id p : nat) (d : bool) : cfunc := mkF id (OFn p) (POther 0) (POther 0) true d true.

Example C106_example_two_overloads : emitted [fn 1 7 false; fn 2 7 false; fn 3 8 false]
  = [mkI (IdPath 8) 3 false true].
Proof. vm_compute. reflexivity. Qed.
Example C106_example_deprecated :
  emitted [fn 1 7 true; fn 2 7 true; fn 3 7 false; fn 4 7 true] = [mkI (IdPath 7) 3 false true].
Proof. vm_compute. reflexivity. Qed.
Example C106_example_unique :
  unique_choice [fn 1 7 true; fn 2 7 true; fn 3 7 false] (fn 3 7 false) (IdPath 7)
  /\ ids_distinct [fn 1 7 true; fn 2 7 true; fn 3 7 false].
Proof.
  split.
  - split; [cbn; auto|split; [do 2 eexists; reflexivity|]].
    intros g [<-|[<-|[<-|[]]]] _ Ne; cbn in *; try congruence; split; reflexivity.
  - unfold ids_distinct. cbn. repeat constructor; cbn; intuition lia.
Qed.

(** * C107: comparison operators mean what they mean in C++ *)

(** [a == b] and [a != b] in Rust are the C++ operator== on the same operands; only when no
    usable operator== with these parameter types exists are they the C++ operator!=. *)
Theorem C107_equality_is_cpp F sem l r i :
  ids_distinct F -> has_eq_impl F l r i ->
  exists f, In f F /\ f_id f = i_fn i /\
    (exists e1 e2, record_of (f_l f) = Some (l, e1) /\ record_of (f_r f) = Some (r, e2)) /\
    ((f_op f = OEq /\
      forall a b, rs_eq sem i a b = sem (f_id f) a b
               /\ rs_ne sem i a b = negb (sem (f_id f) a b)) \/
     (f_op f = ONe /\
      (forall a b, rs_eq sem i a b = negb (sem (f_id f) a b)
                /\ rs_ne sem i a b = sem (f_id f) a b) /\
      forall g, In g F -> f_op g = OEq -> f_ok g = true ->
                f_l g = f_l f -> f_r g = f_r f ->
                exists m x lt, (f_l g = PRef m x lt \/ f_r g = PRef m x lt) /\ m = true)).
Proof.
  intros N (Ii & Ek). apply emitted_iff in Ii as (f & (If & _ & _) & En & G); auto.
  rewrite Ek in G. exists f. split; [auto|split; [auto|]].
  unfold generate in G. destruct (f_ok f) eqn:Ok; cbn [negb] in G; [|discriminate].
  unfold rs_ne, rs_eq, thunk_result. rewrite En.
  destruct (f_op f) eqn:Op.
  - unfold eq_shape in G.
    destruct (record_of (f_l f)) as [[l' e1]|]; [|discriminate].
    destruct (record_of (f_r f)) as [[r' e2]|]; [|discriminate].
    injection G as -> -> <- _. split; [eauto|left]. auto.
  - destruct (get_eq_binding F (f_l f) (f_r f)) eqn:B; [discriminate|].
    unfold eq_shape in G.
    destruct (record_of (f_l f)) as [[l' e1]|] eqn:R1; [|discriminate].
    destruct (record_of (f_r f)) as [[r' e2]|] eqn:R2; [|discriminate].
    injection G as -> -> <- _. split; [eauto|right]. split; [auto|split].
    + intros a b. now rewrite negb_involutive.
    + intros g Ig Eg Og El Er.
      pose proof (find_none _ _ B g Ig) as H.
      unfold binds_eq, is_eq in H. rewrite Eg, Og, El, Er in H.
      unfold eq_shape in H. rewrite El, Er, R1, R2 in H.
      rewrite (proj2 (ptype_eqb_spec _ _) eq_refl), (proj2 (ptype_eqb_spec _ _) eq_refl) in H.
      cbn [andb] in H. rewrite negb_false_iff, orb_true_iff in H.
      rewrite El, Er. destruct H as [-> | ->].
      * destruct (f_l f); cbn in R1; try discriminate. injection R1 as -> ->.
        do 3 eexists; split; [left; reflexivity|reflexivity].
      * destruct (f_r f); cbn in R2; try discriminate. injection R2 as -> ->.
        do 3 eexists; split; [right; reflexivity|reflexivity].
  - destruct (record_of (f_l f)) as [[l' e1]|]; [|discriminate].
    destruct (record_of (f_r f)) as [[r' e2]|]; [|discriminate].
    destruct (l' =? r'); [|discriminate]. cbn [negb] in G.
    destruct (get_eq_binding F (f_l f) (f_r f)); [|discriminate].
    destruct (e1 || e2 || negb (f_bool f)); discriminate.
  - discriminate.
Qed.
Print Assumptions C107_equality_is_cpp.

(** [a < b] in Rust is the C++ operator< of the same type. *)
Theorem C107_less_is_cpp F sem l r i :
  ids_distinct F -> has_ord_impl F l r i ->
  l = r /\ i_ok i = true /\
  exists f, In f F /\ f_id f = i_fn i /\ f_op f = OLt /\ f_bool f = true /\
    record_of (f_l f) = Some (l, false) /\ record_of (f_r f) = Some (r, false) /\
    forall a b, rs_lt sem i a b = sem (f_id f) a b.
Proof.
  intros N (Ii & Ek). apply emitted_iff in Ii as (f & (If & _ & _) & En & G); auto.
  rewrite Ek in G.
  unfold generate in G. destruct (f_ok f) eqn:Ok; cbn [negb] in G; [|discriminate].
  unfold rs_lt, thunk_result. rewrite En.
  destruct (f_op f) eqn:Op.
  1: { unfold eq_shape in G.
       destruct (record_of (f_l f)) as [[l' e1]|]; [|discriminate].
       destruct (record_of (f_r f)) as [[r' e2]|]; discriminate. }
  1: { destruct (get_eq_binding F (f_l f) (f_r f)) eqn:B; [discriminate|].
       unfold eq_shape in G.
       destruct (record_of (f_l f)) as [[l' e1]|] eqn:R1; [|discriminate].
       destruct (record_of (f_r f)) as [[r' e2]|] eqn:R2; discriminate. }
  2: discriminate.
  destruct (record_of (f_l f)) as [[l' e1]|] eqn:R1; [|discriminate].
  destruct (record_of (f_r f)) as [[r' e2]|] eqn:R2; [|discriminate].
  destruct (Nat.eqb_spec l' r') as [->|]; [|discriminate]. cbn [negb] in G.
  destruct (get_eq_binding F (f_l f) (f_r f)); [|discriminate].
  destruct e1; [discriminate|]. destruct e2; [discriminate|]. cbn [orb] in G.
  destruct (f_bool f) eqn:Fb; [|discriminate]. cbn in G.
  injection G as -> <- <- <-. split; auto. split; auto.
  exists f. auto 8.
Qed.
Print Assumptions C107_less_is_cpp.

(** If the C++ operators form a partial order, the generated PartialOrd impl meets the
    contract of core::cmp::PartialOrd, and [>] is the C++ operator< with the operands
    swapped. *)
Theorem C107_partial_ord_contract sem ie il :
  partial_order_ok (rs_eq sem ie) (rs_lt sem il) ->
  partial_ord_contract (rs_partial_cmp sem ie il) (rs_eq sem ie) (rs_lt sem il)
    (rs_gt sem ie il) (rs_le sem ie il) (rs_ge sem ie il) /\
  (forall a b, rs_gt sem ie il a b = rs_lt sem il b a) /\
  (forall a b, rs_le sem ie il a b = rs_eq sem ie a b || rs_lt sem il a b) /\
  (forall a b, rs_ge sem ie il a b = rs_eq sem ie a b || rs_lt sem il b a).
Proof.
  intros (Irr & Asym). unfold partial_ord_contract, rs_gt, rs_le, rs_ge, rs_partial_cmp.
  set (eq := rs_eq sem ie) in *. set (lt := rs_lt sem il) in *.
  split; [|split; [|split]]; intros a b;
    pose proof (Irr a b); pose proof (Irr b a); pose proof (Asym a b); pose proof (Asym b a);
    destruct (eq a b) eqn:E1, (eq b a) eqn:E2, (lt a b) eqn:L1, (lt b a) eqn:L2;
    cbn; intuition (try congruence; try discriminate).
Qed.
Print Assumptions C107_partial_ord_contract.

(** Without that assumption the contract fails: the C++ operators are taken as they are. *)
Theorem C107_contract_needs_partial_order_refuted :
  exists sem ie il,
    ~ partial_ord_contract (rs_partial_cmp sem ie il) (rs_eq sem ie) (rs_lt sem il)
        (rs_gt sem ie il) (rs_le sem ie il) (rs_ge sem ie il).
Proof.
  exists (fun _ _ _ => true), (mkI (IdEq 0 0) 0 false true), (mkI (IdOrd 0 0) 1 false true).
  intros H. destruct (H 0 0) as (_ & [H2 _] & _). specialize (H2 eq_refl). discriminate.
Qed.
Print Assumptions C107_contract_needs_partial_order_refuted.

(** A class that defines both operators: Rust's [!=] does not call the C++ operator!=. *)
Theorem C107_own_not_equal_is_not_called_refuted :
  exists F sem l r i f,
    ids_distinct F /\ has_eq_impl F l r i /\ i_ok i = true /\
    In f F /\ f_op f = ONe /\ record_of (f_l f) = Some (l, false) /\
    record_of (f_r f) = Some (r, false) /\
    exists a b, rs_ne sem i a b <> sem (f_id f) a b.
Proof.
  exists [mkF 1 OEq (PRef false 5 0) (PRef false 5 0) true false true;
          mkF 2 ONe (PRef false 5 0) (PRef false 5 0) true false true],
    (fun _ a b => a =? b), 5, 5, (mkI (IdEq 5 5) 1 false true),
    (mkF 2 ONe (PRef false 5 0) (PRef false 5 0) true false true).
  split; [|split; [|split; [|split; [|split; [|split; [|split]]]]]];
    try reflexivity; try (cbn; auto).
  - unfold ids_distinct. cbn. repeat constructor; cbn; intuition lia.
  - split; [vm_compute; auto|reflexivity].
  - exists 0, 0. discriminate.
Qed.
Print Assumptions C107_own_not_equal_is_not_called_refuted.

Definition cref (r : nat) : ptype := PRef false r 0.

(** A class with [==] and [<]. *)
Definition cls : list cfunc :=
  [mkF 1 OEq (cref 5) (cref 5) true false true;
   mkF 2 ONe (cref 5) (cref 5) true false true;
   mkF 3 OLt (cref 5) (cref 5) true false true].
Example C107_example_emitted :
  emitted cls = [mkI (IdEq 5 5) 1 false true; mkI (IdOrd 5 5) 3 false true].
Proof. vm_compute. reflexivity. Qed.
Example C107_example_only_ne :
  emitted [mkF 2 ONe (cref 5) (PVal 6) true false true] = [mkI (IdEq 5 6) 2 true true].
Proof. vm_compute. reflexivity. Qed.
Definition sem_nat (id a b : nat) : bool := if id =? 3 then a <? b else a =? b.
Example C107_example_order :
  partial_order_ok (rs_eq sem_nat (mkI (IdEq 5 5) 1 false true))
                   (rs_lt sem_nat (mkI (IdOrd 5 5) 3 false true)).
Proof.
  split; intros a b; unfold rs_eq, rs_lt, thunk_result, sem_nat; cbn [i_neg i_fn Nat.eqb].
  - rewrite Nat.eqb_eq. intros ->. now rewrite Nat.ltb_irrefl.
  - rewrite Nat.ltb_lt, Nat.ltb_ge. lia.
Qed.

(** * C108: an impl of PartialOrd comes with an impl of PartialEq *)

(** Holds if every operator== returns bool and no two functions ask for the same PartialEq
    impl. *)
Theorem C108_partial_ord_has_partial_eq_partial F :
  ids_distinct F ->
  (forall f, In f F -> f_op f = OEq -> f_bool f = true) ->
  (forall f g l r, In f F -> In g F -> wants F f (IdEq l r) -> wants F g (IdEq l r) -> f = g) ->
  supertraits_hold F.
Proof.
  intros N Hb Hu l r i (Ii & Ek).
  apply emitted_iff in Ii as (f & (If & _ & _) & En & G); auto. rewrite Ek in G.
  unfold generate in G. destruct (f_ok f) eqn:Ok; cbn [negb] in G; [|discriminate].
  destruct (f_op f) eqn:Op.
  1: { unfold eq_shape in G.
       destruct (record_of (f_l f)) as [[l' e1]|]; [|discriminate].
       destruct (record_of (f_r f)) as [[r' e2]|]; discriminate. }
  1: { destruct (get_eq_binding F (f_l f) (f_r f)) eqn:B; [discriminate|].
       unfold eq_shape in G.
       destruct (record_of (f_l f)) as [[l' e1]|] eqn:R1; [|discriminate].
       destruct (record_of (f_r f)) as [[r' e2]|] eqn:R2; discriminate. }
  2: discriminate.
  destruct (record_of (f_l f)) as [[l' e1]|] eqn:R1; [|discriminate].
  destruct (record_of (f_r f)) as [[r' e2]|] eqn:R2; [|discriminate].
  destruct (Nat.eqb_spec l' r') as [->|]; [|discriminate]. cbn [negb] in G.
  destruct (get_eq_binding F (f_l f) (f_r f)) as [g|] eqn:B; [|discriminate].
  destruct (e1 || e2 || negb (f_bool f)) eqn:E; [discriminate|].
  injection G as -> <- _ _.
  apply find_some in B as [Ig Bg]. unfold binds_eq, is_eq in Bg.
  destruct (f_op g) eqn:Opg; try discriminate.
  destruct (f_ok g) eqn:Okg; try discriminate. cbn [andb] in Bg.
  destruct (eq_shape g) as [[k clean]|] eqn:S; [|discriminate].
  rewrite !andb_true_iff, !ptype_eqb_spec in Bg. destruct Bg as [[El Er] ->].
  assert (k = IdEq l l) as ->.
  { unfold eq_shape in S. rewrite El, Er, R1, R2 in S. congruence. }
  assert (Gg : generate F g = GSome (IdEq l l) false true).
  { unfold generate. rewrite Okg, Opg, S. cbn [negb andb]. now rewrite (Hb g Ig Opg). }
  exists (mkI (IdEq l l) (f_id g) false true). split; [|reflexivity]. split; [|reflexivity].
  apply emitted_iff; auto. exists g. cbn. split; [|auto].
  split; [auto|split; [eexists; eexists; eauto|]].
  intros h Ih Wh Ne. exfalso. apply Ne. f_equal. apply (Hu h g l l); auto.
  eexists; eexists; eauto.
Qed.
Print Assumptions C108_partial_ord_has_partial_eq_partial.

(** operator== returning something other than bool: PartialOrd is emitted although its
    PartialEq impl has an unsatisfiable where clause; rustc rejects the crate (E0277). *)
Theorem C108_non_bool_equality_refuted :
  exists F, ids_distinct F /\ Forall (fun f => f_ok f = true) F /\ ~ supertraits_hold F.
Proof.
  exists [mkF 1 OEq (cref 5) (cref 5) false false true; mkF 2 OLt (cref 5) (cref 5) true false true].
  split; [unfold ids_distinct; cbn; repeat constructor; cbn; intuition lia|].
  split; [repeat constructor|].
  intros H. destruct (H 5 5 (mkI (IdOrd 5 5) 2 false true)) as (j & (Ij & Ek) & Ok).
  - split; [vm_compute; auto|reflexivity].
  - vm_compute in Ij. destruct Ij as [<-|[<-|[]]]; cbn in *; congruence.
Qed.
Print Assumptions C108_non_bool_equality_refuted.

(** All operators return bool, but operator!= takes its operands by value while operator==
    takes references: both ask for the PartialEq impl, both are dropped as ambiguous, and
    PartialOrd is left without PartialEq.  In C++ all three operators are usable. *)
Theorem C108_mixed_passing_refuted :
  exists F, ids_distinct F /\
    Forall (fun f => f_ok f = true /\ f_bool f = true /\ f_depr f = false) F /\
    (forall i l r, ~ has_eq_impl F l r i) /\
    ~ supertraits_hold F.
Proof.
  exists [mkF 1 OEq (cref 5) (cref 5) true false true; mkF 2 ONe (PVal 5) (PVal 5) true false true;
          mkF 3 OLt (cref 5) (cref 5) true false true].
  set (F := [_; _; _]).
  assert (E : emitted F = [mkI (IdOrd 5 5) 3 false true]) by (vm_compute; reflexivity).
  split; [unfold ids_distinct; cbn; repeat constructor; cbn; intuition lia|].
  split; [repeat constructor|]. unfold supertraits_hold, has_eq_impl, has_ord_impl. rewrite E.
  split.
  - intros i l r ([<-|[]] & Ek). discriminate.
  - intros H. destruct (H 5 5 (mkI (IdOrd 5 5) 3 false true)) as (j & ([<-|[]] & Ek) & Ok).
    + split; [cbn; auto|reflexivity].
    + discriminate.
Qed.
Print Assumptions C108_mixed_passing_refuted.

Example C108_example_hypotheses :
  (forall f, In f cls -> f_op f = OEq -> f_bool f = true) /\
  (forall f g l r, In f cls -> In g cls -> wants cls f (IdEq l r) -> wants cls g (IdEq l r) -> f = g)
  /\ has_ord_impl cls 5 5 (mkI (IdOrd 5 5) 3 false true).
Proof.
  split; [|split].
  - intros f [<-|[<-|[<-|[]]]]; cbn; intros; congruence.
  - intros f g l r If Ig (n & o & W) (n' & o' & W').
    destruct If as [<-|[<-|[<-|[]]]], Ig as [<-|[<-|[<-|[]]]]; vm_compute in W, W';
      try discriminate; reflexivity.
  - split; [vm_compute; auto|reflexivity].
Qed.
