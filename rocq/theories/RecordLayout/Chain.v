(** From the C++ rules to the conditions of [Proofs]. *)
From Coq Require Import List Arith ZArith Bool Lia ZifyNat.
From Verif Require Import RecordLayout.Model RecordLayout.Spec RecordLayout.Proofs.
Import ListNotations.
Local Open Scope nat_scope.
Local Open Scope list_scope.

Definition sized (d : data) : bool := negb (zero_size d).
Definition sized_ok (d : data) : Prop :=
  match d_member d with Plain s _ _ => 0 < s | Overlapping s n _ => 0 < n <= s | Bits w _ => 0 < w | _ => True end.

Lemma placed_sized pos b ds last : placed pos b ds last -> Forall sized_ok ds.
Proof. induction 1; constructor; auto; unfold sized_ok; rewrite H; auto. Qed.

Definition end_bits (d : data) : nat := d_offset d + f_size (import_field d).

Section Class.
Variable c : class.
Notation r := (import c).

Definition item_of (d : data) : item :=
  Item (if is_bits d then None else Some (import_field d)) (d_offset d) (if known c d then Some (end_bits d) else None).

Lemma import_offset d : f_offset (import_field d) = d_offset d.
Proof. unfold import_field. destruct (d_member d); reflexivity. Qed.

Lemma to_item_eq d : sized_ok d -> to_item r (import_field d) = if sized d then Some (item_of d) else None.
Proof.
  intros O. unfold to_item, item_of, known, end_bits, sized, zero_size, is_bits, sized_ok in *. rewrite import_offset.
  destruct (type_for_layout r (import_field d)); cbn [is_union import]; unfold import_field; destruct (d_member d); cbn [f_size f_bitfield negb];
    try reflexivity; match goal with |- context [?x =? 0] => destruct (Nat.eqb_spec x 0); [lia|reflexivity] end.
Qed.

Lemma to_items_eq ds : Forall sized_ok ds -> to_items r (map import_field ds) = map item_of (filter sized ds).
Proof.
  induction 1 as [|d ds O _ IH]; [reflexivity|]. cbn [map to_items filter]. rewrite IH, (to_item_eq d O).
  destruct (sized d); reflexivity.
Qed.

Lemma coalesce_head rest : forall i, exists e l, coalesce_from i rest = Item (i_ir i) (i_offset i) e :: l.
Proof.
  induction rest as [|j rest IH]; intros i; cbn [coalesce_from].
  - exists (i_end i), []. now destruct i.
  - destruct (i_ir i) as [f|] eqn:Ei.
    + exists (i_end i), (coalesce_from j rest). destruct i; cbn in *; now subst.
    + destruct (i_ir j) as [g|].
      * exists (i_end i), (coalesce_from j rest). destruct i; cbn in *; now subst.
      * destruct (IH (Item None (i_offset i) (i_end j))) as (e & l & E). exists e, l. exact E.
Qed.

Lemma link_head r' i j e : link r' i (Item (i_ir j) (i_offset j) e) = link r' i j.
Proof. reflexivity. Qed.

(** What is known of each member. *)
Definition facts (d : data) : Prop :=
  sized_ok d /\ types_match d /\
  match d_member d with
  | Plain _ ta a => pow2 ta /\ pow2 a /\ (known c d = true -> a <= ta)
  | Overlapping _ _ a => pow2 a
  | _ => True
  end /\ m_end d <= class_size c.

Fixpoint last_from (d : data) (ds : list data) : data :=
  match ds with [] => d | x :: ds1 => last_from (if zero_size x then d else x) ds1 end.

Definition tail_ok (d : data) : Prop := known c d = false \/ class_size c = round_up (m_end d) (class_align c).

Definition zero_ok (ds : list data) : Prop :=
  forall ds1 d ds2, ds = ds1 ++ d :: ds2 -> (exists a, d_member d = ZeroBits a) ->
  match first_sized ds2 with Some e => known_plain c e = false | None => True end.

Record inv (cur : item) (d : data) (pos : nat) (b z : bool) : Prop := Inv {
  n_item : item_ok r cur;
  n_end : i_end cur = (if known c d then Some (end_bits d) else None);
  n_sized : zero_size d = false;
  n_ceil : known c d = true -> ceil8 (end_bits d) = m_end d;
  n_off : i_offset cur <= d_offset d < pos;
  n_size : i_offset cur < 8 * class_size c;
  n_pos : known c d = true -> end_bits d <= pos /\ (z = false -> pos = end_bits d);
  n_bits : b = true -> i_ir cur = None }.

Lemma known_not_overlapping d s n a : d_member d = Overlapping s n a -> known c d = false.
Proof. intros E. unfold known, import_field. rewrite E. reflexivity. Qed.

Lemma known_type_eq d t : type_for_layout r (import_field d) = Some t -> d_type d = Some t.
Proof.
  unfold type_for_layout. destruct (f_no_unique_address _); [discriminate|]. destruct (_ && _); [discriminate|].
  assert (E : f_type (import_field d) = d_type d) by (unfold import_field; destruct (d_member d); reflexivity). rewrite E.
  destruct (d_type d) as [t'|]; [|discriminate]. destruct (_ && _); [discriminate|auto].
Qed.

Lemma known_type_plain x t : sized x = true -> known_type r (item_of x) = Some t -> known_plain c x = true.
Proof.
  intros SX KT. unfold known_type, item_of in KT. cbn [i_ir] in KT. unfold sized, zero_size in SX. unfold known_plain, is_bits, known in *.
  unfold import_field in *. destruct (d_member x); cbn in *; try discriminate; now rewrite KT.
Qed.

(** The item for a member that is not merged. *)
Lemma item_of_inv pos b d : sized d = true -> facts d -> (is_bits d = true -> b = false) ->
  forall ds last, placed pos b (d :: ds) last ->
  pos <= d_offset d /\
  (is_bits d = false -> d_offset d / 8 >= ceil8 pos) /\
  exists pos' b', placed pos' b' ds last /\ inv (item_of d) d pos' b' false /\
  (known_plain c d = true -> forall t, known_type r (item_of d) = Some t -> d_offset d / 8 = round_up (ceil8 pos) (rt_align t)).
Proof.
  intros SZ (SO & TM & FA & ME) B ds last P.
  inversion P as [|? ? ? ? ? s ta a M S0 O P'|? ? ? ? ? s n a M S0 O P'|? ? ? ? ? s a M O P'|? ? ? ? ? w a M W O O8 P'|? ? ? ? ? a M O O8 P']; subst;
    unfold sized, zero_size in SZ; rewrite M in SZ; try discriminate SZ; unfold is_bits, known_plain in *; rewrite M in *.
  - (* Plain *)
    destruct FA as (PT & PA & AL). pose proof (pow2_pos _ PT) as PT0. pose proof (pow2_pos _ PA) as PA0.
    assert (R : 0 < Nat.max ta a) by lia. pose proof (round_up_ge (ceil8 pos) _ R) as G. pose proof (ceil8_le pos) as G2.
    split; [rewrite O; lia|]. split; [intros _; rewrite O; lia|].
    exists (d_offset d + 8 * s), false. split; [exact P'|].
    assert (IT : item_of d = Item (Some (import_field d)) (d_offset d) (if known c d then Some (end_bits d) else None)).
    { unfold item_of, is_bits. now rewrite M. }
    assert (EB : end_bits d = d_offset d + 8 * s) by (unfold end_bits, import_field; now rewrite M).
    assert (O8 : d_offset d mod 8 = 0) by (rewrite O; lia).
    assert (ME' : m_end d = d_offset d / 8 + s) by (unfold m_end; now rewrite M).
    split; [constructor|].
    + rewrite IT. split; [exact O8|]. split; [intros f [= <-]; apply import_offset|]. unfold known_type, known in *. cbn [i_ir i_end].
      destruct (type_for_layout r (import_field d)) as [t|] eqn:T; [|reflexivity].
      pose proof (known_type_eq d t T) as DT. unfold types_match in TM. rewrite DT, M in TM. destruct TM as [T1 T2].
      split; [cbn [i_offset]; rewrite EB; congruence|]. split; [lia|]. cbn [i_offset].
      replace (Nat.max ta a) with ta in O by (specialize (AL eq_refl); lia). rewrite T2, O.
      destruct (round_up_multiple (ceil8 pos) ta PT0) as [k E]. exists k. rewrite E. rewrite Nat.mul_comm, Nat.div_mul; lia.
    + rewrite IT. reflexivity.
    + unfold zero_size. now rewrite M.
    + intros _. rewrite EB, ME'. unfold ceil8. lia.
    + rewrite IT. cbn [i_offset]. lia.
    + rewrite IT. cbn [i_offset]. lia.
    + intros _. rewrite EB. split; [lia|reflexivity].
    + discriminate.
    + intros K t T. rewrite IT in T. cbn [known_type i_ir] in T. pose proof (known_type_eq d t T) as DT. unfold types_match in TM. rewrite DT, M in TM. destruct TM as [T1 T2].
      replace (Nat.max ta a) with ta in O by (specialize (AL K); lia). rewrite O, T2. rewrite Nat.mul_comm, Nat.div_mul; lia.
  - (* Overlapping *)
    pose proof (pow2_pos _ FA) as PA0. pose proof (round_up_ge (ceil8 pos) _ PA0) as G. pose proof (ceil8_le pos) as G2.
    pose proof (known_not_overlapping d s n a M) as KF.
    split; [rewrite O; lia|]. split; [intros _; rewrite O; lia|].
    exists (d_offset d + 8 * n), false. split; [exact P'|].
    assert (IT : item_of d = Item (Some (import_field d)) (d_offset d) None).
    { unfold item_of, is_bits. now rewrite M, KF. }
    assert (O8 : d_offset d mod 8 = 0) by (rewrite O; lia).
    assert (ME' : m_end d = d_offset d / 8 + s) by (unfold m_end; now rewrite M).
    split; [constructor|discriminate].
    + rewrite IT. split; [exact O8|]. split; [intros f [= <-]; apply import_offset|]. unfold known_type, known in *. cbn [i_ir i_end].
      destruct (type_for_layout r (import_field d)) as [t|] eqn:T; [discriminate KF|reflexivity].
    + rewrite IT, KF. reflexivity.
    + unfold zero_size. now rewrite M.
    + rewrite KF. discriminate.
    + rewrite IT. cbn [i_offset]. lia.
    + rewrite IT. cbn [i_offset]. lia.
    + rewrite KF. discriminate.
    + discriminate.
  - (* Bits *)
    specialize (B eq_refl). specialize (O8 B).
    split; [exact O|]. split; [discriminate|].
    exists (d_offset d + w), true. split; [exact P'|].
    assert (IT : item_of d = Item None (d_offset d) (if known c d then Some (end_bits d) else None)).
    { unfold item_of, is_bits. now rewrite M. }
    assert (EB : end_bits d = d_offset d + w) by (unfold end_bits, import_field; now rewrite M).
    assert (ME' : m_end d = ceil8 (d_offset d + w)) by (unfold m_end; now rewrite M).
    split; [constructor|discriminate].
    + rewrite IT. split; [exact O8|]. split; [discriminate|]. cbn [known_type i_ir i_end i_offset]. destruct (known c d); [lia|trivial].
    + rewrite IT. reflexivity.
    + unfold zero_size. now rewrite M.
    + intros _. now rewrite EB, ME'.
    + rewrite IT. cbn [i_offset]. lia.
    + rewrite IT. cbn [i_offset]. pose proof (ceil8_le (d_offset d + w)). lia.
    + intros _. rewrite EB. split; [lia|reflexivity].
    + intros _. now rewrite IT.
Qed.

Lemma last_ok_inv cur d pos b z : inv cur d pos b z -> tail_ok d -> last_ok r (class_align c) cur.
Proof.
  intros I T. unfold last_ok. rewrite (n_end _ _ _ _ _ I). destruct (known c d) eqn:K; [|exact (n_size _ _ _ _ _ I)].
  rewrite (n_ceil _ _ _ _ _ I K). destruct T as [T|T]; [congruence|exact T].
Qed.

Lemma zero_ok_cons x ds : zero_ok (x :: ds) -> zero_ok ds.
Proof. intros H ds1 d ds2 E Z. apply (H (x :: ds1) d ds2); [now rewrite E|exact Z]. Qed.

Lemma chain ds : forall cur d pos b z last,
  placed pos b ds last -> inv cur d pos b z ->
  (z = true -> match first_sized ds with Some e => known_plain c e = false | None => True end) ->
  zero_ok ds -> Forall facts ds -> tail_ok (last_from d ds) ->
  good r (class_align c) (coalesce_from cur (map item_of (filter sized ds))).
Proof.
  induction ds as [|x ds IH]; intros cur d pos b z last P I Z ZO F T.
  - cbn. split; [exact (n_item _ _ _ _ _ I)|]. split; [exact (last_ok_inv _ _ _ _ _ I T)|trivial].
  - inversion F as [|? ? Fx F']; subst. pose proof (zero_ok_cons _ _ ZO) as ZO'.
    destruct (sized x) eqn:SX.
    + assert (ZX : zero_size x = false) by (unfold sized in SX; now destruct (zero_size x)).
      assert (KX : z = true -> known_plain c x = false).
      { intros E. specialize (Z E). unfold first_sized in Z. cbn [find] in Z. fold (sized x) in Z. rewrite SX in Z. exact Z. }
      cbn [filter]. rewrite SX. cbn [map coalesce_from]. cbn [last_from] in T. rewrite ZX in T.
      destruct (i_ir cur) as [f|] eqn:IR.
      * (* not merged: previous is no bit-field *)
        assert (b = false) by (destruct b; [pose proof (n_bits _ _ _ _ _ I eq_refl); congruence|reflexivity]). subst b.
        destruct (item_of_inv pos false x SX Fx (fun _ => eq_refl) ds last P) as (G1 & G2 & pos' & b' & P' & I' & KP).
        pose proof (IH _ _ _ _ _ _ P' I' (fun E => False_ind _ (Bool.diff_false_true E)) ZO' F' T) as G.
        destruct (coalesce_head (map item_of (filter sized ds)) (item_of x)) as (e & l & E). rewrite E in *.
        split; [exact (n_item _ _ _ _ _ I)|]. split; [|exact G].
        rewrite link_head. unfold link. rewrite (n_end _ _ _ _ _ I). pose proof (n_off _ _ _ _ _ I) as NO.
        assert (OX : i_offset (item_of x) = d_offset x) by reflexivity. rewrite OX.
        destruct (known c d) eqn:K; [|lia]. destruct (n_pos _ _ _ _ _ I K) as [L1 L2].
        split.
        -- destruct (is_bits x) eqn:BX.
           ++ pose proof (n_item _ _ _ _ _ I') as (M8 & _). rewrite OX in M8. unfold ceil8. lia.
           ++ specialize (G2 eq_refl). pose proof (ceil8_mono _ _ L1). lia.
        -- destruct (known_type r (item_of x)) as [t|] eqn:KT; [|trivial].
           assert (KPx : known_plain c x = true) by exact (known_type_plain x t SX KT).
           assert (z = false) by (destruct z; [specialize (KX eq_refl); congruence|reflexivity]).
           rewrite (KP KPx t eq_refl). now rewrite (L2 H).
      * destruct (is_bits x) eqn:BX.
        -- (* merged *)
           unfold item_of at 1. rewrite BX. cbn [i_ir].
           inversion P as [|? ? ? ? ? s ta a M S0 O P'|? ? ? ? ? s n a M S0 O P'|? ? ? ? ? s a M O P'|? ? ? ? ? w a M W O O8 P'|? ? ? ? ? a M O O8 P']; subst;
             unfold is_bits in BX; rewrite M in BX; try discriminate BX.
           apply (IH _ x (d_offset x + w) true false last P'); auto; [|discriminate].
           pose proof (n_off _ _ _ _ _ I) as NO. pose proof (n_item _ _ _ _ _ I) as (M8 & _). pose proof (n_size _ _ _ _ _ I).
           assert (EB : end_bits x = d_offset x + w) by (unfold end_bits, import_field; now rewrite M).
           assert (ME' : m_end x = ceil8 (d_offset x + w)) by (unfold m_end; now rewrite M).
           constructor; cbn [i_offset i_end i_ir item_of].
           ++ split; [exact M8|]. split; [discriminate|]. cbn [known_type i_ir i_end i_offset]. destruct (known c x); [lia|trivial].
           ++ reflexivity.
           ++ exact ZX.
           ++ intros _. now rewrite EB, ME'.
           ++ lia.
           ++ assumption.
           ++ intros _. rewrite EB. split; [lia|reflexivity].
           ++ reflexivity.
        -- (* bit-fields, then something else *)
           assert (IX : exists g, i_ir (item_of x) = Some g) by (unfold item_of; rewrite BX; now eexists). destruct IX as [g IX]. rewrite IX.
           destruct (item_of_inv pos b x SX Fx (fun E => False_ind _ (Bool.diff_false_true (eq_trans (eq_sym BX) E))) ds last P) as (G1 & G2 & pos' & b' & P' & I' & KP).
           pose proof (IH _ _ _ _ _ _ P' I' (fun E => False_ind _ (Bool.diff_false_true E)) ZO' F' T) as G.
           destruct (coalesce_head (map item_of (filter sized ds)) (item_of x)) as (e & l & E). rewrite E in *.
           split; [exact (n_item _ _ _ _ _ I)|]. split; [|exact G].
           rewrite link_head. unfold link. rewrite (n_end _ _ _ _ _ I). pose proof (n_off _ _ _ _ _ I) as NO.
           assert (OX : i_offset (item_of x) = d_offset x) by reflexivity. rewrite OX.
           destruct (known c d) eqn:K; [|lia]. destruct (n_pos _ _ _ _ _ I K) as [L1 L2].
           specialize (G2 BX). pose proof (ceil8_mono _ _ L1).
           split; [lia|].
           destruct (known_type r (item_of x)) as [t|] eqn:KT; [|trivial].
           assert (KPx : known_plain c x = true) by exact (known_type_plain x t SX KT).
           assert (z = false) by (destruct z; [specialize (KX eq_refl); congruence|reflexivity]).
           rewrite (KP KPx t eq_refl). now rewrite (L2 H0).
    + assert (ZX : zero_size x = true) by (unfold sized in SX; now destruct (zero_size x)).
      cbn [filter]. rewrite SX. cbn [last_from] in T. rewrite ZX in T.
      inversion P as [|? ? ? ? ? s ta a M S0 O P'|? ? ? ? ? s n a M S0 O P'|? ? ? ? ? s a M O P'|? ? ? ? ? w a M W O O8 P'|? ? ? ? ? a M O O8 P']; subst;
        unfold zero_size in ZX; rewrite M in ZX; try discriminate ZX.
      * apply (IH cur d pos b z last P' I); auto.
        intros E. specialize (Z E). unfold first_sized in Z. cbn [find] in Z. fold (sized x) in Z. rewrite SX in Z. exact Z.
      * apply (IH cur d (d_offset x) false true last P'); auto.
        -- destruct I as [I1 I2 I3 I4 I5 I6 I7 I8]. constructor; auto.
           ++ lia.
           ++ intros K. specialize (I7 K). split; [lia|discriminate].
           ++ discriminate.
        -- intros _. apply (ZO [] x ds eq_refl). now exists a.
Qed.
End Class.
