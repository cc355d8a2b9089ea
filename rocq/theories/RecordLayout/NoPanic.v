(** The generator does not panic. *)
From Coq Require Import List Arith ZArith Bool Lia ZifyNat.
From Verif Require Import RecordLayout.Model RecordLayout.Spec RecordLayout.Proofs RecordLayout.Chain RecordLayout.Struct.
Import ListNotations.
Local Open Scope nat_scope.
Local Open Scope list_scope.

Section Safe.
Variable r : record.
Hypothesis NU : is_union r = false.

Definition before (i : item) (off : nat) : Prop := match i_end i with Some e => 8 * ceil8 e <= off | None => True end.
Definition item_safe (i : item) : Prop :=
  i_offset i mod 8 = 0 /\ (forall f, i_ir i = Some f -> f_offset f = i_offset i) /\
  i_offset i < 8 * r_size r /\ match i_end i with Some e => i_offset i < e | None => True end.
Fixpoint safe (l : list item) : Prop :=
  match l with
  | [] => True
  | i :: l1 => item_safe i /\ match l1 with j :: _ => i_offset i < i_offset j /\ before i (i_offset j) | [] => True end /\ safe l1
  end.

Lemma definitions_safe l : forall prev, safe l ->
  match prev, l with Some p, i :: _ => before p (i_offset i) | _, _ => True end -> definitions r prev l <> None.
Proof.
  induction l as [|i l IH]; intros prev S B; [discriminate|]. destruct S as ((O8 & OF & OS & OE) & L & S). cbn [definitions].
  assert (A : match prev with Some p => match i_ir p, i_end p with Some _, Some e => is_union r || (e <=? i_offset i) | _, _ => true end | None => true end = true).
  { destruct prev as [p|]; [|reflexivity]. unfold before in B. destruct (i_ir p); [|reflexivity]. destruct (i_end p) as [e|]; [|reflexivity].
    pose proof (ceil8_le e). rewrite NU. cbn [orb]. apply Nat.leb_le. lia. }
  rewrite A. set (pe := match prev with Some p => match i_end p with Some e => e | None => i_offset i end | None => i_offset i end).
  assert (PE : ceil8 pe * 8 <= i_offset i).
  { unfold pe. destruct prev as [p|]; [unfold before in B; destruct (i_end p) as [e|]|]; try (rewrite Nat.mul_comm; exact B); unfold ceil8; lia. }
  set (fi := match i_end i with Some e => e | None => match l with next :: _ => i_offset next | [] => r_size r * 8 end end).
  assert (FI : i_offset i < fi).
  { unfold fi. destruct (i_end i); [exact OE|]. destruct l as [|j l]; [lia|]. apply L. }
  assert (D : definitions r (Some i) l <> None).
  { apply IH; [exact S|]. destruct l as [|j l]; [exact Logic.I|]. apply L. }
  destruct (definitions r (Some i) l) as [[fs o]|]; [|contradiction].
  unfold field_definition. rewrite NU. rewrite (subtract_le _ _ PE).
  destruct (i_ir i) as [f|] eqn:IR.
  - rewrite (OF f eq_refl). destruct (type_for_layout r f); [discriminate|]. rewrite (subtract_le fi (i_offset i)) by lia.
    destruct (fi - i_offset i) eqn:Q; [lia|discriminate].
  - rewrite (subtract_le fi (i_offset i)) by lia. destruct (fi - i_offset i) eqn:Q; [lia|discriminate].
Qed.
End Safe.

Section Class.
Variable c : class.
Variable r : record.
Hypothesis RU : is_union r = false.
Hypothesis RS : r_size r = class_size c.

(** [item_of], with any choice of the fields that have a Rust type. *)
Definition item_for (d : data) : item :=
  Item (if is_bits d then None else Some (import_field d)) (d_offset d)
       (match type_for_layout r (import_field d) with Some _ => Some (end_bits d) | None => None end).
Lemma to_items_for ds : Forall sized_ok ds -> to_items r (map import_field ds) = map item_for (filter sized ds).
Proof.
  induction 1 as [|d ds O _ IH]; [reflexivity|]. cbn [map to_items filter]. rewrite IH.
  assert (E : to_item r (import_field d) = if sized d then Some (item_for d) else None).
  { unfold to_item, item_for, end_bits, sized, zero_size, is_bits, sized_ok in *. rewrite import_offset, RU.
    destruct (type_for_layout r (import_field d)); unfold import_field; destruct (d_member d); cbn [f_size f_bitfield negb];
      try reflexivity; match goal with |- context [?x =? 0] => destruct (Nat.eqb_spec x 0); [lia|reflexivity] end. }
  rewrite E. destruct (sized d); reflexivity.
Qed.

Record ninv (cur : item) (pos : nat) (b : bool) : Prop := NInv {
  ni_safe : item_safe r cur;
  ni_off : i_offset cur < pos;
  ni_end : match i_end cur with Some e => e <= pos | None => True end;
  ni_bits : b = true -> i_ir cur = None }.

Lemma first_inv pos b d ds last : placed pos b (d :: ds) last -> sized d = true -> (is_bits d = true -> b = false) -> m_end d <= class_size c ->
  0 < m_align (d_member d) ->
  exists pos' b', placed pos' b' ds last /\ ninv (item_for d) pos' b' /\ 8 * ceil8 pos <= d_offset d.
Proof.
  intros P SD BF ME MA. unfold sized, zero_size, is_bits, m_end in *.
  inversion P as [|? ? ? ? ? s ta a M S0 O P'|? ? ? ? ? s n a M S0 O P'|? ? ? ? ? s a M O P'|? ? ? ? ? w a M W O O8 P'|? ? ? ? ? a M O O8 P']; subst;
    rewrite M in *; try discriminate SD; cbn [m_align] in MA.
  - exists (d_offset d + 8 * s), false. split; [exact P'|]. pose proof (round_up_ge (ceil8 pos) _ MA) as G.
    assert (EB : end_bits d = d_offset d + 8 * s) by (unfold end_bits, import_field; now rewrite M).
    split; [|lia]. constructor; cbn [item_for i_offset i_end].
    + unfold item_safe. cbn [item_for i_ir i_offset i_end]. rewrite RS, EB. unfold is_bits. rewrite M. split; [rewrite O; rewrite Nat.mul_comm; apply Nat.mod_mul; lia|].
      split; [intros f [= <-]; apply import_offset|]. split; [|destruct (type_for_layout r (import_field d)); [lia|trivial]].
      pose proof (Nat.div_mod (d_offset d) 8 ltac:(lia)). pose proof (Nat.mod_upper_bound (d_offset d) 8 ltac:(lia)). lia.
    + lia.
    + rewrite EB. destruct (type_for_layout r (import_field d)); [lia|trivial].
    + discriminate.
  - exists (d_offset d + 8 * n), false. split; [exact P'|]. pose proof (round_up_ge (ceil8 pos) _ MA) as G.
    assert (TN : type_for_layout r (import_field d) = None) by (unfold type_for_layout, import_field; now rewrite M).
    split; [|lia]. constructor; cbn [item_for i_offset i_end]; rewrite ?TN; auto; try lia; try discriminate.
    unfold item_safe. cbn [item_for i_ir i_offset i_end]. rewrite RS, TN. unfold is_bits. rewrite M. split; [rewrite O; rewrite Nat.mul_comm; apply Nat.mod_mul; lia|].
    split; [intros f [= <-]; apply import_offset|]. split; [|trivial].
    pose proof (Nat.div_mod (d_offset d) 8 ltac:(lia)). pose proof (Nat.mod_upper_bound (d_offset d) 8 ltac:(lia)). lia.
  - specialize (O8 (BF eq_refl)). exists (d_offset d + w), true. split; [exact P'|].
    assert (EB : end_bits d = d_offset d + w) by (unfold end_bits, import_field; now rewrite M).
    pose proof (Nat.div_mod (d_offset d) 8 ltac:(lia)) as DM.
    split; [|pose proof (ceil8_least pos (d_offset d / 8)); lia].
    assert (IR : i_ir (item_for d) = None) by (unfold item_for, is_bits; now rewrite M).
    constructor; cbn [item_for i_offset i_end]; rewrite ?EB; try lia.
    + unfold item_safe. rewrite IR. cbn [item_for i_offset i_end]. rewrite RS, EB. split; [exact O8|]. split; [discriminate|]. split.
      * pose proof (ceil8_le (d_offset d + w)). lia.
      * destruct (type_for_layout r (import_field d)); [lia|trivial].
    + destruct (type_for_layout r (import_field d)); [lia|trivial].
    + intros _. exact IR.
Qed.

Definition basic (d : data) : Prop := m_end d <= class_size c /\ 0 < m_align (d_member d).

Lemma nchain ds : forall cur pos b last, placed pos b ds last -> ninv cur pos b -> Forall basic ds ->
  safe r (coalesce_from cur (map item_for (filter sized ds))).
Proof.
  induction ds as [|x ds IH]; intros cur pos b last P I F.
  - cbn. repeat split; apply (ni_safe _ _ _ I).
  - inversion F as [|? ? [F1 F2] F']; subst. destruct (sized x) eqn:SX.
    + cbn [filter]. rewrite SX. cbn [map coalesce_from].
      assert (SEP : (is_bits x = true -> b = false) -> safe r (cur :: coalesce_from (item_for x) (map item_for (filter sized ds)))).
      { intros BF. destruct (first_inv _ _ _ _ _ P SX BF F1 F2) as (pos' & b' & P' & I' & L). pose proof (IH _ _ _ _ P' I' F') as G.
        destruct (coalesce_head (map item_for (filter sized ds)) (item_for x)) as (e & l & E). rewrite E in *.
        split; [exact (ni_safe _ _ _ I)|]. split; [|exact G]. cbn [i_offset item_for].
        pose proof (ni_off _ _ _ I). pose proof (ni_end _ _ _ I) as NE. pose proof (ceil8_le pos). split; [lia|].
        unfold before. destruct (i_end cur) as [e'|]; [|trivial]. pose proof (ceil8_mono _ _ NE). lia. }
      destruct (i_ir cur) as [f|] eqn:IR.
      * apply SEP. intros _. destruct b; [pose proof (ni_bits _ _ _ I eq_refl); congruence|reflexivity].
      * destruct (is_bits x) eqn:BX.
        -- unfold item_for at 1. rewrite BX. cbn [i_ir].
           inversion P as [|? ? ? ? ? s ta a M S0 O P'|? ? ? ? ? s n a M S0 O P'|? ? ? ? ? s a M O P'|? ? ? ? ? w a M W O O8 P'|? ? ? ? ? a M O O8 P']; subst;
             unfold is_bits in BX; rewrite M in BX; try discriminate BX.
           apply (IH _ (d_offset x + w) true last P'); auto.
           assert (EB : end_bits x = d_offset x + w) by (unfold end_bits, import_field; now rewrite M).
           pose proof (ni_off _ _ _ I). destruct (ni_safe _ _ _ I) as (O1 & _ & O3 & _).
           constructor; cbn [i_offset i_end i_ir item_for]; rewrite ?EB; try lia.
           ++ split; [exact O1|]. split; [discriminate|]. split; [exact O3|]. cbn [i_end i_offset item_for].
              destruct (type_for_layout r (import_field x)); [lia|trivial].
           ++ destruct (type_for_layout r (import_field x)); [lia|trivial].
           ++ reflexivity.
        -- assert (IX : exists g, i_ir (item_for x) = Some g) by (unfold item_for; rewrite BX; now eexists). destruct IX as [g IX]. rewrite IX.
           apply SEP. discriminate.
    + cbn [filter]. rewrite SX. unfold sized, zero_size in SX.
      inversion P as [|? ? ? ? ? s ta a M S0 O P'|? ? ? ? ? s n a M S0 O P'|? ? ? ? ? s a M O P'|? ? ? ? ? w a M W O O8 P'|? ? ? ? ? a M O O8 P']; subst;
        rewrite M in SX; try discriminate SX.
      * apply (IH cur pos b last P' I F').
      * apply (IH cur (d_offset x) false last P'); [|exact F']. destruct I as [I1 I2 I3 I4]. constructor; auto; [lia| |discriminate].
        destruct (i_end cur); [lia|trivial].
Qed.

(** The first item. *)
Lemma items_safe ds : forall pos b last, placed pos b ds last -> b = false -> Forall basic ds ->
  safe r (coalesce (map item_for (filter sized ds))).
Proof.
  induction ds as [|x ds IH]; intros pos b last P -> F; [exact Logic.I|]. inversion F as [|? ? [F1 F2] F']; subst. cbn [filter].
  destruct (sized x) eqn:SX.
  - cbn [map coalesce]. destruct (first_inv _ _ _ _ _ P SX (fun _ => eq_refl) F1 F2) as (pos' & b' & P' & I' & _).
    apply (nchain ds _ _ _ _ P' I' F').
  - unfold sized, zero_size in SX. inversion P; subst; match goal with M : d_member x = _ |- _ => rewrite M in SX end; try discriminate SX; eapply IH; eauto.
Qed.

Lemma safe_forall l : safe r l -> Forall (item_safe r) l.
Proof. induction l as [|i l IH]; [constructor|]. intros (H & _ & G). constructor; auto. Qed.

Lemma generate_some : valid c -> fields r = map import_field (c_data c) ->
  generate r = Some (if thread_safe r then [RsField None (r_size r) 1]
                     else head_padding r ++ match definitions r None (coalesce (to_items r (fields r))) with Some (fs, _) => fs | None => [] end,
                     if (override_align r || match definitions r None (coalesce (to_items r (fields r))) with Some (_, o) => o | None => false end || thread_safe r)
                        && (1 <? r_align r) then Some (r_align r) else None).
Proof.
  intros V FE. destruct (v_placed _ V) as [last P].
  assert (FB : Forall basic (c_data c)).
  { apply Forall_forall. intros d I. pose proof (v_aligns _ V) as VA. rewrite Forall_forall in VA. destruct (VA d I) as [A _].
    split; [apply class_size_ge; [exact I|apply pow2_pos, class_align_pow2; exact V]|now apply pow2_pos]. }
  pose proof (items_safe _ _ _ _ P eq_refl FB) as S. unfold generate. rewrite FE. rewrite (to_items_for _ (placed_sized _ _ _ _ P)).
  set (items := coalesce _) in *.
  destruct (definitions r None items) as [[fs o]|] eqn:D; [|exfalso; revert D; apply definitions_safe; auto].
  assert (BO : byte_offsets items = true).
  { unfold byte_offsets. apply forallb_forall. intros i Hi. pose proof (safe_forall _ S) as G. rewrite Forall_forall in G.
    destruct (G i Hi) as (M & FO & _). destruct (i_ir i) as [f|]; [|reflexivity]. rewrite (FO f eq_refl). now apply Nat.eqb_eq. }
  rewrite BO. reflexivity.
Qed.
End Class.
