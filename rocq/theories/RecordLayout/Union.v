(** The layout of unions. *)
From Coq Require Import List Arith ZArith Bool Lia ZifyNat.
From Verif Require Import RecordLayout.Model RecordLayout.Spec RecordLayout.Proofs RecordLayout.Chain RecordLayout.Struct.
Import ListNotations.
Local Open Scope nat_scope.
Local Open Scope list_scope.

Definition max0 (l : list nat) : nat := fold_right Nat.max 0 l.
Lemma max0_in l x : In x l -> x <= max0 l.
Proof. unfold max0. induction l as [|y l IH]; [contradiction|]. cbn. intros [->|I]; [lia|]. specialize (IH I). lia. Qed.
Lemma max0_le l n : (forall x, In x l -> x <= n) -> max0 l <= n.
Proof. unfold max0. induction l as [|y l IH]; cbn; [lia|]. intros H. apply Nat.max_lub; [apply H; now left|]. apply IH. intros x I. apply H. now right. Qed.

Section Union.
Variable c : class.
Notation r := (import_union c).
Notation A := (union_align c).
Hypothesis V : valid_union c.
Hypothesis S : supported_union c.

Definition u_item (d : data) : item :=
  Item (if is_bits d then None else Some (import_field d)) 0 (Some (f_size (import_field d))).

Lemma u_offset d : In d (c_data c) -> d_offset d = 0.
Proof. intros I. pose proof (u_placed _ V) as P. rewrite Forall_forall in P. apply (P d I). Qed.
Lemma u_sized d : In d (c_data c) -> sized_ok d.
Proof. intros I. pose proof (u_placed _ V) as P. rewrite Forall_forall in P. apply (P d I). Qed.

Lemma u_to_items ds : (forall d, In d ds -> In d (c_data c)) -> to_items r (map import_field ds) = map u_item (filter sized ds).
Proof.
  induction ds as [|d ds IH]; intros H; [reflexivity|]. cbn [map to_items filter]. rewrite IH by (intros; apply H; now right).
  pose proof (u_offset d (H d (or_introl eq_refl))) as O. pose proof (u_sized d (H d (or_introl eq_refl))) as Z.
  assert (E : to_item r (import_field d) = if sized d then Some (u_item d) else None).
  { unfold to_item, u_item, sized, zero_size, is_bits, sized_ok in *. rewrite import_offset, O. cbn [Nat.add is_union import_union].
    destruct (type_for_layout r (import_field d)); unfold import_field; destruct (d_member d); cbn [f_size f_bitfield negb];
      try reflexivity; match goal with |- context [?x =? 0] => destruct (Nat.eqb_spec x 0); [lia|reflexivity] end. }
  rewrite E. destruct (sized d); reflexivity.
Qed.

(** What holds of each item. *)
Definition u_ok (i : item) : Prop :=
  i_offset i = 0 /\ exists e, i_end i = Some e /\ 0 < e /\
  match i_ir i with
  | None => e <= 8 * A
  | Some f => exists d, In d (c_data c) /\ sized d = true /\ is_bits d = false /\ f = import_field d /\ f_size f = e
  end.
Lemma u_item_ok d : In d (c_data c) -> sized d = true -> u_ok (u_item d).
Proof.
  intros I Z. pose proof (u_sized d I) as O. split; [reflexivity|]. exists (f_size (import_field d)). split; [reflexivity|].
  pose proof (su_bits _ S) as B. rewrite Forall_forall in B. specialize (B d I). cbn [u_item i_ir].
  unfold is_bits. split.
  - unfold sized, zero_size, sized_ok, import_field in *. destruct (d_member d); cbn in *; try discriminate; lia.
  - destruct (d_member d) eqn:M; cbn [f_size]; try (exists d; unfold is_bits; rewrite M; now repeat split).
    unfold import_field. rewrite M. exact B.
Qed.
Lemma coalesce_ok l : forall i, u_ok i -> Forall u_ok l -> Forall u_ok (coalesce_from i l).
Proof.
  induction l as [|j l IH]; intros i Oi Fl; cbn [coalesce_from]; [constructor; auto|]. inversion Fl as [|? ? Oj Fl']; subst.
  destruct (i_ir i) as [f|] eqn:Ei; [constructor; auto|]. destruct (i_ir j) as [g|] eqn:Ej; [constructor; auto|].
  apply IH; [|exact Fl']. destruct Oi as (Z & _). destruct Oj as (_ & e & E1 & E2 & E3). rewrite Ej in E3.
  split; [exact Z|]. exists e. repeat split; auto.
Qed.

Definition u_field (i : item) : rs_field :=
  match i_ir i with
  | None => blob None (match i_end i with Some e => e | None => 0 end)
  | Some f => match type_for_layout r f with
              | None => blob (Some (f_id f)) (f_size f)
              | Some t => RsField (Some (f_id f)) (rt_size t) (rt_align t)
              end
  end.
Definition u_blob (i : item) : bool :=
  match i_ir i with None => true | Some f => match type_for_layout r f with None => true | Some _ => false end end.

Lemma u_definitions l : Forall u_ok l -> forall prev, definitions r prev l = Some (map u_field l, existsb u_blob l).
Proof.
  induction 1 as [|i l (Z & e & E & P & M) _ IH]; intros prev; [reflexivity|]. cbn [definitions map existsb]. rewrite IH.
  replace (match prev with Some p => match i_ir p, i_end p with Some _, Some e0 => is_union r || (e0 <=? i_offset i) | _, _ => true end | None => true end) with true
    by (cbn [is_union import_union]; destruct prev as [p|]; [destruct (i_ir p), (i_end p)|]; reflexivity).
  rewrite E. cbv zeta. unfold field_definition, u_field, u_blob. cbn [is_union import_union]. rewrite Z.
  destruct (i_ir i) as [f|] eqn:EI.
  - destruct M as (d & I & _ & _ & -> & <-). rewrite import_offset, (u_offset d I).
    destruct (type_for_layout r (import_field d)); cbn [Nat.eqb app orb]; [reflexivity|].
    unfold subtract. cbn [Nat.leb]. rewrite Nat.sub_0_r. destruct (f_size (import_field d)); [lia|reflexivity].
  - cbn [Nat.eqb app orb]. unfold subtract. cbn [Nat.leb]. rewrite Nat.sub_0_r, E. destruct e; [lia|reflexivity].
Qed.

Lemma u_align_pos : 0 < A.
Proof. unfold union_align. pose proof (max_list_ge1 (map (fun d => m_align (d_member d)) (c_data c))). lia. Qed.

Lemma u_facts d t : In d (c_data c) -> sized d = true -> is_bits d = false -> type_for_layout r (import_field d) = Some t ->
  exists s ta a, d_member d = Plain s ta a /\ rt_size t = s /\ rt_align t = ta /\ m_align (d_member d) = ta.
Proof.
  intros I Z B T. pose proof (su_alignas _ S) as SA. pose proof (u_types _ V) as UT. rewrite Forall_forall in SA, UT.
  specialize (SA d I). specialize (UT d I). cbn beta in *. unfold known_in_union in SA. rewrite T in SA.
  unfold types_match, is_bits, sized, zero_size, type_for_layout, import_field in *.
  destruct (d_member d) as [s ta a|s n a|s a|w a|a] eqn:M; cbn in Z, B, T; try discriminate.
  exists s, ta, a. specialize (SA eq_refl). cbn in T. destruct (d_type d) as [t'|]; [|destruct (d_attr d && negb (c_experimental c)); discriminate].
  destruct (d_attr d && negb (c_experimental c)); [discriminate|]. rewrite andb_false_r in T. cbn in T. inversion T; subst t'.
  destruct UT. repeat split; auto. cbn. lia.
Qed.

(** Every member of some size that is not a bit-field has a field of the member's size. *)
Lemma u_field_size d : In d (c_data c) -> sized d = true -> is_bits d = false -> rf_size (u_field (u_item d)) = m_end d.
Proof.
  intros I Z B. unfold u_field, u_item. cbn [i_ir]. rewrite B. unfold m_end. rewrite (u_offset d I).
  destruct (type_for_layout r (import_field d)) as [t|] eqn:T.
  - destruct (u_facts d t I Z B T) as (s & ta & a & M & Hs & _). rewrite M. cbn [rf_size]. exact Hs.
  - unfold import_field, is_bits, sized, zero_size in *. destruct (d_member d); cbn in Z, B; try discriminate;
      unfold blob; cbn [f_size rf_size]; rewrite ceil8_mul; reflexivity.
Qed.

Lemma size_ge d : In d (c_data c) -> m_end d <= union_size c.
Proof.
  intros I. unfold union_size. eapply Nat.le_trans; [|apply round_up_ge, u_align_pos].
  induction (c_data c) as [|x l IH]; [contradiction|]. cbn. destruct I as [->|I]; [lia|]. specialize (IH I). lia.
Qed.
Lemma align_le_size : A <= union_size c.
Proof.
  unfold union_size. destruct (round_up_multiple (fold_right Nat.max 1 (map m_end (c_data c))) A u_align_pos) as [k K].
  pose proof (round_up_ge (fold_right Nat.max 1 (map m_end (c_data c))) A u_align_pos) as G.
  assert (1 <= fold_right Nat.max 1 (map m_end (c_data c))) by apply max_list_ge1.
  rewrite K in *. destruct k; [lia|]. nia.
Qed.
Lemma size_multiple : exists k, union_size c = k * A.
Proof. apply round_up_multiple, u_align_pos. Qed.

Lemma sandwich x a s k : 0 < a -> s = k * a -> x <= s -> s <= round_up x a -> round_up x a = s.
Proof.
  intros P K L G. pose proof (round_up_mono x s a P L) as M. rewrite K in M, G |- *. rewrite round_up_of_multiple in M by exact P. lia.
Qed.

Lemma fields_ok items : Forall u_ok items -> forall f, In f (map u_field items) -> rf_size f <= union_size c /\ (rf_align f <= A).
Proof.
  intros F f I. apply in_map_iff in I. destruct I as (i & <- & I). rewrite Forall_forall in F. destruct (F i I) as (_ & e & E & P & M).
  pose proof u_align_pos. unfold u_field. destruct (i_ir i) as [g|].
  - destruct M as (d & Id & Z & B & -> & _). pose proof (u_field_size d Id Z B) as H1. unfold u_field, u_item in H1. cbn [i_ir] in H1. rewrite B in H1.
    split; [rewrite H1; now apply size_ge|].
    destruct (type_for_layout r (import_field d)) as [t|] eqn:T; [|cbn; lia].
    destruct (u_facts d t Id Z B T) as (s & ta & a & M & Hs & Ha & Hm). cbn [rf_align]. rewrite Ha, <- Hm. unfold union_align.
    pose proof (max_list_in (map (fun d => m_align (d_member d)) (c_data c)) _ (in_map _ _ _ Id)). lia.
  - rewrite E. cbn [blob rf_size rf_align]. split; [|lia]. eapply Nat.le_trans; [apply ceil8_least; exact M|apply align_le_size].
Qed.

Definition u_offsets (fs : list rs_field) : list (nat * nat) :=
  flat_map (fun f => match rf_id f with Some id => [(id, 0)] | None => [] end) fs.
Lemma coalesce_u_offsets rest : forall cur, u_offsets (map u_field (coalesce_from cur rest)) = u_offsets (map u_field (cur :: rest)).
Proof.
  induction rest as [|j rest IH]; intros cur; cbn [coalesce_from]; [reflexivity|].
  unfold u_offsets in *. destruct (i_ir cur) as [f|] eqn:C; [|destruct (i_ir j) as [g|] eqn:J].
  - cbn [map flat_map]. rewrite IH. reflexivity.
  - cbn [map flat_map]. rewrite IH. reflexivity.
  - rewrite IH. cbn [map flat_map]. unfold u_field. cbn [i_ir]. rewrite C, J. reflexivity.
Qed.
Lemma u_visible ds : (forall d, In d ds -> In d (c_data c)) -> u_offsets (map u_field (map u_item (filter sized ds))) = visible_offsets ds.
Proof.
  unfold u_offsets, visible_offsets. induction ds as [|d ds IH]; intros H; [reflexivity|]. cbn [filter flat_map]. unfold sized at 1.
  rewrite <- IH by (intros; apply H; now right).
  destruct (zero_size d); cbn [negb orb app]; [reflexivity|]. cbn [map flat_map].
  f_equal. rewrite (u_offset d (H d (or_introl eq_refl))). unfold u_field, u_item. cbn [i_ir].
  destruct (is_bits d); [reflexivity|]. destruct (type_for_layout r (import_field d)); unfold import_field; destruct (d_member d); reflexivity.
Qed.

Lemma union_layout : layout r = Some (union_size c, A, visible_offsets (c_data c)).
Proof.
  pose proof u_align_pos as A0. destruct size_multiple as [k K].
  assert (S1 : 0 < union_size c) by (pose proof align_le_size; lia).
  unfold layout, generate. cbn [is_union import_union fields thread_safe override_align r_align r_size].
  rewrite u_to_items by auto.
  destruct (su_sized _ S) as [N|(d1 & I1 & Z1)].
  - rewrite N. cbn [map filter coalesce definitions byte_offsets forallb]. unfold head_padding. cbn [fields import_union]. rewrite N. cbn [map r_size import_union].
    destruct (Nat.ltb_spec 0 (union_size c)); [|lia]. cbn [orb app rs_union map fold_right rf_size].
    assert (AA : rs_align [RsField None (union_size c) 1] (if (negb (aligned_attr c =? 1) || false || false) && (1 <? A) then Some A else None) = A).
    { unfold rs_align. cbn [map rf_align max_list fold_right]. rewrite !orb_false_r. unfold union_align in *. rewrite N in *. cbn [map max_list fold_right] in *.
      destruct (Nat.eqb_spec (aligned_attr c) 1) as [->|]; cbn [negb andb]; [reflexivity|]. destruct (Nat.ltb_spec 1 (Nat.max (aligned_attr c) 1)); lia. }
    rewrite AA. rewrite Nat.max_0_r, K, round_up_of_multiple by exact A0. reflexivity.
  - assert (Sd1 : sized d1 = true) by (unfold sized; now rewrite Z1).
    assert (I1' : In d1 (filter sized (c_data c))) by (apply filter_In; now split).
    destruct (filter sized (c_data c)) as [|e rest] eqn:FL; [contradiction|]. cbn [map coalesce].
    assert (SUB : forall d, In d (e :: rest) -> In d (c_data c) /\ sized d = true) by (intros d Hd; rewrite <- FL in Hd; now apply filter_In).
    set (items := coalesce_from _ _).
    assert (OK : Forall u_ok items).
    { apply coalesce_ok; [apply u_item_ok; apply SUB; now left|]. apply Forall_forall. intros i Hi. apply in_map_iff in Hi. destruct Hi as (d & <- & Hd).
      apply u_item_ok; apply SUB; now right. }
    rewrite (u_definitions items OK).
    assert (BO : byte_offsets items = true).
    { unfold byte_offsets. apply forallb_forall. intros i Hi. rewrite Forall_forall in OK. destruct (OK i Hi) as (_ & x & _ & _ & M).
      destruct (i_ir i) as [f|]; [|reflexivity]. destruct M as (d & Id & _ & _ & -> & _). rewrite import_offset, (u_offset d Id). reflexivity. }
    rewrite BO.
    assert (HP : head_padding r = []).
    { unfold head_padding. cbn [fields import_union is_union]. destruct (c_data c) as [|d0 ds] eqn:ED; [discriminate FL|]. cbn [map].
      rewrite import_offset, (u_offset d0) by (rewrite ED; now left). rewrite orb_true_r. reflexivity. }
    rewrite HP. cbn [app].
    (* every sized member has an item *)
    assert (HAS : forall d, In d (e :: rest) -> exists i, In i items /\ (i = u_item d \/ (i_ir i = None /\ i_ir (u_item d) = None))).
    { intros d Hd. apply coalesce_has. change (In (u_item d) (map u_item (e :: rest))). now apply in_map. }
    pose proof (fields_ok items OK) as FO.
    assert (UPA : max_list (map rf_align (map u_field items)) <= A).
    { apply max_list_le; [lia|]. apply Forall_forall. intros x Hx. apply in_map_iff in Hx. destruct Hx as (f & <- & Hf). now apply FO. }
    assert (AA : rs_align (map u_field items) (if (negb (aligned_attr c =? 1) || existsb u_blob items || false) && (1 <? A) then Some A else None) = A).
    { unfold rs_align. pose proof (max_list_ge1 (map rf_align (map u_field items))) as G1.
      destruct (Nat.ltb_spec 1 A) as [L1|L1]; [|rewrite andb_false_r; lia]. rewrite andb_true_r, orb_false_r.
      destruct (negb (aligned_attr c =? 1) || existsb u_blob items) eqn:O; [lia|]. apply orb_false_iff in O. destruct O as [O1 O2].
      apply negb_false_iff, Nat.eqb_eq in O1.
      enough (A <= max_list (map rf_align (map u_field items))) by lia.
      unfold union_align at 1. rewrite O1. apply Nat.max_lub; [lia|]. apply max_list_le; [lia|]. apply Forall_forall. intros x Hx.
      apply in_map_iff in Hx. destruct Hx as (d & <- & Hd). destruct (sized d) eqn:Sd.
      - assert (Hd' : In d (e :: rest)) by (rewrite <- FL; apply filter_In; now split).
        destruct (HAS d Hd') as (i & Ii & Hii).
        assert (NB : u_blob i = false).
        { destruct (u_blob i) eqn:U; [|reflexivity]. assert (X : existsb u_blob items = true) by (apply existsb_exists; now exists i). congruence. }
        destruct Hii as [->|[Ni _]]; [|unfold u_blob in NB; rewrite Ni in NB; discriminate].
        unfold u_blob, u_item in NB. cbn [i_ir] in NB. destruct (is_bits d) eqn:B; [discriminate|].
        destruct (type_for_layout r (import_field d)) as [t|] eqn:T; [|discriminate].
        destruct (u_facts d t Hd Sd B T) as (s & ta & a & M & _ & Ha & Hm). rewrite Hm, <- Ha.
        apply max_list_in. apply in_map_iff. exists (u_field (u_item d)). split; [|now apply in_map].
        unfold u_field, u_item. cbn [i_ir]. rewrite B, T. reflexivity.
      - pose proof (su_zero _ S) as SZ. rewrite Forall_forall in SZ. destruct (SZ d Hd) as [-> _]; [unfold sized in Sd; now destruct (zero_size d)|exact G1]. }
    assert (SZ : round_up (max0 (map rf_size (map u_field items))) A = union_size c).
    { apply (sandwich _ _ _ k); [exact A0|exact K| |].
      - apply max0_le. intros x Hx. apply in_map_iff in Hx. destruct Hx as (f & <- & Hf). now apply FO.
      - assert (P1 : 1 <= max0 (map rf_size (map u_field items))).
        { destruct (HAS e (or_introl eq_refl)) as (i & Ii & _). assert (Q : 1 <= rf_size (u_field i)).
          { pose proof OK as OK'. rewrite Forall_forall in OK'. destruct (OK' i Ii) as (_ & x & Ex & Px & M). unfold u_field. destruct (i_ir i) as [g|].
            - destruct M as (d & Id & Z & B & -> & Q). pose proof (u_field_size d Id Z B) as H1. unfold u_field, u_item in H1. cbn [i_ir] in H1. rewrite B in H1. rewrite H1.
              pose proof (u_sized d Id) as O. unfold m_end, sized_ok, sized, zero_size, is_bits in *. rewrite (u_offset d Id). destruct (d_member d); cbn in *; try discriminate; lia.
            - rewrite Ex. cbn [blob rf_size]. destruct x; [lia|]. pose proof (ceil8_le (Datatypes.S x)). lia. }
          eapply Nat.le_trans; [exact Q|]. apply max0_in. apply in_map, in_map. exact Ii. }
        set (m := max0 (map rf_size (map u_field items))) in *.
        assert (AM : A <= round_up m A).
        { destruct (round_up_multiple m A A0) as [q Q]. pose proof (round_up_ge m A A0). rewrite Q in *. destruct q; [lia|]. nia. }
        unfold union_size at 1. destruct (round_up_multiple m A A0) as [q Q]. rewrite Q.
        rewrite <- (round_up_of_multiple q A A0). rewrite <- Q. apply round_up_mono; [exact A0|].
        assert (B : forall d, In d (c_data c) -> m_end d <= round_up m A).
        { intros d Hd. destruct (sized d) eqn:Sd.
          - destruct (is_bits d) eqn:Bd.
            + pose proof (su_bits _ S) as SB. rewrite Forall_forall in SB. specialize (SB d Hd). unfold m_end. rewrite (u_offset d Hd). unfold is_bits in Bd.
              destruct (d_member d); try discriminate. eapply Nat.le_trans; [apply ceil8_least; exact SB|exact AM].
            + assert (Hd' : In d (e :: rest)) by (rewrite <- FL; apply filter_In; now split). destruct (HAS d Hd') as (i & Ii & Hii).
              destruct Hii as [->|[_ N]]; [|unfold u_item in N; cbn [i_ir] in N; rewrite Bd in N; discriminate].
              rewrite <- (u_field_size d Hd Sd Bd). eapply Nat.le_trans; [|apply round_up_ge; exact A0]. apply max0_in, in_map, in_map. exact Ii.
          - pose proof (su_zero _ S) as SZ. rewrite Forall_forall in SZ. destruct (SZ d Hd) as [_ L]; [unfold sized in Sd; now destruct (zero_size d)|lia]. }
        clear - B AM A0. induction (c_data c) as [|d l IH]; cbn; [lia|]. apply Nat.max_lub; [apply B; now left|]. apply IH. intros x Hx. apply B. now right. }
    assert (NE : map u_field items <> []).
    { unfold items. destruct (coalesce_head (map u_item rest) (u_item e)) as (x & l & E). rewrite E. discriminate. }
    assert (RS : forall fs attr, fs <> [] -> rs_union fs attr = Some (round_up (max0 (map rf_size fs)) (rs_align fs attr), rs_align fs attr, u_offsets fs)).
    { intros [|f fs] attr H; [now elim H|reflexivity]. }
    rewrite RS by exact NE. rewrite AA, SZ. f_equal. f_equal.
    unfold items. rewrite coalesce_u_offsets. change (u_item e :: map u_item rest) with (map u_item (e :: rest)). rewrite <- FL. apply u_visible. auto.
Qed.
End Union.
