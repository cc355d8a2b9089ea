(** The layout of structs. *)
From Coq Require Import List Arith ZArith Bool Lia ZifyNat.
From Verif Require Import RecordLayout.Model RecordLayout.Spec RecordLayout.Proofs RecordLayout.Chain.
Import ListNotations.
Local Open Scope nat_scope.
Local Open Scope list_scope.

Lemma find_skip {A} (f : A -> bool) a x b : f x = false -> find f (a ++ x :: b) = find f (a ++ b).
Proof. intros H. induction a as [|y a IH]; cbn; [now rewrite H|]. destruct (f y); [reflexivity|exact IH]. Qed.

Lemma last_from_find ds : forall d rest, sized d = true -> find sized (rev ds ++ d :: rest) = Some (last_from d ds).
Proof.
  induction ds as [|x ds IH]; intros d rest S; cbn [rev last_from app].
  - cbn. now rewrite S.
  - rewrite <- app_assoc. cbn [app]. destruct (zero_size x) eqn:Z.
    + rewrite find_skip by (unfold sized; now rewrite Z). now apply IH.
    + apply IH. unfold sized. now rewrite Z.
Qed.

Lemma split_first ds e : first_sized ds = Some e ->
  exists zs rest, ds = zs ++ e :: rest /\ Forall (fun d => sized d = false) zs /\ sized e = true.
Proof.
  unfold first_sized. fold sized. induction ds as [|d ds IH]; cbn [find]; [discriminate|]. destruct (sized d) eqn:S.
  - intros [= <-]. exists [], ds. repeat split; [constructor|]. exact S.
  - intros H. destruct (IH H) as (zs & rest & -> & F & SE). exists (d :: zs), rest. repeat split; auto.
Qed.

Lemma placed_strip zs : Forall (fun d => sized d = false) zs -> forall pos ds last,
  placed pos false (zs ++ ds) last -> exists pos', placed pos' false ds last.
Proof.
  induction 1 as [|d zs S _ IH]; intros pos ds last P; [now exists pos|]. cbn [app] in P.
  unfold sized, zero_size in S. inversion P; subst; match goal with M : d_member d = _ |- _ => rewrite M in S end; try discriminate S; eauto.
Qed.

Lemma filter_zeros zs ds : Forall (fun d => sized d = false) zs -> filter sized (zs ++ ds) = filter sized ds.
Proof. induction 1 as [|d zs S _ IH]; cbn; [reflexivity|]. now rewrite S. Qed.

Lemma zero_ok_app c zs ds : zero_ok c (zs ++ ds) -> zero_ok c ds.
Proof. induction zs as [|z zs IH]; [auto|]. intros H. apply IH. eapply zero_ok_cons. exact H. Qed.

(** ** Coalescing keeps what is no bit-field *)
Lemma coalesce_in rest : forall cur i, In i (coalesce_from cur rest) -> i_ir i = None \/ In i (cur :: rest).
Proof.
  induction rest as [|j rest IH]; intros cur i I; cbn [coalesce_from] in I.
  - destruct I as [<-|[]]. right. now left.
  - destruct (i_ir cur) as [f|] eqn:C; [|destruct (i_ir j) as [g|] eqn:J].
    + destruct I as [<-|I]; [right; now left|]. destruct (IH _ _ I) as [H|H]; [now left|right; now right].
    + destruct I as [<-|I]; [right; now left|]. destruct (IH _ _ I) as [H|H]; [now left|right; now right].
    + destruct (IH _ _ I) as [H|[<-|H]]; [now left|now left|right; now right; right].
Qed.
Lemma coalesce_has rest : forall cur j, In j (cur :: rest) ->
  exists i, In i (coalesce_from cur rest) /\ (i = j \/ (i_ir i = None /\ i_ir j = None)).
Proof.
  induction rest as [|k rest IH]; intros cur j I; cbn [coalesce_from].
  - destruct I as [<-|[]]. exists cur. split; [now left|now left].
  - destruct (i_ir cur) as [f|] eqn:C; [|destruct (i_ir k) as [g|] eqn:K].
    + destruct I as [<-|I]; [exists cur; split; now left|]. destruct (IH k j I) as (i & H1 & H2). exists i. split; [now right|exact H2].
    + destruct I as [<-|I]; [exists cur; split; now left|]. destruct (IH k j I) as (i & H1 & H2). exists i. split; [now right|exact H2].
    + set (m := Item None (i_offset cur) (i_end k)). destruct (coalesce_head rest m) as (e & l & E).
      destruct I as [<-|[<-|I]].
      * exists (Item (i_ir m) (i_offset m) e). rewrite E. split; [now left|right; now split].
      * exists (Item (i_ir m) (i_offset m) e). rewrite E. split; [now left|right; now split].
      * apply IH. now right.
Qed.
Lemma coalesce_offsets rest : forall cur, offsets_of (coalesce_from cur rest) = offsets_of (cur :: rest).
Proof.
  induction rest as [|j rest IH]; intros cur; cbn [coalesce_from]; [reflexivity|].
  unfold offsets_of in *. destruct (i_ir cur) as [f|] eqn:C; [|destruct (i_ir j) as [g|] eqn:J].
  - cbn [flat_map]. rewrite IH. reflexivity.
  - cbn [flat_map]. rewrite IH. reflexivity.
  - rewrite IH. cbn [flat_map i_ir]. now rewrite C, J.
Qed.

Lemma visible_items c ds : offsets_of (map (item_of c) (filter sized ds)) = visible_offsets ds.
Proof.
  unfold offsets_of, visible_offsets. induction ds as [|d ds IH]; [reflexivity|]. cbn [filter flat_map]. unfold sized at 1.
  destruct (zero_size d); cbn [negb orb app]; [exact IH|]. cbn [map flat_map]. rewrite IH. unfold item_of. cbn [i_ir i_offset].
  destruct (is_bits d); cbn [app]; [reflexivity|]. unfold import_field. destruct (d_member d); reflexivity.
Qed.

Lemma good_items r a l : good r a l -> Forall (item_ok r) l.
Proof. induction l as [|i l IH]; cbn; [constructor|]. intros (H & _ & G). constructor; auto. Qed.

Lemma class_size_ge c d : In d (c_data c) -> 0 < class_align c -> m_end d <= class_size c.
Proof.
  intros I A. unfold class_size. eapply Nat.le_trans; [|apply round_up_ge; exact A].
  generalize (Nat.max 1 (extent c)). intros n. induction (c_data c) as [|x l IH]; [contradiction|]. cbn. destruct I as [->|I]; [lia|]. specialize (IH I). lia.
Qed.

Lemma class_align_pow2 c : valid c -> pow2 (class_align c).
Proof.
  intros V. unfold class_align. destruct (v_base _ V) as [B1 B2]. apply pow2_max; [now apply pow2_max|]. apply pow2_max_list.
  pose proof (v_aligns _ V) as F. induction F as [|d l [H _] _ IH]; cbn; constructor; auto.
Qed.

Lemma place_head n fs r : place 0 ((if (0 <? n) || r then [RsField None n 1] else []) ++ fs) = place n fs.
Proof.
  destruct (Nat.ltb_spec 0 n); cbn [orb]; [|destruct r].
  - cbn [app place rf_id rf_size rf_align]. rewrite round_up_1. cbn [Nat.add]. destruct (place n fs). reflexivity.
  - replace n with 0 by lia. cbn [app place rf_id rf_size rf_align]. rewrite round_up_1. destruct (place _ fs). reflexivity.
  - replace n with 0 by lia. reflexivity.
Qed.

Lemma end_of_last r a l : good r a l -> l <> [] -> 0 < a -> (exists k, r_size r = k * a) -> round_up (end_of r l) a = r_size r.
Proof.
  intros G N A [k K]. induction l as [|i l IH]; [now elim N|]. destruct G as (_ & L & G). destruct l as [|j l].
  - cbn [end_of]. unfold last_ok in L. destruct (i_end i); [now symmetry|]. rewrite K. now apply round_up_of_multiple.
  - apply IH; [exact G|discriminate].
Qed.

Lemma struct_layout c : valid c -> supported c ->
  layout (import c) = Some (class_size c, class_align c, visible_offsets (c_data c)).
Proof.
  intros V S. destruct (v_placed _ V) as [last P]. pose proof (class_align_pow2 c V) as A2. pose proof (pow2_pos _ A2) as A0.
  assert (AL1 : forall d, In d (c_data c) -> m_align (d_member d) <= class_align c).
  { intros d I. unfold class_align. pose proof (max_list_in (map (fun d => m_align (d_member d)) (c_data c)) _ (in_map _ _ _ I)). lia. }
  assert (SM : exists k, class_size c = k * class_align c) by (apply round_up_multiple; exact A0).
  unfold layout, generate. cbn [is_union import fields thread_safe override_align r_align r_size].
  rewrite (to_items_eq c _ (placed_sized _ _ _ _ P)).
  destruct (c_data c) as [|d0 ds0] eqn:ED.
  - cbn [map filter coalesce definitions byte_offsets forallb]. unfold head_padding. cbn [fields import]. rewrite ED. cbn [map].
    cbn [r_size import direct_init is_union]. rewrite orb_false_r. rewrite app_nil_r.
    assert (S1 : 0 < class_size c).
    { unfold class_size. pose proof (round_up_ge (fold_right Nat.max (Nat.max 1 (extent c)) (map m_end (c_data c))) _ A0) as G. rewrite ED in *. cbn [map fold_right] in *. lia. }
    destruct (Nat.ltb_spec 0 (class_size c)); [|lia]. cbn [orb]. unfold rs_struct. cbn [place rf_align rf_size rf_id]. rewrite round_up_1. cbn [Nat.add].
    assert (AA : rs_align [RsField None (class_size c) 1] (if ((negb (aligned_attr c =? 1) || derived c) || false || false) && (1 <? class_align c) then Some (class_align c) else None) = class_align c).
    { unfold rs_align. cbn [map rf_align max_list fold_right]. destruct (Nat.ltb_spec 1 (class_align c)).
      - rewrite andb_true_r, !orb_false_r. destruct (negb (aligned_attr c =? 1) || derived c) eqn:O; [lia|].
        apply orb_false_iff in O. destruct O as [O1 O2]. apply negb_false_iff, Nat.eqb_eq in O1. destruct (v_derived _ V O2) as [B _].
        unfold class_align in *. rewrite ED in *. cbn [map max_list fold_right] in *. lia.
      - rewrite andb_false_r. lia. }
    rewrite AA. f_equal. f_equal. f_equal. destruct SM as [k ->]. now apply round_up_of_multiple.
  - pose proof (s_first _ S) as SF. rewrite ED in SF. destruct (first_sized (d0 :: ds0)) as [e|] eqn:FS; [|contradiction].
    destruct (split_first _ _ FS) as (zs & rest & EL & FZ & SE).
    assert (FA : Forall (facts c) (d0 :: ds0)).
    { apply Forall_forall. intros d I. pose proof (v_aligns _ V) as VA. pose proof (v_types _ V) as VT. pose proof (s_alignas _ S) as SA.
      pose proof (placed_sized _ _ _ _ P) as PS. rewrite ED in VA, VT, SA. rewrite Forall_forall in VA, VT, SA, PS.
      destruct (VA d I) as [VA1 VA2]. specialize (VT d I). specialize (SA d I). specialize (PS d I). cbn beta in *.
      split; [exact PS|]. split; [exact VT|]. split; [|apply class_size_ge; [rewrite ED; exact I|exact A0]].
      destruct (d_member d); auto. destruct VA2. auto. }
    rewrite EL in *. destruct (placed_strip zs FZ _ _ _ P) as [pos P1]. rewrite filter_zeros by exact FZ. cbn [filter]. rewrite SE. cbn [map coalesce].
    assert (FA' : Forall (facts c) (e :: rest)) by (apply Forall_app in FA; exact (proj2 FA)).
    inversion FA' as [|? ? Fe Fr]; subst.
    destruct (item_of_inv c pos false e SE Fe (fun _ => eq_refl) rest last P1) as (_ & _ & pos' & b' & P2 & I & _).
    assert (G : good (import c) (class_align c) (coalesce_from (item_of c e) (map (item_of c) (filter sized rest)))).
    { apply (chain c rest (item_of c e) e pos' b' false last P2 I).
      - discriminate.
      - apply (zero_ok_app c (zs ++ [e])). rewrite <- app_assoc. cbn [app]. intros ds1 d ds2 E Z. apply (s_zero _ S ds1 d ds2); [now rewrite ED|exact Z].
      - exact Fr.
      - pose proof (s_tail _ S) as ST. unfold last_sized, first_sized in ST. fold sized in ST. rewrite ED in ST.
        rewrite rev_app_distr in ST. cbn [rev] in ST. rewrite <- app_assoc in ST. cbn [app] in ST.
        pose proof (last_from_find rest e (rev zs) SE) as LF. rewrite LF in ST. exact ST. }
    set (items := coalesce_from _ _) in *.
    destruct (coalesce_head (map (item_of c) (filter sized rest)) (item_of c e)) as (en & l & E). fold items in E.
    destruct (definitions_correct (import c) eq_refl (class_align c) items None G) as (fs & o & D & PL & FAL & KN).
    { rewrite E. exact Logic.I. }
    rewrite D.
    assert (BO : byte_offsets items = true).
    { unfold byte_offsets. apply forallb_forall. intros i Hi. pose proof (good_items _ _ _ G) as GI. rewrite Forall_forall in GI.
      destruct (GI i Hi) as (M & FO & _). destruct (i_ir i) as [f|]; [|reflexivity]. rewrite (FO f eq_refl). now apply Nat.eqb_eq. }
    rewrite BO.
    assert (PL' : place (d_offset e / 8) fs = (offsets_of items, end_of (import c) items)).
    { revert PL. generalize (offsets_of items), (end_of (import c) items). rewrite E. intros x y H. exact H. }
    assert (HP : head_padding (import c) = if (0 <? d_offset e / 8) || negb (direct_init (import c) || false) then [RsField None (d_offset e / 8) 1] else []).
    { unfold head_padding. cbn [fields import]. rewrite ED, <- EL. cbn [map is_union]. rewrite import_offset, SF. reflexivity. }
    rewrite HP. unfold rs_struct. rewrite place_head, PL'.
    (* alignment *)
    assert (KA : forall i t, In i items -> known_type (import c) i = Some t -> exists d, In d (zs ++ e :: rest) /\ sized d = true /\ known_plain c d = true /\ m_align (d_member d) = rt_align t).
    { intros i t Hi KT. destruct (coalesce_in _ _ _ Hi) as [N|Hi'].
      - unfold known_type in KT. rewrite N in KT. discriminate.
      - change (In i (map (item_of c) (e :: filter sized rest))) in Hi'. apply in_map_iff in Hi'. destruct Hi' as (d & <- & Hd).
        assert (Id : In d (e :: rest) /\ sized d = true).
        { destruct Hd as [<-|Hd]; [split; [now left|exact SE]|]. apply filter_In in Hd. destruct Hd. split; [now right|assumption]. }
        destruct Id as [Id Sd]. exists d. split; [apply in_app_iff; now right|]. split; [exact Sd|].
        pose proof (known_type_plain c d t Sd KT) as KP. split; [exact KP|].
        rewrite Forall_forall in FA'. destruct (FA' d Id) as (_ & TM & AL & _).
        unfold known_plain in KP. destruct (d_member d) eqn:M; try discriminate KP. destruct AL as (_ & _ & AL). specialize (AL KP).
        assert (T' : type_for_layout (import c) (import_field d) = Some t).
        { unfold known_type, item_of, is_bits in KT. rewrite M in KT. exact KT. }
        apply known_type_eq in T'. unfold types_match in TM. rewrite T', M in TM. destruct TM as [_ TM]. cbn. lia. }
    assert (UP : forall f, In f ((if (0 <? d_offset e / 8) || negb (direct_init (import c) || false) then [RsField None (d_offset e / 8) 1] else []) ++ fs) -> rf_align f <= class_align c).
    { intros f Hf. apply in_app_iff in Hf. destruct Hf as [Hf|Hf].
      - destruct ((0 <? d_offset e / 8) || negb (direct_init (import c) || false)); [destruct Hf as [<-|[]]; cbn; lia|destruct Hf].
      - rewrite Forall_forall in FAL. destruct (FAL f Hf) as [->|(i & t & Hi & KT & ->)]; [lia|].
        destruct (KA i t Hi KT) as (d & Hd & _ & _ & <-). apply AL1. exact Hd. }
    set (hp := if (0 <? d_offset e / 8) || negb (direct_init (import c) || false) then [RsField None (d_offset e / 8) 1] else []) in *.
    assert (AA : rs_align (hp ++ fs) (if ((negb (aligned_attr c =? 1) || derived c) || o || false) && (1 <? class_align c) then Some (class_align c) else None) = class_align c).
    { unfold rs_align.
      assert (U : max_list (map rf_align (hp ++ fs)) <= class_align c).
      { apply max_list_le; [lia|]. apply Forall_forall. intros x Hx. apply in_map_iff in Hx. destruct Hx as (f & <- & Hf). now apply UP. }
      pose proof (max_list_ge1 (map rf_align (hp ++ fs))) as G1.
      destruct (Nat.ltb_spec 1 (class_align c)) as [L1|L1]; [|rewrite andb_false_r; lia]. rewrite andb_true_r, orb_false_r.
      destruct (negb (aligned_attr c =? 1) || derived c || o) eqn:O; [lia|].
      apply orb_false_iff in O. destruct O as [O O3]. apply orb_false_iff in O. destruct O as [O1 O2]. subst o.
      apply negb_false_iff, Nat.eqb_eq in O1. destruct (v_derived _ V O2) as [B _].
      enough (class_align c <= max_list (map rf_align (hp ++ fs))) by lia.
      unfold class_align at 1. rewrite B, O1. apply Nat.max_lub; [lia|]. apply max_list_le; [lia|]. apply Forall_forall. intros x Hx.
      apply in_map_iff in Hx. destruct Hx as (d & <- & Hd). rewrite ED in Hd.
      destruct (sized d) eqn:Sd.
      - assert (Hd' : In d (e :: rest)).
        { apply in_app_iff in Hd. destruct Hd as [Hd|Hd]; [|exact Hd]. rewrite Forall_forall in FZ. specialize (FZ d Hd). congruence. }
        assert (Hi : In (item_of c d) (item_of c e :: map (item_of c) (filter sized rest))).
        { destruct Hd' as [<-|Hd']; [now left|]. right. apply in_map. apply filter_In. now split. }
        destruct (coalesce_has _ _ _ Hi) as (i & Ii & Hii). fold items in Ii. destruct (KN eq_refl i Ii) as (t & KT & It).
        destruct Hii as [->|[Ni _]]; [|unfold known_type in KT; rewrite Ni in KT; discriminate].
        destruct (KA _ _ Ii KT) as (_ & _ & _ & _ & _).
        assert (MA : m_align (d_member d) = rt_align t).
        { pose proof (known_type_plain c d t Sd KT) as KP. rewrite Forall_forall in FA'. destruct (FA' d Hd') as (_ & TM & AL & _).
          unfold known_plain in KP. destruct (d_member d) eqn:M; try discriminate KP. destruct AL as (_ & _ & AL). specialize (AL KP).
          assert (T' : type_for_layout (import c) (import_field d) = Some t).
          { unfold known_type, item_of, is_bits in KT. rewrite M in KT. exact KT. }
          apply known_type_eq in T'. unfold types_match in TM. rewrite T', M in TM. destruct TM as [_ TM]. cbn. lia. }
        rewrite MA. apply max_list_in. rewrite map_app. apply in_app_iff. now right.
      - pose proof (s_zero_align _ S) as SZ. rewrite ED in SZ. rewrite Forall_forall in SZ. rewrite (SZ d Hd); [exact G1|].
        unfold sized in Sd. now destruct (zero_size d). }
    rewrite AA. f_equal. f_equal; [f_equal|].
    + apply end_of_last; auto. rewrite E. discriminate.
    + unfold items. rewrite coalesce_offsets. change (item_of c e :: map (item_of c) (filter sized rest)) with (map (item_of c) (e :: filter sized rest)).
      replace (e :: filter sized rest) with (filter sized (zs ++ e :: rest)).
      * apply visible_items.
      * rewrite filter_zeros by exact FZ. cbn. now rewrite SE.
Qed.
