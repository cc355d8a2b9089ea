(** Thunk names and positions. *)
From Coq Require Import List NArith ZArith Arith Bool Ascii String Sorted Lia.
From Verif Require Import InlineCpp.Model InlineCpp.Spec InlineCpp.Proofs InlineCpp.Hash.
Import ListNotations.
Local Open Scope string_scope.
Local Open Scope nat_scope.
Local Open Scope list_scope.

Lemma hex_len k h : List.length (hex k h) = k.
Proof.
  revert h. induction k as [|k IH]; intros h; [reflexivity|].
  cbn [hex]. rewrite app_length, IH. cbn [List.length]. lia.
Qed.
Lemma hex_digit_inj a b : (a < 16)%N -> (b < 16)%N -> hex_digit a = hex_digit b -> a = b.
Proof.
  unfold hex_digit. intros Ha Hb. destruct (N.ltb_spec a 10), (N.ltb_spec b 10); lia.
Qed.
Lemma hex_inj k : forall h h', (h < 16 ^ N.of_nat k)%N -> (h' < 16 ^ N.of_nat k)%N ->
  hex k h = hex k h' -> h = h'.
Proof.
  induction k as [|k IH]; intros h h' H H' E.
  - cbn [N.of_nat] in H, H'. rewrite N.pow_0_r in H, H'. lia.
  - cbn [hex] in E. apply app_inj_tail in E. destruct E as [E1 E2].
    apply hex_digit_inj in E2; [|apply N.mod_lt; lia|apply N.mod_lt; lia].
    rewrite Nat2N.inj_succ, N.pow_succ_r' in H, H'.
    apply IH in E1; [|apply N.div_lt_upper_bound; lia|apply N.div_lt_upper_bound; lia].
    rewrite (N.div_mod h 16), (N.div_mod h' 16) by lia. rewrite E1, E2. reflexivity.
Qed.
Lemma hash_range h bs : bs <> [] -> (fnv_write h bs < 16 ^ N.of_nat 16)%N.
Proof.
  intros H. pose proof (fnv_write_range h bs H) as E.
  assert (K : (Z.of_N (fnv_write h bs) < M64)%Z).
  { rewrite <- E. apply Z.mod_pos_bound. unfold M64. lia. }
  change (16 ^ N.of_nat 16)%N with 18446744073709551616%N. unfold M64 in K. lia.
Qed.
Lemma thunk_hash_range t f l c : (thunk_hash t f l c < 16 ^ N.of_nat 16)%N.
Proof. unfold thunk_hash. apply hash_range. discriminate. Qed.

(** Unfold [thunk_hash] before the hash function when comparing terms. *)
Strategy -10 [thunk_hash].
Lemma thunk_hash_eq t f l c : thunk_hash t f l c
  = fnv_write (fnv_write (fnv_write (fnv_write fnv_basis (as_bytes t)) (as_bytes f)) (le_bytes 8 l)) (le_bytes 8 c).
Proof. unfold thunk_hash. reflexivity. Qed.

(** Same file, small positions: the name determines the position. *)
Lemma thunk_name_hash t f l c t' l' c' :
  compute_thunk_name t f l c = compute_thunk_name t' f l' c' -> thunk_hash t f l c = thunk_hash t' f l' c'.
Proof.
  intros E. unfold compute_thunk_name in E.
  apply app_inv_head in E. apply app_inv_head in E. apply app_inv_head in E.
  exact (hex_inj 16 _ _ (thunk_hash_range _ _ _ _) (thunk_hash_range _ _ _ _) E).
Qed.
Lemma thunk_name_inj t f l c l' c' :
  (l < 65536)%N -> (l' < 65536)%N -> (c < 256)%N -> (c' < 256)%N ->
  compute_thunk_name t f l c = compute_thunk_name t f l' c' -> l = l' /\ c = c'.
Proof.
  intros Hl Hl' Hc Hc' E. apply thunk_name_hash in E. rewrite !thunk_hash_eq in E.
  exact (position_hash_inj _ _ _ _ _ Hl Hl' Hc Hc' E).
Qed.

(** ** Valid identifiers *)
Lemma ident_hex k h : Forall ident_char (hex k h).
Proof.
  revert h. induction k as [|k IH]; intros h; cbn [hex]; [constructor|].
  apply Forall_app. split; [apply IH|]. constructor; [|constructor].
  unfold ident_char, hex_digit. pose proof (N.mod_lt h 16 ltac:(lia)) as K.
  revert K. generalize (h mod 16)%N. intros d K. destruct (N.ltb_spec d 10); lia.
Qed.
Lemma ident_escape t : Forall plain_file_char t -> Forall ident_char (List.map escape_char t).
Proof.
  induction 1 as [|c r [H|[-> | ->]] _ IH]; cbn [List.map]; constructor; auto.
  - unfold escape_char. destruct (N.eqb_spec c 46); [right; right; right; reflexivity|].
    destruct (N.eqb_spec c 45); [right; right; right; reflexivity|]. exact H.
  - right; right; right; reflexivity.
  - right; right; right; reflexivity.
Qed.
Lemma split_on_forall (Q : N -> Prop) sep t : Forall (fun c => c = sep \/ Q c) t ->
  Forall (Forall Q) (split_on sep t).
Proof.
  induction 1 as [|c r [-> |H] _ IH]; cbn [split_on].
  - repeat constructor.
  - rewrite N.eqb_refl. constructor; [constructor|exact IH].
  - destruct (N.eqb_spec c sep); [constructor; [constructor|exact IH]|].
    destruct (split_on sep r) as [|p ps]; [repeat constructor; exact H|].
    constructor; [constructor; [exact H|exact (Forall_inv IH)]|exact (Forall_inv_tail IH)].
Qed.
Definition identb (c : N) : bool :=
  ((48 <=? c) && (c <=? 57) || (65 <=? c) && (c <=? 90) || (97 <=? c) && (c <=? 122) || (c =? 95))%N.
Lemma identb_ok t : forallb identb t = true -> Forall ident_char t.
Proof.
  intros H. apply Forall_forall. intros c Hc. rewrite forallb_forall in H. specialize (H c Hc).
  unfold identb in H. unfold ident_char.
  apply orb_prop in H. destruct H as [H|H]; [|apply N.eqb_eq in H; auto].
  apply orb_prop in H. destruct H as [H|H];
    [apply orb_prop in H; destruct H as [H|H]|]; apply andb_prop in H; destruct H as [H1 H2];
    apply N.leb_le in H1, H2; auto.
Qed.
Lemma ident_T : Forall ident_char (T "inline_cpp_thunk_") /\ Forall ident_char (T "_")
  /\ Forall plain_file_char (T "source").
Proof.
  split; [apply identb_ok; reflexivity|]. split; [apply identb_ok; reflexivity|].
  assert (H : Forall ident_char (T "source")) by (apply identb_ok; reflexivity).
  eapply Forall_impl; [|exact H]. intros c K. left. exact K.
Qed.
Lemma thunk_name_ident t f l c : Forall (fun c => c = 47%N \/ plain_file_char c) f ->
  Identifier (compute_thunk_name t f l c).
Proof.
  intros Hf. destruct ident_T as (H1 & H2 & H3). unfold compute_thunk_name.
  split; [discriminate|]. split.
  - apply Forall_app. split; [exact H1|]. apply Forall_app. split.
    + apply ident_escape. unfold file_name.
      apply split_on_forall in Hf.
      destruct (rev (filter (fun p => negb (text_eqb p [] || text_eqb p (T "."))) (split_on 47 f)))
        as [|p ps] eqn:E; [exact H3|].
      destruct (text_eqb p (T "..")); [exact H3|].
      rewrite Forall_forall in Hf. apply Hf.
      assert (K : In p (rev (filter (fun p => negb (text_eqb p [] || text_eqb p (T "."))) (split_on 47 f)))).
      { rewrite E. left. reflexivity. }
      apply in_rev in K. apply filter_In in K. exact (proj1 K).
    + apply Forall_app. split; [exact H2|]. apply ident_hex.
  - intros c0 r E. change (T "inline_cpp_thunk_") with (105%N :: T "nline_cpp_thunk_") in E.
    cbn [app] in E. injection E as <- _. lia.
Qed.

(** ** Positions are unique *)
Lemma adv_lt p c r : fst p < fst (adv p (c :: r)) \/ (fst (adv p (c :: r)) = fst p /\ snd p < snd (adv p (c :: r))).
Proof.
  revert p c. induction r as [|d r IH]; intros p c.
  - cbn [adv]. destruct (c =? newline)%N; cbn [fst snd]; lia.
  - change (adv p (c :: d :: r)) with (adv (if (c =? newline)%N then (fst p + 1, 1) else (fst p, snd p + 1)) (d :: r)).
    specialize (IH (if (c =? newline)%N then (fst p + 1, 1) else (fst p, snd p + 1)) d).
    destruct (c =? newline)%N; cbn [fst snd] in IH; lia.
Qed.
Lemma at_unique a b l c : At a l c -> At (a ++ b) l c -> b = [].
Proof.
  intros H1 H2. apply at_adv in H1, H2. rewrite adv_app, H1 in H2. destruct b as [|d b]; [reflexivity|].
  exfalso. destruct (adv_lt (l, c) d b) as [K|[_ K]]; rewrite H2 in K; cbn [fst snd] in K; lia.
Qed.
Lemma prefix_of_size a b x y : a ++ x = b ++ y -> size a <= size b -> exists d, b = a ++ d.
Proof.
  revert b. induction a as [|c a IH]; intros b E Hs; [exists b; reflexivity|].
  destruct b as [|d b].
  - exfalso. change (c :: a) with ([c] ++ a) in Hs. rewrite size_app, !size_bytes in Hs.
    cbn [bytes] in Hs. pose proof (len8_pos c). lia.
  - cbn [app] in E. injection E as -> E.
    change (d :: a) with ([d] ++ a) in Hs. change (d :: b) with ([d] ++ b) in Hs.
    rewrite !size_app in Hs. destruct (IH b E ltac:(lia)) as [e ->]. exists e. reflexivity.
Qed.

Lemma described_positions ts m1 m2 : Describes ts m1 -> Describes ts m2 ->
  m_line m1 = m_line m2 -> m_col m1 = m_col m2 -> m_start m1 = m_start m2.
Proof.
  intros (b1 & p1 & w1 & g1 & v1 & o1 & d1 & c1 & a1 & E1 & _ & _ & _ & _ & _ & _ & _ & _ & S1 & A1 & _)
         (b2 & p2 & w2 & g2 & v2 & o2 & d2 & c2 & a2 & E2 & _ & _ & _ & _ & _ & _ & _ & _ & S2 & A2 & _) El Ec.
  rewrite E1 in E2. apply (f_equal src) in E2. rewrite !(src_app b1), !(src_app b2) in E2.
  rewrite El, Ec in A1. rewrite S1, S2.
  destruct (Nat.le_ge_cases (size (src b1)) (size (src b2))) as [K|K].
  - destruct (prefix_of_size _ _ _ _ E2 K) as [d Ed]. rewrite Ed in A2.
    rewrite (at_unique _ _ _ _ A1 A2) in Ed. rewrite Ed, app_nil_r. reflexivity.
  - destruct (prefix_of_size _ _ _ _ (eq_sym E2) K) as [d Ed]. rewrite Ed in A1.
    rewrite (at_unique _ _ _ _ A2 A1) in Ed. rewrite Ed, app_nil_r. reflexivity.
Qed.
Lemma sorted_start ts ms m1 m2 : StronglySorted Before ms -> Forall (Describes ts) ms ->
  In m1 ms -> In m2 ms -> m_start m1 = m_start m2 -> m1 = m2.
Proof.
  assert (HD : forall m, Describes ts m -> m_start m <= m_body_end m).
  { intros m (b & p & w & g & v & o & d & c & a & _ & _ & _ & _ & _ & _ & _ & _ & _ & S0 & _ & S1 & _ & S2 & _).
    rewrite S2, S1, S0, src_app, size_app. lia. }
  induction 1 as [|m ms Hs IH Hf]; intros HF I1 I2 E; [destruct I1|].
  pose proof (HD _ (Forall_inv HF)) as Hm. rewrite Forall_forall in Hf. unfold Before in Hf.
  destruct I1 as [<-|I1], I2 as [<-|I2].
  - reflexivity.
  - specialize (Hf _ I2). lia.
  - specialize (Hf _ I1). lia.
  - exact (IH (Forall_inv_tail HF) I1 I2 E).
Qed.
