(** The 64-bit FNV-1a hash of a position: no collision in files of fewer than
    65536 lines and columns below 256. *)
From Coq Require Import List NArith ZArith Bool Ascii String Lia.
From Verif Require Import InlineCpp.Model InlineCpp.Spec.
Import ListNotations.
Local Open Scope Z_scope.

Definition M64 : Z := 18446744073709551616.
Definition P : Z := 1099511628211.

(** Xor with a byte moves a number inside its block of 256. *)
Lemma lxor_block (x b : N) : (b < 256)%N -> (N.lxor x b / 256 = x / 256)%N.
Proof.
  intros H. change 256%N with (2 ^ 8)%N. rewrite <- !N.shiftr_div_pow2, N.shiftr_lxor.
  replace (N.shiftr b 8) with 0%N; [apply N.lxor_0_r|].
  rewrite N.shiftr_div_pow2. symmetry. apply N.div_small. exact H.
Qed.
Lemma block_dist (x y : N) : (x / 256 = y / 256)%N -> -255 <= Z.of_N x - Z.of_N y <= 255.
Proof.
  intros E. pose proof (N.div_mod x 256 ltac:(lia)) as H1. pose proof (N.div_mod y 256 ltac:(lia)) as H2.
  pose proof (N.mod_lt x 256 ltac:(lia)) as H3. pose proof (N.mod_lt y 256 ltac:(lia)) as H4.
  rewrite E in H1. revert H1 H2 H3 H4.
  generalize (y / 256)%N (x mod 256)%N (y mod 256)%N. intros q r r' -> -> H3 H4. lia.
Qed.
Lemma lxor_cancel (x a b : N) : N.lxor x a = N.lxor x b -> a = b.
Proof.
  intros E. apply (f_equal (N.lxor x)) in E. rewrite <- !N.lxor_assoc, N.lxor_nilpotent, !N.lxor_0_l in E.
  exact E.
Qed.

Lemma fnv_byte_Z h b : Z.of_N (fnv_byte h b) = (Z.of_N (N.lxor h b) * P) mod M64.
Proof. unfold fnv_byte. rewrite N2Z.inj_mod, N2Z.inj_mul. reflexivity. Qed.

Lemma fnv_zeros k : forall h, Z.of_N (fnv_write h (repeat 0%N k)) mod M64 = (Z.of_N h * P ^ Z.of_nat k) mod M64.
Proof.
  induction k as [|k IH]; intros h.
  - cbn [repeat fnv_write fold_left]. rewrite Z.pow_0_r, Z.mul_1_r. reflexivity.
  - cbn [repeat]. unfold fnv_write in *. cbn [fold_left]. rewrite IH, fnv_byte_Z, N.lxor_0_r.
    rewrite Zmult_mod_idemp_l. f_equal. rewrite Nat2Z.inj_succ, Z.pow_succ_r by lia. ring.
Qed.

(** [P] is odd, so it can be divided out. *)
Definition Pinv : Z := 14886173955864302971.
Lemma Pinv_ok : (Pinv * P) mod M64 = 1.
Proof. vm_compute. reflexivity. Qed.
Lemma mulP_inj k x y : (x * P ^ Z.of_nat k) mod M64 = (y * P ^ Z.of_nat k) mod M64 -> x mod M64 = y mod M64.
Proof.
  induction k as [|k IH].
  - rewrite !Z.pow_0_r, !Z.mul_1_r. auto.
  - rewrite Nat2Z.inj_succ, Z.pow_succ_r by lia. intros E. apply IH.
    apply (f_equal (fun z => (Pinv * z) mod M64)) in E. rewrite !Zmult_mod_idemp_r in E.
    replace (Pinv * (x * (P * P ^ Z.of_nat k))) with ((Pinv * P) * (x * P ^ Z.of_nat k)) in E by ring.
    replace (Pinv * (y * (P * P ^ Z.of_nat k))) with ((Pinv * P) * (y * P ^ Z.of_nat k)) in E by ring.
    rewrite <- (Zmult_mod_idemp_l (Pinv * P)), Pinv_ok, Z.mul_1_l in E.
    rewrite <- (Zmult_mod_idemp_l (Pinv * P)), Pinv_ok, Z.mul_1_l in E. exact E.
Qed.

(** The finite check: [(d P + e) P^7] stays away from zero (modulo 2^64) for all
    small [d] and [e], not both zero.  [walk n v] checks [v, v+P^7, ...]. *)
Definition P7 : Z := Eval vm_compute in (P ^ 7) mod M64.
Definition P8 : Z := Eval vm_compute in (P ^ 8) mod M64.
Definition far (v : Z) : bool := (255 <? v) && (v <? M64 - 255).
Definition addm (a b : Z) : Z := let s := a + b in if s <? M64 then s else s - M64.
Fixpoint walk (n : nat) (v : Z) : bool :=
  match n with O => true | S n' => far v && walk n' (addm v P7) end.
Fixpoint rows (n : nat) (v : Z) : bool :=
  match n with O => true | S n' => walk 1021 v && rows n' (addm v P8) end.
(** The start of the rows [d = 1..255] at [e = -510], and of the row [d = 0],
    [e = 1..510]. *)
Definition row0 : Z := Eval vm_compute in (P8 - 510 * P7) mod M64.
Lemma rows_ok : rows 255 row0 = true.
Proof. vm_compute. reflexivity. Qed.
Lemma row0_ok : walk 510 P7 = true.
Proof. vm_compute. reflexivity. Qed.

Lemma addm_mod a b : 0 <= a < M64 -> 0 <= b < M64 -> addm a b = (a + b) mod M64.
Proof.
  intros Ha Hb. unfold addm. cbv zeta. destruct (Z.ltb_spec (a + b) M64) as [H|H].
  - symmetry. apply Z.mod_small. lia.
  - rewrite <- (Z_mod_plus_full (a + b) (-1)). symmetry.
    replace (a + b - M64) with (a + b + -1 * M64) by lia. apply Z.mod_small. unfold M64 in *. lia.
Qed.
Lemma walk_spec n : forall v, walk n (v mod M64) = true ->
  forall i, 0 <= i < Z.of_nat n -> far ((v + i * P7) mod M64) = true.
Proof.
  assert (HM : M64 > 0) by (unfold M64; lia).
  induction n as [|n IH]; intros v H i Hi; [lia|].
  cbn [walk] in H. apply andb_prop in H. destruct H as [H1 H2].
  destruct (Z.eq_dec i 0) as [-> |Hne].
  - rewrite Z.mul_0_l, Z.add_0_r. exact H1.
  - rewrite addm_mod in H2 by (try apply Z.mod_pos_bound; unfold P7, M64; lia).
    rewrite Zplus_mod_idemp_l in H2.
    specialize (IH (v + P7) H2 (i - 1)).
    replace (v + i * P7) with (v + P7 + (i - 1) * P7) by ring. apply IH. lia.
Qed.
Lemma rows_spec n : forall v, rows n (v mod M64) = true ->
  forall d e, 0 <= d < Z.of_nat n -> 0 <= e < 1021 -> far ((v + d * P8 + e * P7) mod M64) = true.
Proof.
  assert (HM : M64 > 0) by (unfold M64; lia).
  induction n as [|n IH]; intros v H d e Hd He; [lia|].
  cbn [rows] in H. apply andb_prop in H. destruct H as [H1 H2].
  destruct (Z.eq_dec d 0) as [-> |Hne].
  - rewrite Z.mul_0_l, Z.add_0_r. apply (walk_spec 1021 v H1). exact He.
  - rewrite addm_mod in H2 by (try apply Z.mod_pos_bound; unfold P8, M64; lia).
    rewrite Zplus_mod_idemp_l in H2.
    specialize (IH (v + P8) H2 (d - 1) e).
    replace (v + d * P8 + e * P7) with (v + P8 + (d - 1) * P8 + e * P7) by ring. apply IH; lia.
Qed.

Lemma far_spec v f : far (v mod M64) = true -> -255 <= f <= 255 -> (v - f) mod M64 <> 0.
Proof.
  intros H Hf E. unfold far in H. apply andb_prop in H. destruct H as [H1 H2].
  apply Z.ltb_lt in H1, H2.
  apply Z.mod_divide in E; [|unfold M64; lia]. destruct E as [q E].
  assert (Ev : v mod M64 = (f + q * M64) mod M64) by (f_equal; lia).
  rewrite Z_mod_plus_full in Ev. rewrite Ev in H1, H2.
  destruct (Z.le_gt_cases 0 f) as [K|K].
  - rewrite Z.mod_small in H1 by (unfold M64; lia). lia.
  - replace (f mod M64) with (f + M64) in *.
    + lia.
    + rewrite <- (Z_mod_plus_full f 1). rewrite Z.mod_small by (unfold M64; lia). lia.
Qed.

Lemma far_all d e f : -255 <= d <= 255 -> -510 <= e <= 510 -> -255 <= f <= 255 ->
  ((d * P + e) * P ^ 7 - f) mod M64 = 0 -> d = 0 /\ e = 0.
Proof.
  assert (H7 : (P ^ 7) mod M64 = P7 mod M64) by (vm_compute; reflexivity).
  assert (H8 : (P ^ 8) mod M64 = P8 mod M64) by (vm_compute; reflexivity).
  assert (Hred : forall d e, ((d * P + e) * P ^ 7) mod M64 = (d * P8 + e * P7) mod M64).
  { intros d0 e0. replace ((d0 * P + e0) * P ^ 7) with (d0 * P ^ 8 + e0 * P ^ 7) by ring.
    rewrite Zplus_mod, (Zmult_mod d0), (Zmult_mod e0), H7, H8, <- (Zmult_mod d0), <- (Zmult_mod e0),
      <- Zplus_mod. reflexivity. }
  assert (Hpos : forall d e, 1 <= d <= 255 -> -510 <= e <= 510 -> far ((d * P8 + e * P7) mod M64) = true).
  { intros d0 e0 Hd He.
    replace (d0 * P8 + e0 * P7) with ((P8 - 510 * P7) + (d0 - 1) * P8 + (e0 + 510) * P7) by ring.
    apply (rows_spec 255); [exact rows_ok|lia|lia]. }
  assert (Hzero : forall e, 1 <= e <= 510 -> far ((0 * P8 + e * P7) mod M64) = true).
  { intros e0 He. replace (0 * P8 + e0 * P7) with (P7 + (e0 - 1) * P7) by ring.
    apply (walk_spec 510); [exact row0_ok|lia]. }
  intros Hd He Hf E.
  assert (E' : (d * P8 + e * P7 - f) mod M64 = 0).
  { rewrite <- E. rewrite Zminus_mod, (Zminus_mod ((d * P + e) * P ^ 7)), Hred. reflexivity. }
  assert (En : (- d * P8 + - e * P7 - - f) mod M64 = 0).
  { replace (- d * P8 + - e * P7 - - f) with (- (d * P8 + e * P7 - f)) by ring.
    apply Z.mod_opp_l_z; [unfold M64; lia|exact E']. }
  destruct (Z.lt_trichotomy d 0) as [Hd1|[-> |Hd1]].
  - elim (far_spec _ (- f) (Hpos (- d) (- e) ltac:(lia) ltac:(lia)) ltac:(lia) En).
  - split; [reflexivity|].
    destruct (Z.lt_trichotomy e 0) as [He1|[-> |He1]]; [|reflexivity|].
    + elim (far_spec _ (- f) (Hzero (- e) ltac:(lia)) ltac:(lia) En).
    + elim (far_spec _ f (Hzero e ltac:(lia)) ltac:(lia) E').
  - elim (far_spec _ f (Hpos d e ltac:(lia) ltac:(lia)) ltac:(lia) E').
Qed.

Lemma le_small k n : (n < 256)%N -> le_bytes (S k) n = n :: repeat 0%N k.
Proof.
  intros H. cbn [le_bytes]. rewrite N.mod_small, N.div_small by exact H. f_equal.
  clear. induction k as [|k IH]; [reflexivity|]. cbn [le_bytes repeat]. rewrite N.div_0_l by lia.
  rewrite IH. reflexivity.
Qed.
Lemma le_line n : (n < 65536)%N -> le_bytes 8 n = (n mod 256)%N :: (n / 256)%N :: repeat 0%N 6.
Proof.
  intros H. change (le_bytes 8 n) with ((n mod 256)%N :: le_bytes 7 (n / 256)%N).
  rewrite le_small by (apply N.div_lt_upper_bound; lia). reflexivity.
Qed.
Lemma fnv_range h b : Z.of_N (fnv_byte h b) mod M64 = Z.of_N (fnv_byte h b).
Proof. rewrite fnv_byte_Z. apply Zmod_mod. Qed.
Lemma fnv_write_range h bs : bs <> [] -> Z.of_N (fnv_write h bs) mod M64 = Z.of_N (fnv_write h bs).
Proof.
  intros H. destruct (exists_last H) as (i & b & ->). unfold fnv_write. rewrite fold_left_app.
  cbn [fold_left]. apply fnv_range.
Qed.

Lemma fnv_cons h b bs : fnv_write h (b :: bs) = fnv_write (fnv_byte h b) bs.
Proof. reflexivity. Qed.
Definition P7z : Z := P ^ 7.
Lemma P7z_eq : P7z = P * P ^ Z.of_nat 6.
Proof. vm_compute. reflexivity. Qed.
Lemma P7z_pow : P7z = P ^ 7.
Proof. reflexivity. Qed.

Lemma line_hash h l : (l < 65536)%N ->
  Z.of_N (fnv_write h (le_bytes 8 l))
  = (Z.of_N (N.lxor (fnv_byte h (l mod 256)) (l / 256)) * P7z) mod M64.
Proof.
  intros Hl. rewrite (le_line l Hl), !fnv_cons.
  rewrite <- fnv_write_range by discriminate.
  rewrite fnv_zeros, fnv_byte_Z, Zmult_mod_idemp_l, P7z_eq. f_equal. ring.
Qed.
Lemma col_hash Y c Y' c' : (c < 256)%N -> (c' < 256)%N ->
  fnv_write Y (le_bytes 8 c) = fnv_write Y' (le_bytes 8 c') ->
  Z.of_N (N.lxor Y c) mod M64 = Z.of_N (N.lxor Y' c') mod M64.
Proof.
  intros Hc Hc' E. rewrite (le_small 7 c Hc), (le_small 7 c' Hc'), !fnv_cons in E.
  apply (f_equal (fun n => Z.of_N n mod M64)) in E.
  rewrite !fnv_zeros in E. apply mulP_inj in E. rewrite !fnv_byte_Z, !Zmod_mod in E.
  apply (mulP_inj 1). rewrite !Nat2Z.inj_succ, !Z.pow_succ_r, !Z.pow_0_r, !Z.mul_1_r by lia. exact E.
Qed.
Lemma lxor_range Y b : Z.of_N Y < M64 -> (b < 256)%N -> Z.of_N (N.lxor Y b) mod M64 = Z.of_N (N.lxor Y b).
Proof.
  intros HZ0 Hb. apply Z.mod_small. split; [lia|].
  pose proof (lxor_block Y b Hb) as HB.
  pose proof (N.div_mod (N.lxor Y b) 256 ltac:(lia)) as D1.
  pose proof (N.mod_lt (N.lxor Y b) 256 ltac:(lia)) as D2. rewrite HB in D1.
  assert (HQ : (Y / 256 < 72057594037927936)%N).
  { apply N.div_lt_upper_bound; [lia|]. unfold M64 in HZ0. lia. }
  revert D1 D2 HQ. generalize (N.lxor Y b mod 256)%N. generalize (Y / 256)%N. generalize (N.lxor Y b). intros z q r -> D2 HQ.
  unfold M64. lia.
Qed.
Lemma fnv_byte_mult h b : exists q, Z.of_N (fnv_byte h b) = Z.of_N (N.lxor h b) * P + q * M64.
Proof.
  rewrite fnv_byte_Z. exists (- (Z.of_N (N.lxor h b) * P / M64)).
  pose proof (Z.div_mod (Z.of_N (N.lxor h b) * P) M64 ltac:(unfold M64; lia)). lia.
Qed.

(** The arithmetic, apart from the bytes: [x], [x'] the state xored with the low
    byte of the line, [a], [a'] the next state, [u], [u'] that xored with the
    second byte, [y], [y'] the state after the line. *)
Lemma arith x x' a a' u u' y y' q q' :
  -255 <= x - x' <= 255 -> a = x * P + q * M64 -> a' = x' * P + q' * M64 ->
  -255 <= u - a <= 255 -> -255 <= u' - a' <= 255 ->
  y = (u * P7z) mod M64 -> y' = (u' * P7z) mod M64 -> -255 <= y - y' <= 255 ->
  x = x' /\ u - a = u' - a'.
Proof.
  intros Hx Ha Ha' Hu Hu' Hy Hy' Hyy.
  assert (HX : u - u' = (x - x') * P + ((u - a) - (u' - a')) + (q - q') * M64) by (subst a a'; ring).
  assert (HF : (((x - x') * P + ((u - a) - (u' - a'))) * P ^ 7 - (y - y')) mod M64 = 0).
  { assert (Y1 : exists k, y = u * P7z + k * M64).
    { exists (- (u * P7z / M64)). rewrite Hy.
      pose proof (Z.div_mod (u * P7z) M64 ltac:(unfold M64; lia)). lia. }
    assert (Y2 : exists k, y' = u' * P7z + k * M64).
    { exists (- (u' * P7z / M64)). rewrite Hy'.
      pose proof (Z.div_mod (u' * P7z) M64 ltac:(unfold M64; lia)). lia. }
    destruct Y1 as [k Y1], Y2 as [k' Y2].
    rewrite <- P7z_pow.
    assert (R : ((x - x') * P + ((u - a) - (u' - a'))) * P7z - (y - y')
      = (- (q - q') * P7z - k + k') * M64).
    { rewrite Y1, Y2.
      replace ((x - x') * P + ((u - a) - (u' - a'))) with (u - u' - (q - q') * M64) by (rewrite HX; ring). ring. }
    rewrite R. apply Z_mod_mult. }
  assert (He : -510 <= (u - a) - (u' - a') <= 510) by (clear - Hu Hu'; lia).
  destruct (far_all _ _ _ Hx He Hyy HF) as [Zd Ze]. clear - Zd Ze. lia.
Qed.

(** The hash of a position, after any prefix, determines the position. *)
Theorem position_hash_inj h l c l' c' :
  (l < 65536)%N -> (l' < 65536)%N -> (c < 256)%N -> (c' < 256)%N ->
  fnv_write (fnv_write h (le_bytes 8 l)) (le_bytes 8 c)
  = fnv_write (fnv_write h (le_bytes 8 l')) (le_bytes 8 c') ->
  l = l' /\ c = c'.
Proof.
  intros Hl Hl' Hc Hc' E. apply col_hash in E; [|assumption|assumption].
  pose proof (line_hash h l Hl) as FY. pose proof (line_hash h l' Hl') as FY'.
  assert (LT : forall u, (u * P7z) mod M64 < M64).
  { intros u. apply Z.mod_pos_bound. unfold M64. lia. }
  rewrite !lxor_range in E; try assumption; try (rewrite FY; apply LT); try (rewrite FY'; apply LT).
  apply N2Z.inj in E.
  assert (LL : l = l').
  { assert (Hblk : (fnv_write h (le_bytes 8 l) / 256 = fnv_write h (le_bytes 8 l') / 256)%N).
    { rewrite <- (lxor_block (fnv_write h (le_bytes 8 l)) c Hc), E. apply lxor_block. exact Hc'. }
    apply block_dist in Hblk.
    assert (Hm : forall n : N, (n mod 256 < 256)%N) by (intros n; apply N.mod_lt; lia).
    assert (Hq : (l / 256 < 256)%N) by (apply N.div_lt_upper_bound; lia).
    assert (Hq' : (l' / 256 < 256)%N) by (apply N.div_lt_upper_bound; lia).
    destruct (fnv_byte_mult h (l mod 256)) as [q ZA]. destruct (fnv_byte_mult h (l' mod 256)) as [q' ZA'].
    destruct (arith _ _ _ _ _ _ _ _ q q'
      (block_dist (N.lxor h (l mod 256)) (N.lxor h (l' mod 256))
         (eq_trans (lxor_block _ _ (Hm l)) (eq_sym (lxor_block _ _ (Hm l')))))
      ZA ZA' (block_dist _ _ (lxor_block _ _ Hq)) (block_dist _ _ (lxor_block _ _ Hq')) FY FY' Hblk)
      as [E0 E1].
    apply N2Z.inj, lxor_cancel in E0. rewrite E0 in E1.
    assert (E2 : Z.of_N (N.lxor (fnv_byte h (l' mod 256)) (l / 256))
               = Z.of_N (N.lxor (fnv_byte h (l' mod 256)) (l' / 256))) by lia.
    apply N2Z.inj, lxor_cancel in E2.
    rewrite (N.div_mod l 256), (N.div_mod l' 256) by lia. rewrite E0, E2. reflexivity. }
  split; [exact LL|]. subst l'. exact (lxor_cancel _ _ _ E).
Qed.
