(** C61-C64. *)
From Coq Require Import List NArith Bool Arith Lia.
From Verif.RsOption Require Import Model Spec.
Import ListNotations.
Local Open Scope list_scope.

(** * Bytes *)
Lemma get_ext m m' off n : (forall a, off <= a < off + n -> m a = m' a) -> get m off n = get m' off n.
Proof. intro H. unfold get. apply map_ext_in. intros i I. apply in_seq in I. apply H. lia. Qed.
Lemma get_length m off n : length (get m off n) = n.
Proof. unfold get. now rewrite map_length, seq_length. Qed.
Lemma get_nth m off n i d : i < n -> nth i (get m off n) d = m (off + i).
Proof. intro H. unfold get. rewrite (nth_indep _ d (m (off + 0))) by (rewrite map_length, seq_length; lia). rewrite (map_nth (fun i => m (off + i)) (seq 0 n) 0 i), seq_nth by lia. reflexivity. Qed.
Lemma put_in m off bs a : off <= a < off + length bs -> put m off bs a = nth (a - off) bs 0%N.
Proof. intro H. unfold put. destruct (Nat.leb_spec off a); [|lia]. destruct (Nat.ltb_spec a (off + length bs)); [reflexivity|lia]. Qed.
Lemma put_out m off bs a : ~ off <= a < off + length bs -> put m off bs a = m a.
Proof. intro H. unfold put. destruct (Nat.leb_spec off a); [|reflexivity]. destruct (Nat.ltb_spec a (off + length bs)); [lia|reflexivity]. Qed.
Lemma get_put m off bs n : n = length bs -> get (put m off bs) off n = bs.
Proof.
  intros ->. apply nth_ext with (d := 0%N) (d' := 0%N); [apply get_length|]. intros i I. rewrite get_length in I. rewrite get_nth by exact I. rewrite put_in by lia. f_equal. lia.
Qed.
Lemma get_put_apart m off bs o n : apart o n off (length bs) -> get (put m off bs) o n = get m o n.
Proof. intro A. apply get_ext. intros a Ha. apply put_out. unfold apart in A. lia. Qed.
Lemma get_scramble_apart m off k junk o n : apart o n off k -> get (scramble m off k junk) o n = get m o n.
Proof. intro A. apply get_ext. intros a Ha. unfold scramble. unfold apart in A. destruct (Nat.leb_spec off a), (Nat.ltb_spec a (off + k)); cbn; try reflexivity. lia. Qed.
Lemma get_put_inside m bs o n : o + n <= length bs -> get (put m 0 bs) o n = firstn n (skipn o bs).
Proof.
  intro H. apply nth_ext with (d := 0%N) (d' := 0%N); [rewrite get_length, firstn_length, skipn_length; lia|]. intros i I. rewrite get_length in I. rewrite get_nth by exact I. rewrite put_in by lia.
  rewrite Nat.sub_0_r. assert (E : nth (o + i) bs 0%N = nth i (skipn o bs) 0%N). { rewrite <- (firstn_skipn o bs) at 1. rewrite app_nth2; rewrite firstn_length; [f_equal; lia|lia]. }
  rewrite E. rewrite <- (firstn_skipn n (skipn o bs)) at 1. rewrite app_nth1; [reflexivity|rewrite firstn_length, skipn_length; lia].
Qed.
Lemma loop_writes (g : nat -> N) off n : forall m a, fold_left (fun m i => upd m (off + i) (g i)) (seq 0 n) m a = if (off <=? a) && (a <? off + n) then g (a - off) else m a.
Proof.
  induction n as [|n IH]; intros m a.
  - cbn [seq fold_left]. destruct (Nat.leb_spec off a), (Nat.ltb_spec a (off + 0)); cbn; try reflexivity. lia.
  - rewrite seq_S, fold_left_app. cbn [fold_left]. unfold upd at 1. rewrite IH. cbn [Nat.add]. destruct (Nat.eqb_spec a (off + n)) as [->|N].
    + destruct (Nat.leb_spec off (off + n)), (Nat.ltb_spec (off + n) (off + S n)); try lia. cbn. f_equal. lia.
    + destruct (Nat.leb_spec off a), (Nat.ltb_spec a (off + n)), (Nat.ltb_spec a (off + S n)); cbn; try reflexivity; lia.
Qed.
Lemma le_length w : forall v, length (le_bytes w v) = w.
Proof. induction w as [|w IH]; intro v; cbn [le_bytes length]; [|rewrite IH]; reflexivity. Qed.
Lemma native_length l w v : length (native_bytes l w v) = w.
Proof. unfold native_bytes. destruct l; [|rewrite rev_length]; apply le_length. Qed.
Lemma le_value_bytes w : forall v, le_value (le_bytes w v) = (v mod 256 ^ N.of_nat w)%N.
Proof.
  induction w as [|w IH]; intro v; [now rewrite N.mod_1_r|]. cbn [le_bytes le_value]. rewrite IH. replace (N.of_nat (S w)) with (N.succ (N.of_nat w)) by lia. rewrite N.pow_succ_r'. rewrite N.mod_mul_r by (try apply N.pow_nonzero; lia). reflexivity.
Qed.
Lemma native_value_bytes l w v : native_value l (native_bytes l w v) = (v mod 256 ^ N.of_nat w)%N.
Proof. unfold native_value, native_bytes. destruct l; [|rewrite rev_involutive]; apply le_value_bytes. Qed.
Lemma le_value_lt bs : Forall (fun b => (b < 256)%N) bs -> (le_value bs < 256 ^ N.of_nat (length bs))%N.
Proof.
  induction 1 as [|b bs H _ IH]; [reflexivity|]. cbn [le_value length]. replace (N.of_nat (S (length bs))) with (N.succ (N.of_nat (length bs))) by lia. rewrite N.pow_succ_r'. lia.
Qed.
Lemma native_value_lt l bs : Forall (fun b => (b < 256)%N) bs -> (native_value l bs < 256 ^ N.of_nat (length bs))%N.
Proof. intro H. unfold native_value. destruct l; [now apply le_value_lt|]. rewrite <- rev_length. apply le_value_lt. rewrite Forall_forall in *. intros x I. apply H. now apply in_rev. Qed.
Lemma modulus_nz L : modulus L <> 0%N.
Proof. unfold modulus. apply N.pow_nonzero. lia. Qed.
(** C64: the generated loops write and read the tag as Rust does, for the supported byte orders. *)
Lemma endian_index_supported L i : supported L -> i < tag_size L -> endian_index L i = i.
Proof. intros [H|H] Hi; unfold endian_index; [now rewrite H|]. destruct (little L); [reflexivity|lia]. Qed.
Lemma tag_get L m : supported L -> get (tag_bytes L m) 0 (tag_size L) = get m (tag_off L) (tag_size L).
Proof.
  intro S. unfold tag_bytes. assert (E : forall b, fold_left (fun b i => upd b (endian_index L i) (m (tag_off L + i))) (seq 0 (tag_size L)) b = fold_left (fun b i => upd b (0 + i) (m (tag_off L + i))) (seq 0 (tag_size L)) b).
  { intro b. assert (G : forall l b, (forall i, In i l -> i < tag_size L) -> fold_left (fun b i => upd b (endian_index L i) (m (tag_off L + i))) l b = fold_left (fun b i => upd b (0 + i) (m (tag_off L + i))) l b).
    { induction l as [|i l IH]; intros b' H; [reflexivity|]. cbn [fold_left]. rewrite endian_index_supported by (auto; apply H; now left). apply IH. intros j J. apply H. now right. }
    apply G. intros i I. apply in_seq in I. lia. }
  rewrite E. apply nth_ext with (d := 0%N) (d' := 0%N); [now rewrite !get_length|]. intros i I. rewrite get_length in I. rewrite !get_nth by exact I. rewrite loop_writes. cbn [Nat.leb andb Nat.add]. destruct (Nat.ltb_spec i (tag_size L)); [|lia]. now rewrite Nat.sub_0_r.
Qed.
Theorem C64_tag_read L m : supported L -> tag L m = rust_tag L m.
Proof. intro S. unfold tag, rust_tag. now rewrite tag_get. Qed.
Print Assumptions C64_tag_read.
Lemma set_tag_at L t m a : set_tag L t m a = if (tag_off L <=? a) && (a <? tag_off L + tag_size L) then nth (endian_index L (a - tag_off L)) (native_bytes (little L) (tag_size L) t) 0%N else m a.
Proof. unfold set_tag. apply loop_writes. Qed.
Theorem C64_tag_write L t m : supported L -> (t < modulus L)%N -> rust_tag L (set_tag L t m) = t /\ forall a, ~ tag_off L <= a < tag_off L + tag_size L -> set_tag L t m a = m a.
Proof.
  intros S H. split.
  - unfold rust_tag. assert (E : get (set_tag L t m) (tag_off L) (tag_size L) = native_bytes (little L) (tag_size L) t).
    { apply nth_ext with (d := 0%N) (d' := 0%N); [now rewrite get_length, native_length|]. intros i I. rewrite get_length in I. rewrite get_nth by exact I. rewrite set_tag_at. destruct (Nat.leb_spec (tag_off L) (tag_off L + i)), (Nat.ltb_spec (tag_off L + i) (tag_off L + tag_size L)); try lia. cbn [andb]. rewrite endian_index_supported by (auto; lia). f_equal. lia. }
    rewrite E, native_value_bytes. now apply N.mod_small.
  - intros a Ha. rewrite set_tag_at. destruct (Nat.leb_spec (tag_off L) a), (Nat.ltb_spec a (tag_off L + tag_size L)); cbn; try reflexivity. lia.
Qed.
Print Assumptions C64_tag_write.
(** On big-endian targets, tags of more than one byte are written with their bytes reversed: an [Option<u32>] made in C++ from a
    value has tag 0x01000000, which Rust does not read as [Some]. *)
Definition big_u32 : layout := Layout false 0 4 (Direct (fun v => match v with V0 => 0%N | V1 => 1%N end)) (fun v => match v with V0 => 0 | V1 => 4 end) (fun v => match v with V0 => 0 | V1 => 4 end).
Theorem C64_big_endian_refuted : exists L ok, layout_ok L ok /\ option_layout L /\ exists bs s, ok V1 bs /\ make_some L bs (fun _ => 0%N) = Done s /\ rust_tag L (mem s) = 0x1000000%N /\ rust_variant L (mem s) = None.
Proof.
  exists big_u32, (fun v bs => length bs = pay_size big_u32 v /\ Forall (fun b => (b < 256)%N) bs). split.
  - split; [auto|]. cbn [enc big_u32]. split; [vm_compute; discriminate|]. intros [|]; cbn; unfold apart; lia.
  - split; [split; [reflexivity|exact Logic.I]|]. exists [7; 0; 0; 0]%N. eexists. split; [split; [reflexivity|repeat constructor]|]. split; [reflexivity|]. split; vm_compute; reflexivity.
Qed.
Print Assumptions C64_big_endian_refuted.

Lemma firstn_skipn_in {A} (x : A) n o l : In x (firstn n (skipn o l)) -> In x l.
Proof. intro I. rewrite <- (firstn_skipn o l). apply in_or_app. right. rewrite <- (firstn_skipn n (skipn o l)). apply in_or_app. left. exact I. Qed.
(** * Variants *)
Section Variants.
Context (L : layout) (ok : var -> bytes -> Prop) (W : layout_ok L ok) (S : supported L).
Local Notation M := (modulus L).
Lemma relative t k : (t < M)%N -> (k < M)%N -> ((t + (M - k)) mod M = 0 <-> t = k)%N.
Proof.
  intros Ht Hk. split; [|intros ->; replace (k + (M - k))%N with M by lia; apply N.mod_same, modulus_nz].
  intro H. destruct (N.lt_ge_cases t k) as [Lt|Ge].
  - rewrite N.mod_small in H by lia. lia.
  - replace (t + (M - k))%N with (t - k + 1 * M)%N in H by lia. rewrite N.mod_add in H by apply modulus_nz. rewrite N.mod_small in H by lia. lia.
Qed.
Lemma relative_l t k : (t < M)%N -> (k < M)%N -> ((t + (M - k)) mod M = 0)%N -> t = k.
Proof. intros. now apply relative. Qed.
Lemma relative_r t k : (t < M)%N -> (k < M)%N -> t = k -> ((t + (M - k)) mod M = 0)%N.
Proof. intros. now apply relative. Qed.
Definition tagged (m : memory) (v : var) : Prop :=
  match enc L with Direct d => rust_tag L m = (d v mod M)%N | Niche start _ u => if var_eqb u v then True else rust_tag L m = (start mod M)%N end.
Lemma mod_lt k : (k mod M < M)%N.
Proof. apply N.mod_lt, modulus_nz. Qed.
Lemma var_val_eq v : match enc L with Direct d => var_val L v = (d v mod M)%N | Niche start _ u => v = other u -> var_val L v = (start mod M)%N end.
Proof.
  pose proof (ok_enc _ _ W) as E. unfold var_val, literal. fold M. destruct (enc L) as [d|start nv u]; [reflexivity|]. destruct E as (-> & _). intros ->. rewrite Nat.sub_diag. now rewrite N.add_0_r.
Qed.
Lemma set_var_tag_ok v s : tagged (mem (set_var_tag L v s)) v /\ live (set_var_tag L v s) = live s /\ (rust_tag L (mem s) < M -> rust_tag L (mem (set_var_tag L v s)) < M)%N.
Proof.
  pose proof (var_val_eq v) as E. unfold set_var_tag, tagged, set_tag_st. destruct (enc L) as [d|start nv u].
  - cbn [mem live]. rewrite E. destruct (C64_tag_write L (d v mod M)%N (mem s) S (mod_lt _)) as [-> _]. split; [reflexivity|]. split; [reflexivity|]. intros _. apply mod_lt.
  - destruct (var_eqb u v) eqn:U; [auto|]. cbn [mem live]. rewrite E by (destruct u, v; try discriminate; reflexivity). destruct (C64_tag_write L (start mod M)%N (mem s) S (mod_lt _)) as [-> _]. split; [reflexivity|]. split; [reflexivity|]. intros _. apply mod_lt.
Qed.
Lemma var_ptr_eq v : var_ptr L v = pay_off L v.
Proof. pose proof (ok_enc _ _ W) as E. unfold var_ptr. destruct (enc L) as [d|start nv u]; [reflexivity|]. destruct E as (_ & E & _). destruct u, v; cbn; congruence. Qed.
(** Writing a payload under the right tag makes Rust read it. *)
Lemma put_var m v bs : tagged m v -> ok v bs -> rust_holds L (put m (var_ptr L v) bs) v bs /\ (rust_tag L (put m (var_ptr L v) bs) < M)%N.
Proof.
  intros T O. destruct (ok_size _ _ W v bs O) as [Ln By]. rewrite var_ptr_eq. unfold rust_holds. rewrite get_put by (symmetry; exact Ln). pose proof (ok_enc _ _ W) as E. unfold tagged in T. unfold rust_variant.
  assert (Ap : forall t, apart (tag_off L) (tag_size L) (pay_off L v) (pay_size L v) -> rust_tag L m = t -> rust_tag L (put m (pay_off L v) bs) = t).
  { intros t A <-. unfold rust_tag. rewrite get_put_apart; [reflexivity|]. now rewrite Ln. }
  destruct (enc L) as [d|start nv u].
  - destruct E as [D A]. rewrite (Ap _ (A v) T). split; [|apply mod_lt]. split; [|reflexivity]. destruct v; [now rewrite N.eqb_refl|]. destruct (N.eqb_spec (d V1 mod M) (d V0 mod M)) as [Eq|_]; [congruence|]. now rewrite N.eqb_refl.
  - destruct E as (_ & P0 & A & In & Ni). destruct (var_eqb u v) eqn:U.
    + assert (u = v) by (destruct u, v; try discriminate; reflexivity). subst u. assert (R : rust_tag L (put m (pay_off L v) bs) = native_value (little L) (firstn (tag_size L) (skipn (tag_off L) bs))) by (unfold rust_tag; rewrite P0, get_put_inside by lia; reflexivity).
      assert (Lt : (rust_tag L (put m (pay_off L v) bs) < M)%N). { rewrite R. assert (Lf : length (firstn (tag_size L) (skipn (tag_off L) bs)) = tag_size L) by (rewrite firstn_length, skipn_length; lia). unfold modulus. rewrite <- Lf at 2. apply native_value_lt. rewrite Forall_forall in *. intros x I. apply By. apply firstn_skipn_in with (1 := I). }
      split; [|exact Lt]. split; [|reflexivity]. destruct (N.eqb_spec ((rust_tag L (put m (pay_off L v) bs) + (M - start mod M)) mod M) 0) as [Eq|_]; [|reflexivity]. apply relative_l in Eq; [|exact Lt|apply mod_lt]. exfalso. apply (Ni bs O). congruence.
    + assert (v = other u) by (destruct u, v; try discriminate; reflexivity). subst v. rewrite (Ap _ A T). split; [|apply mod_lt]. split; [|reflexivity]. destruct (N.eqb_spec ((start mod M + (M - start mod M)) mod M) 0) as [_|N]; [reflexivity|]. exfalso. apply N. now apply relative_r; [apply mod_lt|apply mod_lt|].
Qed.
Lemma variant_tagged m v : rust_variant L m = Some v -> (rust_tag L m < M)%N -> tagged m v.
Proof.
  unfold rust_variant, tagged. intros V Lt. destruct (enc L) as [d|start nv u].
  - destruct (N.eqb_spec (rust_tag L m) (d V0 mod M)); [injection V as <-; assumption|]. destruct (N.eqb_spec (rust_tag L m) (d V1 mod M)); [injection V as <-; assumption|discriminate].
  - destruct (N.eqb_spec ((rust_tag L m + (M - start mod M)) mod M) 0) as [E|E]; injection V as <-.
    + destruct u; cbn; apply relative_l in E; auto using mod_lt.
    + destruct u; exact Logic.I.
Qed.
Lemma tagged_variant m v : tagged m v -> match enc L with Direct _ => True | Niche _ _ u => v = other u end -> rust_variant L m = Some v.
Proof.
  unfold rust_variant, tagged. pose proof (ok_enc _ _ W) as E. destruct (enc L) as [d|start nv u].
  - destruct E as [D _]. intros -> _. destruct v; [now rewrite N.eqb_refl|]. destruct (N.eqb_spec (d V1 mod M) (d V0 mod M)) as [Eq|_]; [congruence|]. now rewrite N.eqb_refl.
  - intros T ->. replace (var_eqb u (other u)) with false in T by (destruct u; reflexivity). rewrite T. destruct (N.eqb_spec ((start mod M + (M - start mod M)) mod M) 0) as [_|N]; [reflexivity|]. exfalso. apply N. now apply relative_r; [apply mod_lt|apply mod_lt|].
Qed.
Lemma has_ok_eq s v : rust_variant L (mem s) = Some v -> (rust_tag L (mem s) < M)%N -> has_ok L s = var_eqb v V0.
Proof.
  intros V Lt. pose proof (var_val_eq V0) as E0. pose proof (var_val_eq V1) as E1. unfold has_ok. rewrite (C64_tag_read L (mem s) S). unfold rust_variant in V. pose proof (ok_enc _ _ W) as E. destruct (enc L) as [d|start nv u].
  - rewrite E0. destruct (N.eqb_spec (rust_tag L (mem s)) (d V0 mod M)); [now injection V as <-|]. destruct (rust_tag L (mem s) =? d V1 mod M)%N; [now injection V as <-|discriminate].
  - destruct u; [rewrite E1 by reflexivity|rewrite E0 by reflexivity]; destruct (N.eqb_spec ((rust_tag L (mem s) + (M - start mod M)) mod M) 0) as [Eq|Ne]; injection V as <-.
    + apply relative_l in Eq; auto using mod_lt. rewrite Eq, N.eqb_refl. reflexivity.
    + destruct (N.eqb_spec (rust_tag L (mem s)) (start mod M)) as [Eq|_]; [|reflexivity]. exfalso. apply Ne. apply relative_r; auto using mod_lt.
    + apply relative_l in Eq; auto using mod_lt. rewrite Eq, N.eqb_refl. reflexivity.
    + destruct (N.eqb_spec (rust_tag L (mem s)) (start mod M)) as [Eq|_]; [|reflexivity]. exfalso. apply Ne. apply relative_r; auto using mod_lt.
Qed.
(** Constructing a payload where none is alive; assigning one. *)
Lemma construct_ok v bs s : live s = None -> ok v bs -> exists s', construct_at v (var_ptr L v) bs (set_var_tag L v s) = Done s' /\ live s' = Some v /\ rust_holds L (mem s') v bs /\ (rust_tag L (mem s') < M)%N.
Proof.
  intros Lv O. destruct (set_var_tag_ok v s) as (T & Lv' & _). unfold construct_at. rewrite Lv', Lv. eexists. split; [reflexivity|]. cbn [live mem]. split; [reflexivity|]. now apply put_var.
Qed.
Lemma assign_to_ok v bs s : live s = Some v -> tagged (mem s) v -> ok v bs -> exists s', assign v (var_ptr L v) bs s = Done s' /\ live s' = Some v /\ rust_holds L (mem s') v bs /\ (rust_tag L (mem s') < M)%N.
Proof.
  intros Lv T O. unfold assign, is_live. rewrite Lv. replace (var_eqb v v) with true by (destruct v; reflexivity). eexists. split; [reflexivity|]. cbn [live mem]. split; [reflexivity|]. now apply put_var.
Qed.
Lemma destroy_ok v off junk s : live s = Some v -> exists s', destroy_at L v off junk s = Done s' /\ live s' = None.
Proof. intro Lv. unfold destroy_at, is_live. rewrite Lv. replace (var_eqb v v) with true by (destruct v; reflexivity). eexists. split; [reflexivity|reflexivity]. Qed.
Lemma read_ok v bs s : live s = Some v -> rust_holds L (mem s) v bs -> read L v (var_ptr L v) s = Done bs.
Proof. intros Lv [_ G]. unfold read, is_live. rewrite Lv, var_ptr_eq. replace (var_eqb v v) with true by (destruct v; reflexivity). now rewrite G. Qed.
Lemma memory_tag m : is_memory m -> (rust_tag L m < M)%N.
Proof. intro H. unfold rust_tag, modulus. rewrite <- (get_length m (tag_off L) (tag_size L)) at 2. apply native_value_lt. apply Forall_forall. intros x I. apply in_map_iff in I as (i & <- & _). apply H. Qed.
End Variants.

(** * Option (C61, C62) *)
Section Option.
Context (L : layout) (ok : var -> bytes -> Prop) (W : layout_ok L ok) (S : supported L) (OL : option_layout L) (T : traits) (moved : bytes -> bytes).
Local Notation M := (modulus L).
Definition inv (s : state) (o : option bytes) : Prop := opt_holds L ok s o /\ (rust_tag L (mem s) < M)%N.
Lemma as_var : some_off L = var_ptr L V1 /\ (forall s, set_some_tag L s = set_var_tag L V1 s) /\ (forall s, set_none_tag L s = set_var_tag L V0 s) /\ (forall s, is_none L s = has_ok L s).
Proof.
  destruct OL as [_ U]. unfold some_off, var_ptr, set_some_tag, set_none_tag, set_var_tag, is_none, has_ok, none_val, var_val. destruct (enc L) as [d|start nv u]; [auto|]. subst u. cbn [var_eqb]. auto.
Qed.
Lemma inv_has_value s o : inv s o -> has_value L s = match o with Some _ => true | None => false end.
Proof.
  intros [H Lt]. unfold has_value. destruct as_var as (_ & _ & _ & ->). destruct o as [bs|]; cbn in H.
  - destruct H as ([V _] & _). now rewrite (has_ok_eq L ok W S s V1 V Lt).
  - destruct H as [V _]. now rewrite (has_ok_eq L ok W S s V0 V Lt).
Qed.
Lemma none_ok s : live s = None -> inv (set_none_tag L s) None.
Proof.
  intro Lv. destruct as_var as (_ & _ & -> & _). destruct (set_var_tag_ok L ok W S V0 s) as (Tg & Lv' & _). destruct OL as [_ U].
  assert (V : rust_variant L (mem (set_var_tag L V0 s)) = Some V0) by (apply (tagged_variant L ok W); [exact Tg|]; destruct (enc L) as [|? ? u]; [exact Logic.I|]; now subst u).
  split; [split; [exact V|congruence]|]. unfold tagged in Tg. destruct (enc L) as [d|start nv u]; [rewrite Tg; apply mod_lt|]. subst u. cbn in Tg. rewrite Tg. apply mod_lt.
Qed.
Lemma some_ok bs s : live s = None -> ok V1 bs -> exists s', construct_at V1 (some_off L) bs (set_some_tag L s) = Done s' /\ inv s' (Some bs).
Proof.
  intros Lv O. destruct as_var as (-> & -> & _). destruct (construct_ok L ok W S V1 bs s Lv O) as (s' & -> & Lv' & H & Lt). exists s'. split; [reflexivity|]. split; [cbn; auto|exact Lt].
Qed.
Lemma reset_ok s o junk : inv s o -> exists s', reset L junk s = Done s' /\ live s' = None.
Proof.
  intro I. unfold reset. rewrite (inv_has_value s o I). destruct I as [H _]. destruct o as [bs|]; cbn in H; [|exists s; now destruct H]. destruct H as (_ & _ & Lv). now apply destroy_ok.
Qed.
Lemma put_some_ok bs s o : inv s (Some o) -> ok V1 bs -> exists s', assign V1 (some_off L) bs s = Done s' /\ inv s' (Some bs).
Proof.
  intros [(H & _ & Lv) Lt] O. destruct as_var as (-> & _). destruct (assign_to_ok L ok W V1 bs s Lv) as (s' & -> & Lv' & H' & Lt'); [apply variant_tagged; [apply H|exact Lt]|exact O|]. exists s'. split; [reflexivity|]. split; [cbn; auto|exact Lt'].
Qed.
Lemma read_some s bs : inv s (Some bs) -> read L V1 (some_off L) s = Done bs.
Proof. intros [(H & _ & Lv) _]. destruct as_var as (-> & _). now apply (read_ok L ok W). Qed.
(** One call does what the reference says. *)
Lemma opt_step_ok s o c : inv s o -> opt_call_ok L ok T o c ->
  match ref_opt T moved c o with
  | None => opt_step L T moved c s = CheckFailed
  | Some (o', x) => exists s', opt_step L T moved c s = Done (s', x) /\ inv s' o'
  end.
Proof.
  intros I C. destruct c as [junk|a junk|x junk|junk| | |bs|m x]; cbn [ref_opt opt_step opt_call_ok] in *.
  - unfold assign_null. destruct (reset_ok s o junk I) as (s1 & -> & Lv). cbn [bind]. eexists. split; [reflexivity|]. now apply none_ok.
  - unfold assign_value. rewrite (inv_has_value s o I). destruct o as [old|].
    + unfold move_assign_or, opt_ptr. destruct (move_assignable T) eqn:Ma.
      * assert (exists bs, value_of L (fun _ => some_off L) a s = Done bs /\ ok V1 bs /\ ref_value (Some old) a = Some bs) as (bs & -> & O & ->).
        { destruct a as [bs|v f]; [exists bs; cbn; auto|]. destruct C as (-> & _ & C). exists (f old). cbn [value_of]. rewrite (read_some s old I). cbn. auto. }
        cbn [bind]. destruct (put_some_ok bs s old I O) as (s1 & -> & I1). cbn [bind]. eexists. split; [reflexivity|exact I1].
      * destruct a as [bs|v f]; [|destruct C as (_ & ? & _); congruence]. destruct I as [(H & _ & Lv) Lt]. unfold destroy_at, is_live. rewrite Lv. cbn [var_eqb bind value_of ref_value].
        destruct as_var as (Po & _). rewrite Po. unfold construct_at. cbn [live mem bind]. eexists. split; [reflexivity|].
        assert (Tg : tagged L (scramble (mem s) (var_ptr L V1) (pay_size L V1) junk) V1).
        { pose proof (variant_tagged L (mem s) V1 (proj1 H) Lt) as Tg. pose proof (ok_enc _ _ W) as E. rewrite (var_ptr_eq L ok W). unfold tagged in *. destruct OL as [_ U]. destruct (enc L) as [d|start nv u]; [|subst u; exact Logic.I]. rewrite <- Tg. unfold rust_tag. rewrite get_scramble_apart; [reflexivity|apply E]. }
        destruct (put_var L ok W _ V1 bs Tg C) as [H' Lt']. split; [cbn; auto|exact Lt'].
    + destruct a as [bs|v f]; [|now destruct C as (_ & _ & C)]. cbn [value_of bind ref_value]. destruct I as [[_ Lv] _]. destruct (some_ok bs s Lv C) as (s1 & -> & I1). cbn [bind]. eexists. split; [reflexivity|exact I1].
  - unfold assign_std. destruct (reset_ok s o junk I) as (s1 & -> & Lv). cbn [bind]. unfold from_std. destruct x as [bs|].
    + destruct (some_ok bs s1 Lv C) as (s2 & -> & I2). cbn [bind]. destruct (relocatable T); [|destruct (move_constructible T)]; cbn [bind fst snd]; eexists; (split; [reflexivity|exact I2]).
    + cbn [bind fst snd]. eexists. split; [reflexivity|]. now apply none_ok.
  - unfold to_std. rewrite (inv_has_value s o I). destruct o as [bs|]; cbn [negb]; [|cbn; eexists; split; [reflexivity|exact I]]. destruct (relocatable T).
    + pose proof (read_some s bs I) as R. unfold read in R. unfold relocate_out. destruct (is_live V1 s); [|discriminate]. injection R as ->. cbn [bind fst snd]. eexists. split; [reflexivity|]. now apply none_ok.
    + rewrite (read_some s bs I). cbn [bind]. destruct I as [(H & _ & Lv) _]. unfold assign, is_live. rewrite Lv. cbn [var_eqb bind]. unfold destroy_at, is_live. cbn [live var_eqb bind fst snd]. eexists. split; [reflexivity|]. now apply none_ok.
  - rewrite (inv_has_value s o I). eexists. split; [reflexivity|exact I].
  - unfold deref. rewrite (inv_has_value s o I). destruct o as [bs|]; [|reflexivity]. rewrite (read_some s bs I). cbn. eexists. split; [reflexivity|exact I].
  - unfold poke. rewrite (inv_has_value s o I). destruct o as [old|]; [|reflexivity]. destruct (put_some_ok bs s old I C) as (s1 & -> & I1). cbn. eexists. split; [reflexivity|exact I1].
  - destruct C as [Hm C]. eexists. split; [reflexivity|]. split; [|now apply memory_tag]. destruct x as [bs|]; cbn; [destruct C; auto|auto].
Qed.
Lemma opt_run_ok o cs r : history (ref_opt T moved) (opt_call_ok L ok T) o cs r -> forall s, inv s o ->
  match r with
  | None => run (opt_step L T moved) cs s = CheckFailed
  | Some (o', xs) => exists s', run (opt_step L T moved) cs s = Done (s', xs) /\ inv s' o'
  end.
Proof.
  induction 1 as [o|o c cs C E|o c o' x cs r C E H IH]; intros s I.
  - exists s. auto.
  - pose proof (opt_step_ok s o c I C) as G. rewrite E in G. cbn [run]. now rewrite G.
  - pose proof (opt_step_ok s o c I C) as G. rewrite E in G. destruct G as (s1 & G & I1). specialize (IH s1 I1). cbn [run]. rewrite G. cbn [bind fst snd]. destruct r as [[o2 xs]|]; cbn [option_map fst snd].
    + destruct IH as (s2 & -> & I2). exists s2. auto.
    + now rewrite IH.
Qed.
Lemma opt_drop_ok s o junk nd : inv s o -> exists s', opt_drop L nd junk s = Done s' /\ live s' = None.
Proof. intro I. unfold opt_drop. destruct nd; [now apply (reset_ok s o)|]. eexists. split; reflexivity. Qed.
End Option.
(** Constructors, with the value they make. *)
Inductive opt_ctor := CNone | CSome (bs : bytes) | CStd (o : option bytes).
Definition ctor_value (c : opt_ctor) : option bytes := match c with CNone => None | CSome bs => Some bs | CStd o => o end.
Definition ctor_run (L : layout) (T : traits) (moved : bytes -> bytes) (c : opt_ctor) (m : memory) : res state :=
  match c with CNone => make_none L m | CSome bs => make_some L bs m | CStd o => do p <- make_std L T moved o m; Done (fst p) end.
Lemma ctor_ok L ok T moved c m : layout_ok L ok -> supported L -> option_layout L -> match ctor_value c with Some bs => ok V1 bs | None => True end ->
  exists s, ctor_run L T moved c m = Done s /\ inv L ok s (ctor_value c).
Proof.
  intros W S OL C. destruct c as [|bs|[bs|]]; cbn [ctor_value ctor_run] in *.
  - eexists. split; [reflexivity|]. now apply none_ok.
  - unfold make_some. destruct (some_ok L ok W S OL bs (State m None) eq_refl C) as (s & -> & I). eauto.
  - unfold make_std, from_std. destruct (some_ok L ok W S OL bs (State m None) eq_refl C) as (s & -> & I). cbn [bind]. exists s. destruct (relocatable T); [|destruct (move_constructible T)]; cbn; auto.
  - eexists. split; [reflexivity|]. now apply none_ok.
Qed.
(** C61: after any constructor and any history of calls from C++ and Rust, Rust reads the bytes as the value that [std::optional]
    would have, all results are the same, and checks fail exactly when they should; C62: and never is a payload constructed over
    another, destroyed or read when not alive; it is alive exactly if the value is there, and the destructor ends it. *)
Theorem C61_option_histories L ok T moved c m cs r : layout_ok L ok -> supported L -> option_layout L -> match ctor_value c with Some bs => ok V1 bs | None => True end ->
  history (ref_opt T moved) (opt_call_ok L ok T) (ctor_value c) cs r ->
  exists s, ctor_run L T moved c m = Done s /\ opt_holds L ok s (ctor_value c) /\
  match r with
  | None => run (opt_step L T moved) cs s = CheckFailed
  | Some (o, xs) => exists s', run (opt_step L T moved) cs s = Done (s', xs) /\ opt_holds L ok s' o
  end.
Proof.
  intros W S OL C H. destruct (ctor_ok L ok T moved c m W S OL C) as (s & E & I). exists s. split; [exact E|]. split; [apply I|]. pose proof (opt_run_ok L ok W S OL T moved _ _ _ H s I) as G. destruct r as [[o xs]|]; [|exact G]. destruct G as (s' & G & I'). exists s'. split; [exact G|apply I'].
Qed.
Print Assumptions C61_option_histories.
Theorem C62_option_destructor L ok T moved c m cs o xs nd junk : layout_ok L ok -> supported L -> option_layout L -> match ctor_value c with Some bs => ok V1 bs | None => True end ->
  history (ref_opt T moved) (opt_call_ok L ok T) (ctor_value c) cs (Some (o, xs)) ->
  exists s s' s'', ctor_run L T moved c m = Done s /\ run (opt_step L T moved) cs s = Done (s', xs) /\ opt_drop L nd junk s' = Done s'' /\ live s'' = None.
Proof.
  intros W S OL C H. destruct (ctor_ok L ok T moved c m W S OL C) as (s & E & I). destruct (opt_run_ok L ok W S OL T moved _ _ _ H s I) as (s' & G & I'). destruct (opt_drop_ok L ok W S OL s' o junk nd I') as (s'' & D & Lv). exists s, s', s''. auto.
Qed.
Print Assumptions C62_option_destructor.

(** * Result (C63) *)
Section Result.
Context (L : layout) (ok : var -> bytes -> Prop) (W : layout_ok L ok) (S : supported L) (T : traits).
Local Notation M := (modulus L).
Definition rinv (s : state) (r : var * bytes) : Prop := res_holds L ok s r /\ (rust_tag L (mem s) < M)%N.
Lemma scramble_tagged m v junk : tagged L m v -> tagged L (scramble m (var_ptr L v) (pay_size L v) junk) v.
Proof.
  intro Tg. pose proof (ok_enc _ _ W) as E. rewrite (var_ptr_eq L ok W). unfold tagged in *. destruct (enc L) as [d|start nv u].
  - rewrite <- Tg. unfold rust_tag. rewrite get_scramble_apart; [reflexivity|apply E].
  - destruct (var_eqb u v) eqn:U; [exact Logic.I|]. assert (v = other u) by (destruct u, v; try discriminate; reflexivity). subst v. rewrite <- Tg. unfold rust_tag. rewrite get_scramble_apart; [reflexivity|apply E].
Qed.
(** Assigning to the variant that is there. *)
Lemma same_variant v old a junk s : rinv s (v, old) -> res_arg_ok ok T (v, old) v a ->
  exists s', move_assign_or L T (var_ptr L) v a junk (set_var_tag L v s) = Done s' /\ rinv s' (v, ref_res_value (v, old) a).
Proof.
  intros [(H & O & Lv) Lt] C. cbn [fst snd] in *. destruct (set_var_tag_ok L ok W S v s) as (Tg & Lv' & _). rewrite Lv in Lv'.
  assert (Ho : rust_holds L (mem (set_var_tag L v s)) v old).
  { pose proof (ok_enc _ _ W) as E. unfold set_var_tag. pose proof (var_val_eq L ok W v) as Vv. pose proof (variant_tagged L _ _ (proj1 H) Lt) as Tg0. unfold tagged in Tg0, Tg. unfold set_var_tag in Tg.
    assert (G : forall t, apart (tag_off L) (tag_size L) (pay_off L v) (pay_size L v) -> get (mem (set_tag_st L t s)) (pay_off L v) (pay_size L v) = old).
    { intros t Ap. destruct H as [_ <-]. apply get_ext. intros b Hb. cbn [mem set_tag_st]. rewrite set_tag_at. unfold apart in Ap. destruct (Nat.leb_spec (tag_off L) b), (Nat.ltb_spec b (tag_off L + tag_size L)); cbn; try reflexivity. lia. }
    unfold rust_holds, rust_variant in *. destruct (enc L) as [d|start nv u].
    - split; [|apply G, E]. rewrite Tg. rewrite Tg0 in H. apply H.
    - destruct (var_eqb u v) eqn:U; [exact H|]. assert (v = other u) by (destruct u, v; try discriminate; reflexivity). subst v. split; [|apply G, E]. rewrite Tg. rewrite Tg0 in H. apply H. }
  unfold move_assign_or. destruct (move_assignable T) eqn:Ma.
  - assert (exists bs, value_of L (var_ptr L) a (set_var_tag L v s) = Done bs /\ ok v bs /\ ref_res_value (v, old) a = bs) as (bs & -> & Ob & ->).
    { destruct a as [bs|w f]; [exists bs; cbn in *; auto|]. destruct C as (-> & _ & _ & C). exists (f old). cbn [value_of fst]. rewrite (read_ok L ok W v old _ Lv' Ho). cbn. auto. }
    cbn [bind]. destruct (assign_to_ok L ok W v bs _ Lv' Tg Ob) as (s' & -> & Lv'' & H'' & Lt''). exists s'. split; [reflexivity|]. split; [split; [exact H''|auto]|exact Lt''].
  - destruct a as [bs|w f]; [|destruct C as (_ & _ & ? & _); congruence]. unfold destroy_at, is_live. rewrite Lv'. replace (var_eqb v v) with true by (destruct v; reflexivity). cbn [bind value_of]. unfold construct_at. cbn [live mem]. eexists. split; [reflexivity|].
    destruct (put_var L ok W _ v bs (scramble_tagged _ _ junk Tg) C) as [H' Lt']. split; [split; [exact H'|cbn; auto]|exact Lt'].
Qed.
(** And to the other one. *)
Lemma other_variant v w old a junk s : rinv s (w, old) -> v = other w -> res_arg_ok ok T (w, old) v a ->
  exists s', (do s1 <- destroy_at L w (var_ptr L w) junk s; let s2 := set_var_tag L v s1 in do bs <- value_of L (var_ptr L) a s2; construct_at v (var_ptr L v) bs s2) = Done s' /\ rinv s' (v, ref_res_value (w, old) a).
Proof.
  intros [(H & O & Lv) Lt] Ev C. cbn [fst snd] in *. destruct (destroy_ok L w (var_ptr L w) junk s Lv) as (s1 & -> & Lv1). cbn [bind]. destruct a as [bs|u f]; [|exfalso; destruct C as (E1 & E2 & _); cbn in E1; destruct w; cbn in Ev; congruence]. cbn [value_of bind ref_res_value].
  destruct (construct_ok L ok W S v bs s1 Lv1 C) as (s' & -> & Lv' & H' & Lt'). exists s'. split; [reflexivity|]. split; [split; [exact H'|cbn; auto]|exact Lt'].
Qed.
Lemma res_step_ok s r c : rinv s r -> res_call_ok L ok T r c ->
  match ref_res c r with
  | None => res_step L T c s = CheckFailed
  | Some (r', x) => exists s', res_step L T c s = Done (s', x) /\ rinv s' r'
  end.
Proof.
  intros I C. destruct r as [v old]. assert (Ok : has_ok L s = var_eqb v V0) by (destruct I as [((V & _) & _) Lt]; now apply (has_ok_eq L ok W S)).
  assert (Rd : read L v (var_ptr L v) s = Done old) by (destruct I as [(H & _ & Lv) _]; now apply (read_ok L ok W)).
  assert (Pk : forall bs, ok v bs -> exists s', assign v (var_ptr L v) bs s = Done s' /\ rinv s' (v, bs)).
  { intros bs Ob. destruct I as [(H & _ & Lv) Lt]. destruct (assign_to_ok L ok W v bs s Lv (variant_tagged L _ _ (proj1 H) Lt) Ob) as (s' & E & Lv' & H' & Lt'). exists s'. split; [exact E|]. split; [split; [exact H'|auto]|exact Lt']. }
  destruct c as [a junk|a junk| | | |bs|bs|m w bs]; cbn [ref_res res_step res_call_ok fst snd] in *.
  - unfold assign_ok. rewrite Ok. destruct v; cbn [var_eqb negb].
    + destruct (same_variant V0 old a junk s I C) as (s' & -> & I'). exists s'. auto.
    + destruct (other_variant V0 V1 old a junk s I eq_refl C) as (s' & E & I'). cbn zeta in E |- *. rewrite E. exists s'. auto.
  - unfold assign_err. rewrite Ok. destruct v; cbn [var_eqb negb].
    + destruct (other_variant V1 V0 old a junk s I eq_refl C) as (s' & E & I'). cbn zeta in E |- *. rewrite E. exists s'. auto.
    + destruct (same_variant V1 old a junk s I C) as (s' & -> & I'). exists s'. auto.
  - rewrite Ok. exists s. auto.
  - unfold res_value. rewrite Ok. destruct v; cbn [var_eqb]; [|reflexivity]. rewrite Rd. exists s. auto.
  - unfold res_error. rewrite Ok. destruct v; cbn [var_eqb negb]; [reflexivity|]. rewrite Rd. exists s. auto.
  - unfold poke_value. rewrite Ok. destruct v; cbn [var_eqb]; [|reflexivity]. destruct (Pk bs C) as (s' & -> & I'). exists s'. auto.
  - unfold poke_error. rewrite Ok. destruct v; cbn [var_eqb negb]; [reflexivity|]. destruct (Pk bs C) as (s' & -> & I'). exists s'. auto.
  - destruct C as (Hm & H & O). eexists. split; [reflexivity|]. split; [split; [exact H|auto]|now apply memory_tag].
Qed.
Lemma res_run_ok r cs x : history ref_res (res_call_ok L ok T) r cs x -> forall s, rinv s r ->
  match x with
  | None => run (res_step L T) cs s = CheckFailed
  | Some (r', xs) => exists s', run (res_step L T) cs s = Done (s', xs) /\ rinv s' r'
  end.
Proof.
  induction 1 as [r|r c cs C E|r c r' y cs x C E H IH]; intros s I.
  - exists s. auto.
  - pose proof (res_step_ok s r c I C) as G. rewrite E in G. cbn [run]. now rewrite G.
  - pose proof (res_step_ok s r c I C) as G. rewrite E in G. destruct G as (s1 & G & I1). specialize (IH s1 I1). cbn [run]. rewrite G. cbn [bind fst snd]. destruct x as [[r2 xs]|]; cbn [option_map fst snd].
    + destruct IH as (s2 & -> & I2). exists s2. auto.
    + now rewrite IH.
Qed.
End Result.
(** C63: the same for [Result] and [std::expected]. *)
Theorem C63_result_histories L ok T v bs m cs r : layout_ok L ok -> supported L -> ok v bs -> history ref_res (res_call_ok L ok T) (v, bs) cs r ->
  exists s, make_var L v bs m = Done s /\ res_holds L ok s (v, bs) /\
  match r with
  | None => run (res_step L T) cs s = CheckFailed
  | Some (r', xs) => exists s', run (res_step L T) cs s = Done (s', xs) /\ res_holds L ok s' r'
  end.
Proof.
  intros W S O H. destruct (construct_ok L ok W S v bs (State m None) eq_refl O) as (s & E & Lv & Hh & Lt). exists s. split; [exact E|]. assert (I : rinv L ok s (v, bs)) by (split; [split; [exact Hh|auto]|exact Lt]). split; [apply I|].
  pose proof (res_run_ok L ok W S T _ _ _ H s I) as G. destruct r as [[r' xs]|]; [|exact G]. destruct G as (s' & G & I'). exists s'. split; [exact G|apply I'].
Qed.
Print Assumptions C63_result_histories.
Theorem C63_result_destructor L ok T v bs m cs r xs nd junk : layout_ok L ok -> supported L -> ok v bs -> history ref_res (res_call_ok L ok T) (v, bs) cs (Some (r, xs)) ->
  exists s s' s'', make_var L v bs m = Done s /\ run (res_step L T) cs s = Done (s', xs) /\ res_drop L nd junk s' = Done s'' /\ live s'' = None.
Proof.
  intros W S O H. destruct (construct_ok L ok W S v bs (State m None) eq_refl O) as (s & E & Lv & Hh & Lt). assert (I : rinv L ok s (v, bs)) by (split; [split; [exact Hh|auto]|exact Lt]).
  destruct (res_run_ok L ok W S T _ _ _ H s I) as (s' & G & I'). destruct r as [w old]. destruct I' as [(H' & _ & Lv') Lt']. cbn [fst snd] in *.
  assert (exists s'', res_drop L nd junk s' = Done s'' /\ live s'' = None) as (s'' & D & Z).
  { unfold res_drop. destruct nd; [|eexists; split; reflexivity]. rewrite (has_ok_eq L ok W S s' w (proj1 H') Lt'). destruct w; cbn [var_eqb]; now apply destroy_ok. }
  exists s, s', s''. auto.
Qed.
Print Assumptions C63_result_destructor.

(** * What is not promised *)
(** Assigning an option's own value to it, if the type has no assignment: the value is destroyed before it is read.  Likewise
    for a result assigned a value converted from its own error. *)
Definition u8_opt : layout := Layout true 0 1 (Direct (fun v => match v with V0 => 0%N | V1 => 1%N end)) (fun v => match v with V0 => 0 | V1 => 1 end) (fun v => match v with V0 => 0 | V1 => 1 end).
Definition u8_res : layout := Layout true 0 1 (Direct (fun v => match v with V0 => 0%N | V1 => 1%N end)) (fun _ => 1) (fun _ => 1).
Definition sized (L : layout) (v : var) (bs : bytes) : Prop := length bs = pay_size L v /\ Forall (fun b => (b < 256)%N) bs.
Lemma u8_opt_ok : layout_ok u8_opt (sized u8_opt) /\ supported u8_opt /\ option_layout u8_opt.
Proof. split; [split; [auto|cbn [enc u8_opt]; split; [vm_compute; discriminate|intros [|]; cbn; unfold apart; lia]]|]. split; [now left|]. split; [reflexivity|exact Logic.I]. Qed.
Lemma u8_res_ok : layout_ok u8_res (sized u8_res) /\ supported u8_res.
Proof. split; [split; [auto|cbn [enc u8_res]; split; [vm_compute; discriminate|intros [|]; cbn; unfold apart; lia]]|]. now left. Qed.
Theorem C62_own_value_refuted : exists L ok T s bs, layout_ok L ok /\ supported L /\ option_layout L /\ opt_holds L ok s (Some bs) /\ forall junk, assign_value L T (Own V1 (fun b => b)) junk s = Undefined.
Proof.
  exists u8_opt, (sized u8_opt), (Traits false true false), (State (fun a => match a with 0 => 1%N | _ => 7%N end) (Some V1)), [7%N]. destruct u8_opt_ok as (A & B & C). split; [exact A|]. split; [exact B|]. split; [exact C|].
  split; [split; [split; reflexivity|]; split; [split; [reflexivity|repeat constructor]|reflexivity]|]. reflexivity.
Qed.
Print Assumptions C62_own_value_refuted.
Theorem C63_own_error_refuted : exists L ok s bs, layout_ok L ok /\ supported L /\ res_holds L ok s (V1, bs) /\ forall T junk f, assign_ok L T (Own V1 f) junk s = Undefined.
Proof.
  exists u8_res, (sized u8_res), (State (fun a => match a with 0 => 1%N | _ => 7%N end) (Some V1)), [7%N]. destruct u8_res_ok as (A & B). split; [exact A|]. split; [exact B|].
  split; [split; [split; reflexivity|]; split; [split; [reflexivity|repeat constructor]|reflexivity]|]. reflexivity.
Qed.
Print Assumptions C63_own_error_refuted.

(** * The hypotheses are met *)
(** [Option<bool>] uses the niche 2 of [bool]. *)
Definition bool_opt : layout := Layout true 0 1 (Niche 2 0 V1) (fun _ => 0) (fun v => match v with V0 => 0 | V1 => 1 end).
Definition is_bool (v : var) (bs : bytes) : Prop := match v with V0 => bs = [] | V1 => bs = [0%N] \/ bs = [1%N] end.
Lemma bool_opt_ok : layout_ok bool_opt is_bool /\ supported bool_opt /\ option_layout bool_opt.
Proof.
  split; [|split; [now left|split; reflexivity]]. split.
  - intros [|] bs H; cbn in H; [subst; split; [reflexivity|constructor]|]. destruct H as [->| ->]; (split; [reflexivity|repeat constructor]).
  - cbn [enc bool_opt]. split; [reflexivity|]. split; [reflexivity|]. split; [cbn; unfold apart; lia|]. split; [cbn; lia|]. intros bs H. cbn in H. destruct H as [->| ->]; vm_compute; discriminate.
Qed.
Example bool_history : history (ref_opt (Traits false true true) (fun b => b)) (opt_call_ok bool_opt is_bool (Traits false true true)) None
  [OHasValue; OValue (Other [1%N]) (fun _ => 9%N); ODeref; OValue (Own V1 (fun b => b)) (fun _ => 9%N); ORust (fun _ => 0%N) (Some [0%N]); OToStd (fun _ => 1%N); ODeref] None.
Proof.
  apply (history_step _ _ None OHasValue None (Flag false) _ None); [exact Logic.I|reflexivity|]. eapply (history_step _ _ None _ (Some [1%N]) Nothing _ None); [cbn; auto|reflexivity|]. eapply (history_step _ _ _ _ (Some [1%N]) (Held (Some [1%N])) _ None); [exact Logic.I|reflexivity|].
  eapply (history_step _ _ _ _ (Some [1%N]) Nothing _ None); [cbn; auto|reflexivity|]. eapply (history_step _ _ _ _ (Some [0%N]) Nothing _ None); [|reflexivity|].
  - cbn. split; [intro a; reflexivity|]. split; [split; reflexivity|auto].
  - eapply (history_step _ _ _ _ None (Held (Some [0%N])) _ None); [exact Logic.I|reflexivity|]. apply history_stop; [exact Logic.I|reflexivity].
Qed.
