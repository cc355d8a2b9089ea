(** C91-C94: integer constants and the integer types of ffi_11. *)
From Coq Require Import ZArith List Bool Lia.
From Verif Require Import Ints.Model Ints.Spec.
Import ListNotations.
Local Open Scope Z_scope.

(** * C91 *)
(** Whatever the platform, the type and the value: a constant is either left out with an error report, and then its value
    does not fit in 64 bits with a sign, or it has in Rust the value it has in C++.  Missing: negative values of plain char
    and the 2^63 largest values of unsigned __int128 (both refuted below). *)
Lemma mod64 v : (0 <= v < 2 ^ 64 -> v mod 2 ^ 64 = v) /\ (- 2 ^ 63 <= v < 0 -> v mod 2 ^ 64 = v + 2 ^ 64).
Proof.
  split; intros H.
  - apply Z.mod_small; lia.
  - symmetry. apply Z.mod_unique with (-1); lia.
Qed.

Lemma in_rangeb_true i v : in_range i v -> in_rangeb i v = true.
Proof. intros [A C]. apply andb_true_intro; split; [apply Z.leb_le | apply Z.ltb_lt]; assumption. Qed.

Lemma literal_ok p cs x v (E : exists_type x) (V : cpp_value p cs x v) (B : x <> PBool) (C : x <> PChar) :
  rustc p (rust_type_of p x) (match primitive_name x with Native _ => ELit v | Ffi11 c => ENew c (ELit v) end) = Some v.
Proof.
  destruct x; try congruence; destruct p; lazy -[in_rangeb];
    (match goal with |- context [in_rangeb ?i v] => replace (in_rangeb i v) with true; [reflexivity | symmetry; apply in_rangeb_true] end);
    first [exact V | destruct i as [[] n]; exact V].
Qed.

Lemma kept_value cs p x v : cpp_value p cs x v -> exists_type x -> (x = PUint128 -> v < 2 ^ 128 - 2 ^ 63) ->
  fits_64 (if cpp_signed cs x then v else as_signed (cpp_bits p x) v) = true -> - 2 ^ 63 <= v < 2 ^ 64.
Proof.
  intros V E U F.
  assert (W : x <> PInt128 -> x <> PUint128 -> - 2 ^ 63 <= v < 2 ^ 64).
  { intros N1 N2.
    assert (K : 1 <= cpp_bits p x <= 64).
    { destruct x; try congruence; try (destruct p; cbn; lia). cbn in E |- *. lia. }
    unfold cpp_value in V. cbv zeta in V.
    assert (2 ^ (cpp_bits p x - 1) <= 2 ^ 63) by (apply Z.pow_le_mono_r; lia).
    assert (2 ^ cpp_bits p x <= 2 ^ 64) by (apply Z.pow_le_mono_r; lia).
    destruct (cpp_signed cs x); lia. }
  destruct x; try (apply W; congruence).
  - cbn [cpp_signed] in F. unfold fits_64 in F. apply andb_prop in F as [A B]. apply Z.leb_le in A. apply Z.ltb_lt in B. lia.
  - specialize (U eq_refl). unfold cpp_value in V. cbn [cpp_signed cpp_bits] in *. unfold fits_64, as_signed in F.
    destruct (Z.ltb_spec v (2 ^ (128 - 1))); apply andb_prop in F as [A B]; apply Z.leb_le in A; apply Z.ltb_lt in B; lia.
Qed.

Lemma token_value x v : - 2 ^ 63 <= v < 2 ^ 64 -> x <> PBool -> x <> PChar ->
  token_stream x (v <? 0, v mod 2 ^ 64) = match primitive_name x with Native _ => ELit v | Ffi11 c => ENew c (ELit v) end.
Proof.
  intros R NB NC.
  assert (L : (if v <? 0 then as_i64 (v mod 2 ^ 64) else v mod 2 ^ 64) = v).
  { destruct (mod64 v) as [A C]. destruct (Z.ltb_spec v 0).
    - rewrite C by lia. unfold as_i64. destruct (Z.ltb_spec (v + 2 ^ 64) (2 ^ 63)); lia.
    - rewrite A by lia. reflexivity. }
  destruct x; try congruence; cbn [token_stream]; rewrite L; reflexivity.
Qed.

Theorem C91_constant_has_same_value_partial p cs x v :
  exists_type x -> cpp_value p cs x v ->
  (x = PChar -> 0 <= v) -> (x = PUint128 -> v < 2 ^ 128 - 2 ^ 63) ->
  constant p x (cpp_signed cs x) (cpp_bits p x) v = Some (Some v)
  \/ constant p x (cpp_signed cs x) (cpp_bits p x) v = Some None /\ ~ (- 2 ^ 63 <= v < 2 ^ 63).
Proof.
  intros E V C U. unfold constant, from_ap.
  destruct (fits_64 _) eqn:F.
  - left. pose proof (kept_value cs p x v V E U F) as R.
    destruct (mod64 v) as [A _].
    assert (Hb : x = PBool \/ x = PChar \/ (x <> PBool /\ x <> PChar)) by (destruct x; auto; right; right; split; congruence).
    destruct Hb as [-> | [-> | [NB NC]]].
    + unfold cpp_value in V. cbn in V. assert (v = 0 \/ v = 1) as [-> | ->] by lia; reflexivity.
    + specialize (C eq_refl). rewrite A by lia.
      assert (v < 256) by (unfold cpp_value in V; destruct cs; cbn in V; lia).
      cbn [token_stream primitive_name]. destruct (Z.ltb_spec v 0); [lia|].
      unfold rust_type_of; cbn [primitive_name ffi rustc]. destruct (c_type_eq CChar CChar); [|congruence].
      cbn [u8 rustc int_of]. unfold in_rangeb; cbn.
      destruct (Z.leb_spec 0 v); [|lia]. destruct (Z.ltb_spec v 256); [|lia]. reflexivity.
    + rewrite token_value by assumption. rewrite (literal_ok p cs x v E V NB NC). reflexivity.
  - right. split; [reflexivity|]. intros R. unfold fits_64 in F.
    assert (W : (if cpp_signed cs x then v else as_signed (cpp_bits p x) v) = v \/ - 2 ^ 63 <= (if cpp_signed cs x then v else as_signed (cpp_bits p x) v) < 2 ^ 63).
    { destruct (cpp_signed cs x) eqn:S; [auto|]. unfold as_signed. unfold cpp_value in V. rewrite S in V.
      destruct (Z.ltb_spec v (2 ^ (cpp_bits p x - 1))); [auto|]. right.
      assert (cpp_bits p x <= 64 -> 2 ^ cpp_bits p x <= 2 ^ 64) by (intros; apply Z.pow_le_mono_r; lia).
      assert (B : 1 <= cpp_bits p x).
      { destruct x; try (destruct p; cbn; lia). cbn in E |- *. lia. }
      assert (D : 2 ^ cpp_bits p x = 2 * 2 ^ (cpp_bits p x - 1)).
      { replace (cpp_bits p x) with (Z.succ (cpp_bits p x - 1)) at 1 by lia. rewrite Z.pow_succ_r by lia. reflexivity. }
      destruct (Z.le_gt_cases (cpp_bits p x) 64).
      - lia.
      - assert (2 ^ 64 <= 2 ^ (cpp_bits p x - 1)) by (apply Z.pow_le_mono_r; lia). lia. }
    apply andb_false_iff in F. destruct F as [F|F]; [apply Z.leb_gt in F | apply Z.ltb_ge in F]; lia.
Qed.
Print Assumptions C91_constant_has_same_value_partial.

Example C91_long_on_llp64 : constant LLP64 PLong true 32 (-7) = Some (Some (-7)). Proof. reflexivity. Qed.
Example C91_ulong_max : constant LP64_long_long PUlong false 64 (2 ^ 64 - 1) = Some (Some (2 ^ 64 - 1)). Proof. reflexivity. Qed.
Example C91_char_200 : constant LP64 PChar false 8 200 = Some (Some 200). Proof. reflexivity. Qed.

(** [constexpr char c = -1;] where char is signed: the generated code is an error. *)
Theorem C91_negative_char_refuted : exists p v, cpp_value p true PChar v /\ constant p PChar true 8 v = None.
Proof. exists LP64, (-1). split; [unfold cpp_value; cbn; lia | reflexivity]. Qed.
Print Assumptions C91_negative_char_refuted.
(** It is so for every negative char. *)
Theorem C91_every_negative_char_refuted p v : cpp_value p true PChar v -> v < 0 -> constant p PChar true 8 v = None.
Proof.
  intros V L. unfold cpp_value in V; cbn in V. unfold constant, from_ap, fits_64.
  destruct (Z.leb_spec (- 2 ^ 63) v); [|lia]. destruct (Z.ltb_spec v (2 ^ 63)); [|lia].
  cbn [andb]. destruct (mod64 v) as [_ M]. rewrite M by lia. destruct (Z.ltb_spec v 0); [|lia].
  cbn [token_stream primitive_name]. unfold as_i64. destruct (Z.ltb_spec (v + 2 ^ 64) (2 ^ 63)); [lia|].
  unfold rust_type_of; cbn [primitive_name ffi rustc]. destruct (c_type_eq CChar CChar); [|congruence].
  cbn [u8 rustc int_of]. unfold in_rangeb. change (low u8) with 0. destruct (Z.leb_spec 0 (v + 2 ^ 64 - 2 ^ 64)); [lia|]. reflexivity.
Qed.
Print Assumptions C91_every_negative_char_refuted.
(** The largest unsigned __int128: the binding compiles and has another value. *)
Theorem C91_uint128_refuted : exists v, cpp_value LP64 true PUint128 v /\ constant LP64 PUint128 false 128 v = Some (Some (2 ^ 64 - 1)) /\ v <> 2 ^ 64 - 1.
Proof. exists (2 ^ 128 - 1). split; [unfold cpp_value; cbn; lia|]. split; [reflexivity|]. vm_compute. congruence. Qed.
Print Assumptions C91_uint128_refuted.
(** A value that is in the documented range [-2^63, 2^64), and is reported as too large. *)
Theorem C91_documented_range_refuted : exists v, cpp_value LP64 true PUint128 v /\ - 2 ^ 63 <= v < 2 ^ 64 /\ constant LP64 PUint128 false 128 v = Some None.
Proof. exists (2 ^ 63). split; [unfold cpp_value; cbn; lia|]. split; [lia | reflexivity]. Qed.
Print Assumptions C91_documented_range_refuted.

(** * C92 *)
Theorem C92_distinct_types_stay_distinct p c d : ffi p c = ffi p d -> c = d.
Proof. destruct p, c, d; cbn; intros; try reflexivity; discriminate. Qed.
Print Assumptions C92_distinct_types_stay_distinct.

Theorem C92_builtin_iff_stdint p c i : ffi p c = B (Fixed i) <-> stdint p i = Some c.
Proof.
  split.
  - destruct p, c; cbn; intros [= <-]; reflexivity.
  - destruct i as [[] n]; unfold stdint; cbn [sgn bits];
      destruct n as [|n|]; try discriminate;
      repeat (destruct n as [n|n|]; try discriminate); intros [= <-]; destruct p; reflexivity.
Qed.
Print Assumptions C92_builtin_iff_stdint.
(** "Exactly one of [c_long] or [c_longlong] will be [i64]". *)
Theorem C92_one_is_i64 p : (ffi p CLong = B (Fixed i64)) <> (ffi p CLonglong = B (Fixed i64)) /\ (ffi p CLong = B (Fixed i64) \/ ffi p CLonglong = B (Fixed i64)).
Proof.
  split.
  - destruct p; intros E.
    all: match type of E with ?P = ?Q => first [ assert (P) as H by reflexivity; rewrite E in H; discriminate | assert (Q) as H by reflexivity; rewrite <- E in H; discriminate ] end.
  - destruct p; auto.
Qed.
Print Assumptions C92_one_is_i64.

(** Widths agree with C++, and signedness too, but for char and wchar_t. *)
Theorem C92_width_and_sign p cs ws c i : (ffi p c = B (Fixed i) \/ ffi p c = N c i) ->
  c_bits p c = Some (bits i) /\ (c <> CChar -> c <> CWchar -> sgn i = c_signed cs ws c).
Proof. intros [E|E]; destruct p, c; cbn in *; inversion E; subst; split; auto; congruence. Qed.
Print Assumptions C92_width_and_sign.
(** Every C++ integer type has such a type. *)
Theorem C92_every_type p c n : c_bits p c = Some n -> exists i, (ffi p c = B (Fixed i) \/ ffi p c = N c i) /\ bits i = n.
Proof. destruct p, c; cbn; intros [= <-]; eexists; (split; [auto|reflexivity]). Qed.
Print Assumptions C92_every_type.
Theorem C92_cfi_encoding p c i : ffi p c = N c i \/ ffi p c = NullptrT -> cfi_encoding c = itanium c /\ cfi_encoding c <> None.
Proof. intros [E|E]; destruct p, c; cbn in *; try discriminate; split; congruence. Qed.
Print Assumptions C92_cfi_encoding.

(** * C93 *)
(** Every conversion offered is one core's [From] can do. *)
Lemma core_from_to i y : existsb (builtin_eq y) (to_builtin i) = true -> core_from (Fixed i) y = true.
Proof.
  destruct i as [[] n]; unfold to_builtin; cbn [sgn bits];
    destruct n as [|n|]; try discriminate;
    repeat (destruct n as [n|n|]; try discriminate);
    destruct y as [[[] m]| | | | | |]; cbn; try discriminate; try reflexivity;
    rewrite ?orb_true_iff, ?Z.eqb_eq; intros H; repeat (destruct H as [H|H]; try discriminate; try (subst m; reflexivity)).
Qed.
Lemma core_from_from x j : existsb (builtin_eq x) (from_builtin j) = true -> core_from x (Fixed j) = true.
Proof.
  destruct j as [[] n]; unfold from_builtin; cbn [sgn bits];
    destruct n as [|n|]; try discriminate;
    repeat (destruct n as [n|n|]; try discriminate);
    destruct x as [[[] m]| | | | | |]; cbn; try discriminate; try reflexivity;
    rewrite ?orb_true_iff, ?Z.eqb_eq; intros H; repeat (destruct H as [H|H]; try discriminate; try (subst m; reflexivity)).
Qed.

(** A conversion does not change the number, and the target can hold it: nothing is lost. [Reinterpret] (between c_char and i8)
    is dealt with below. *)
Lemma core_from_holds p a b v : (forall i, a = Fixed i \/ b = Fixed i -> In (bits i) [8; 16; 32; 64; 128]) ->
  core_from a b = true -> holds p (B a) v -> holds p (B b) v.
Proof.
  intros W.
  assert (Wa : forall i, a = Fixed i -> In (bits i) [8; 16; 32; 64; 128]) by auto.
  assert (Wb : forall i, b = Fixed i -> In (bits i) [8; 16; 32; 64; 128]) by auto. clear W.
  destruct a as [[sa na]| | | | | |], b as [[sb nb]| | | | | |]; try discriminate; try (intros _ H; exact H);
    try specialize (Wa _ eq_refl); try specialize (Wb _ eq_refl);
    cbn [bits In] in *;
    repeat match goal with H : _ \/ _ |- _ => destruct H as [H|H] | H : False |- _ => destruct H end; subst;
    try destruct sa; try destruct sb; cbn [core_from sgn bits]; try (intros K; discriminate K);
    intros _; cbn [holds]; unfold in_range, low, high; cbn [sgn bits]; try (intros; lia); destruct p; cbn; intros; lia.
Qed.

Lemma ffi_bits p c i : ffi p c = B (Fixed i) \/ ffi p c = N c i -> In (bits i) [8; 16; 32; 64; 128].
Proof. intros [E|E]; destruct p, c; cbn in E; inversion E; cbn; auto 8. Qed.
Lemma known_fixed p i : known p (B (Fixed i)) -> In (bits i) [8; 16; 32; 64; 128].
Proof.
  intros [[c E]|[[j [E K]]|[E|[E|E]]]]; try discriminate.
  - apply (ffi_bits p c). auto.
  - inversion E; subst. assumption.
Qed.
Lemma ffi_name p c d i : ffi p c = N d i -> c = d.
Proof. destruct p, c; cbn; intros E; inversion E; reflexivity. Qed.
Lemma known_newtype p c i : known p (N c i) -> ffi p c = N c i.
Proof.
  intros [[d E]|[[j [E _]]|[E|[E|E]]]]; try discriminate.
  symmetry in E. pose proof (ffi_name p d c i E). subst. assumption.
Qed.
Lemma newtype_core p c d i j : ffi p c = N c i -> ffi p d = N d j ->
  existsb (fun q => (if c_type_eq (fst q) c then true else false) && (if c_type_eq (snd q) d then true else false)) (newtype_from p) = true ->
  core_from (Fixed i) (Fixed j) = true.
Proof.
  intros A C. destruct p, c; cbn in A; try discriminate; inversion A; subst; destruct d; cbn in C; try discriminate; inversion C; subst;
    vm_compute; intros H; exact H || discriminate H.
Qed.

Lemma holds_newtype p c i v : holds p (N c i) v = holds p (B (Fixed i)) v. Proof. reflexivity. Qed.

Lemma core_sound p a b x y : (a = B x \/ exists c i, a = N c i /\ x = Fixed i /\ known p a) -> (b = B y \/ exists c i, b = N c i /\ y = Fixed i /\ known p b) ->
  known p a -> known p b -> core_from x y = true -> lossless p a b.
Proof.
  intros A C Ka Kb E v.
  assert (Ha : holds p a v = holds p (B x) v) by (destruct A as [-> | (c & i & -> & -> & _)]; reflexivity).
  assert (Hb : holds p b v = holds p (B y) v) by (destruct C as [-> | (c & i & -> & -> & _)]; reflexivity).
  rewrite Ha, Hb. apply core_from_holds; [|assumption].
  intros i [Q|Q]; subst.
  - destruct A as [-> | (c & k & -> & [= <-] & _)].
    + apply (known_fixed p). assumption.
    + apply (ffi_bits p c). right. apply known_newtype. assumption.
  - destruct C as [-> | (c & k & -> & [= <-] & _)].
    + apply (known_fixed p). assumption.
    + apply (ffi_bits p c). right. apply known_newtype. assumption.
Qed.

(** Every conversion the crate offers (and those of core between builtin types): its implementation type checks, all values
    survive it, and it does not change the number; or it is between c_char and i8. *)
Theorem C93_conversions_are_lossless p a b im : known p a -> known p b -> conversion p a b = Some im ->
  (exists x y, im = Core x y /\ core_from x y = true /\ lossless p a b /\ forall v, convert im b v = v)
  \/ im = Reinterpret /\ (a = ffi p CChar /\ b = B (Fixed i8) \/ a = B (Fixed i8) /\ b = ffi p CChar).
Proof.
  intros Ka Kb E.
  assert (Core_case : forall x y, im = Core x y -> (a = B x \/ exists c i, a = N c i /\ x = Fixed i) -> (b = B y \/ exists c i, b = N c i /\ y = Fixed i) ->
            core_from x y = true -> exists x y, im = Core x y /\ core_from x y = true /\ lossless p a b /\ forall v, convert im b v = v).
  { intros x y -> A C F. exists x, y. repeat split; auto.
    apply (core_sound p a b x y); auto.
    - destruct A as [A|(c & i & A & Q)]; [auto|]. right. exists c, i. auto.
    - destruct C as [A'|(c & i & A' & Q)]; [auto|]. right. exists c, i. auto. }
  destruct a as [x|c i|], b as [y|d j|].
  - assert (D : conversion p (B x) (B y) = if core_from x y then Some (Core x y) else None).
    { destruct x as [[[] n]| | | | | |]; try reflexivity.
      destruct n as [|n|]; try reflexivity. repeat (destruct n as [n|n|]; try reflexivity). }
    rewrite D in E. destruct (core_from x y) eqn:F; [|discriminate]. inversion E; subst. left. eauto.
  - pose proof (known_newtype p d j Kb) as Fd.
    assert (D : conversion p (B x) (N d j) = Some Reinterpret /\ x = Fixed i8 /\ d = CChar
                \/ conversion p (B x) (N d j) = if existsb (builtin_eq x) (from_builtin j) then Some (Core x (Fixed j)) else None).
    { destruct x as [[[] n]| | | | | |]; try (right; destruct d; reflexivity).
      destruct (Z.eq_dec n 8) as [-> |].
      - destruct d; try (right; reflexivity). left. repeat split.
      - right. destruct n as [|n|]; try (destruct d; reflexivity).
        repeat (destruct n as [n|n|]; try (destruct d; reflexivity)); exfalso; auto. }
    destruct D as [[D [-> ->]]|D]; rewrite D in E.
    + inversion E; subst. right. split; [reflexivity|]. right. auto.
    + destruct (existsb _ _) eqn:X; [|discriminate]. inversion E; subst. left.
      apply (Core_case x (Fixed j)); eauto. apply core_from_from. assumption.
  - exfalso. revert E. destruct x as [[[] n]| | | | | |]; try discriminate.
    destruct n as [|n|]; try discriminate. repeat (destruct n as [n|n|]; try discriminate).
  - pose proof (known_newtype p c i Ka) as Fc.
    assert (D : conversion p (N c i) (B y) = Some Reinterpret /\ y = Fixed i8 /\ c = CChar
                \/ conversion p (N c i) (B y) = if existsb (builtin_eq y) (to_builtin i) then Some (Core (Fixed i) y) else None).
    { destruct y as [[[] n]| | | | | |]; try (right; destruct c; reflexivity).
      destruct (Z.eq_dec n 8) as [-> |].
      - destruct c; try (right; reflexivity). left. repeat split.
      - right. destruct n as [|n|]; try (destruct c; reflexivity).
        repeat (destruct n as [n|n|]; try (destruct c; reflexivity)); exfalso; auto. }
    destruct D as [[D [-> ->]]|D]; rewrite D in E.
    + inversion E; subst. right. split; [reflexivity|]. left. auto.
    + destruct (existsb _ _) eqn:X; [|discriminate]. inversion E; subst. left.
      apply (Core_case (Fixed i) y); eauto. apply core_from_to. assumption.
  - pose proof (known_newtype p c i Ka) as Fc. pose proof (known_newtype p d j Kb) as Fd.
    assert (D : conversion p (N c i) (N d j) = if c_type_eq c d then Some (Core (Fixed i) (Fixed i))
      else if existsb (fun q => (if c_type_eq (fst q) c then true else false) && (if c_type_eq (snd q) d then true else false)) (newtype_from p)
           then Some (Core (Fixed i) (Fixed j)) else None) by (destruct c; reflexivity).
    rewrite D in E. destruct (c_type_eq c d) as [<- |].
    + assert (i = j) by congruence. subst j. inversion E; subst. left. apply (Core_case (Fixed i) (Fixed i)); eauto.
      cbn. destruct (sgn i); apply Z.leb_refl.
    + destruct (existsb _ _) eqn:X; [|discriminate]. inversion E; subst. left.
      apply (Core_case (Fixed i) (Fixed j)); eauto. apply (newtype_core p c d); assumption.
  - exfalso. destruct c; discriminate.
  - discriminate.
  - discriminate.
  - discriminate.
Qed.
Print Assumptions C93_conversions_are_lossless.

(** c_char and i8: the same bits, and no value is lost either way. *)
Theorem C93_char_i8_round_trip v :
  (in_range i8 v -> in_range u8 (convert Reinterpret (N CChar u8) v)
                    /\ convert Reinterpret (N CChar u8) v mod 2 ^ 8 = v mod 2 ^ 8
                    /\ convert Reinterpret (B (Fixed i8)) (convert Reinterpret (N CChar u8) v) = v)
  /\ (in_range u8 v -> in_range i8 (convert Reinterpret (B (Fixed i8)) v)
                    /\ convert Reinterpret (B (Fixed i8)) v mod 2 ^ 8 = v mod 2 ^ 8
                    /\ convert Reinterpret (N CChar u8) (convert Reinterpret (B (Fixed i8)) v) = v).
Proof.
  unfold in_range, low, high, convert; cbn -[Z.modulo Z.ltb]. change (Z.pow_pos 2 8) with 256. change (Z.pow_pos 2 7) with 128.
  split; intros R.
  - assert (M : v mod 256 = v \/ v mod 256 = v + 256 /\ v < 0).
    { destruct (Z.lt_ge_cases v 0); [right; split; [symmetry; apply Z.mod_unique with (-1); lia | assumption] | left; apply Z.mod_small; lia]. }
    pose proof (Z.mod_pos_bound v 256 eq_refl).
    destruct (Z.ltb_spec (v mod 256) 128); rewrite ?Zmod_mod; repeat split; lia.
  - destruct (Z.ltb_spec v 128); repeat split; try lia.
    + apply Z.mod_small; lia.
    + rewrite (Z.mod_small v 256) by lia. symmetry. apply Z.mod_unique with (-1); lia.
    + symmetry. apply Z.mod_unique with (-1); lia.
Qed.
Print Assumptions C93_char_i8_round_trip.
Theorem C93_char_converts_to_i8_and_u8 p : conversion p (ffi p CChar) (B (Fixed i8)) <> None /\ conversion p (B (Fixed i8)) (ffi p CChar) <> None
  /\ conversion p (ffi p CChar) (B (Fixed u8)) <> None /\ conversion p (B (Fixed u8)) (ffi p CChar) <> None.
Proof. destruct p; repeat split; discriminate. Qed.
Print Assumptions C93_char_converts_to_i8_and_u8.

(** Which lossless conversions exist.  To and from builtin types of a fixed width: all, but u64 to i128 and u16, u32 to i64.
    Missing: those, isize and usize, and newtypes to newtypes. *)
Lemma fits_bounds p i j c : lossless p (N c i) (B (Fixed j)) -> In (bits i) [8; 16; 32; 64; 128] -> low j <= low i /\ high i <= high j.
Proof.
  intros L W.
  assert (low i < high i).
  { destruct i as [[] n]; unfold low, high; cbn [sgn bits In] in *; destruct W as [<-|[<-|[<-|[<-|[<-|[]]]]]]; reflexivity. }
  pose proof (L (low i)) as A. pose proof (L (high i - 1)) as C. cbn [holds] in A, C. unfold in_range in A, C. lia.
Qed.
Lemma fits_bounds' p i j c : lossless p (B (Fixed j)) (N c i) -> In (bits j) [8; 16; 32; 64; 128] -> low i <= low j /\ high j <= high i.
Proof. intros L W. apply (fits_bounds p j i c); assumption. Qed.

Theorem C93_to_builtin_complete_partial p c i j : ffi p c = N c i -> In (bits j) [8; 16; 32; 64; 128] ->
  lossless p (N c i) (B (Fixed j)) -> (i, j) <> (u64, i128) -> conversion p (N c i) (B (Fixed j)) <> None.
Proof.
  intros F W L X. destruct (fits_bounds p i j c L (ffi_bits p c i (or_intror F))) as [A C].
  destruct j as [[] n]; cbn [bits In] in W; destruct W as [<-|[<-|[<-|[<-|[<-|[]]]]]];
    destruct p, c; cbn in F; try discriminate F; inversion F; subst;
    first [vm_compute; discriminate | exfalso; apply A; reflexivity | exfalso; apply C; reflexivity | exfalso; apply X; reflexivity].
Qed.
Print Assumptions C93_to_builtin_complete_partial.
Theorem C93_from_builtin_complete_partial p c i j : ffi p c = N c i -> In (bits j) [8; 16; 32; 64; 128] ->
  lossless p (B (Fixed j)) (N c i) -> (j, i) <> (u16, i64) -> (j, i) <> (u32, i64) -> conversion p (B (Fixed j)) (N c i) <> None.
Proof.
  intros F W L X Y. destruct (fits_bounds' p i j c L W) as [A C].
  destruct j as [[] n]; cbn [bits In] in W; destruct W as [<-|[<-|[<-|[<-|[<-|[]]]]]];
    destruct p, c; cbn in F; try discriminate F; inversion F; subst;
    first [vm_compute; discriminate | exfalso; apply A; reflexivity | exfalso; apply C; reflexivity | exfalso; apply X; reflexivity | exfalso; apply Y; reflexivity].
Qed.
Print Assumptions C93_from_builtin_complete_partial.

Theorem C93_all_lossless_conversions_refuted :
  (lossless LP64 (ffi LP64 CUlonglong) (B (Fixed i128)) /\ conversion LP64 (ffi LP64 CUlonglong) (B (Fixed i128)) = None)
  /\ (lossless LP64 (B (Fixed u32)) (ffi LP64 CLonglong) /\ conversion LP64 (B (Fixed u32)) (ffi LP64 CLonglong) = None)
  /\ (lossless LP64 (ffi LP64 CUint) (ffi LP64 CLonglong) /\ conversion LP64 (ffi LP64 CUint) (ffi LP64 CLonglong) = None)
  /\ (lossless LP64 (ffi LP64 CChar8) (ffi LP64 CUlonglong) /\ conversion LP64 (ffi LP64 CChar8) (ffi LP64 CUlonglong) = None)
  /\ (lossless LP64 (ffi LP64 CChar8) (B Isize) /\ conversion LP64 (ffi LP64 CChar8) (B Isize) = None).
Proof.
  repeat match goal with |- _ /\ _ => split end; try reflexivity; intros v; cbn; unfold in_range, low, high; cbn; lia.
Qed.
Print Assumptions C93_all_lossless_conversions_refuted.

(** The examples of the documentation. *)
Theorem C93_documented_examples p : conversion p (ffi p CInt) (ffi p CLong) <> None /\ conversion p (ffi p CInt) (ffi p CUlong) = None
  /\ conversion p (B (Fixed i32)) (ffi p CInt) <> None.
Proof. destruct p; repeat split; discriminate. Qed.
Print Assumptions C93_documented_examples.

Example C93_char_to_long_windows : conversion LLP64 (ffi LLP64 CChar) (ffi LLP64 CLong) = Some (Core (Fixed u8) (Fixed i32)) /\ known LLP64 (ffi LLP64 CChar).
Proof. split; [reflexivity|]. left. exists CChar. reflexivity. Qed.

(** * C94 *)
(** On the bits of two values that came from C++: they compare in Rust as in C++, and any conversion to an integer type gives the
    number they stand for in C++.  Missing: char and wchar_t where they are signed. *)
Theorem C94_numbers_agree_partial p cs ws c i x y :
  (ffi p c = B (Fixed i) \/ ffi p c = N c i) -> (c = CChar -> cs = false) -> (c = CWchar -> ws = false) ->
  let cpp := number (c_signed cs ws c) (bits i) in
  let rust := number (sgn i) (bits i) in
  c_bits p c = Some (bits i)
  /\ (rust x ?= rust y) = (cpp x ?= cpp y)
  /\ (forall b im, conversion p (ffi p c) b = Some im -> im <> Reinterpret -> convert im b (rust x) = cpp x).
Proof.
  intros F C W. cbv zeta.
  assert (S : sgn i = c_signed cs ws c).
  { destruct F as [F|F]; destruct p, c; cbn in *; inversion F; subst; cbn; try reflexivity; symmetry; auto. }
  rewrite <- S. split; [apply (C92_width_and_sign p cs ws c i F)|]. split; [reflexivity|].
  intros b [u v|] _ H; [reflexivity|congruence].
Qed.
Print Assumptions C94_numbers_agree_partial.
Example C94_long : number true 64 (2 ^ 64 - 1) = -1 /\ ffi LP64 CLong = B (Fixed (Int true 64)). Proof. split; reflexivity. Qed.

(** Where char is signed, [char(-1) < 'a'], and widened to int it is -1; as a [c_char] it is greater than ['a'] and widens to 255. *)
Theorem C94_signed_char_refuted p : exists x y im,
  (number true 8 x ?= number true 8 y) = Lt
  /\ ffi p CChar = N CChar u8 /\ (number (sgn u8) (bits u8) x ?= number (sgn u8) (bits u8) y) = Gt
  /\ conversion p (ffi p CChar) (ffi p CInt) = Some im /\ convert im (ffi p CInt) (number (sgn u8) (bits u8) x) = 255 /\ number true 8 x = -1.
Proof. exists 255, 97, (Core (Fixed u8) (Fixed i32)). repeat split. Qed.
Print Assumptions C94_signed_char_refuted.
(** Where wchar_t is signed (Linux), the same. *)
Theorem C94_signed_wchar_refuted : exists x y,
  (number true 32 x ?= number true 32 y) = Lt /\ ffi LP64 CWchar = N CWchar u32 /\ (number (sgn u32) (bits u32) x ?= number (sgn u32) (bits u32) y) = Gt.
Proof. exists (2 ^ 32 - 1), 97. repeat split. Qed.
Print Assumptions C94_signed_wchar_refuted.
