(** C57-C60. *)
From Coq Require Import List NArith Bool Arith Lia ZifyClasses ZifyInst ZArith.
From Verif.RsStd Require Import Model Spec.
Import ListNotations.
Local Open Scope N_scope.
Local Open Scope list_scope.
Ltac Zify.zify_post_hook ::= Z.to_euclidean_division_equations.

(** * The encoding, arithmetically *)
Definition enc (v : N) : bytes :=
  if v <? 0x80 then [v]
  else if v <? 0x800 then [0xC0 + v / 64; 0x80 + v mod 64]
  else if v <? 0x10000 then [0xE0 + v / 4096; 0x80 + v / 64 mod 64; 0x80 + v mod 64]
  else [0xF0 + v / 262144; 0x80 + v / 4096 mod 64; 0x80 + v / 64 mod 64; 0x80 + v mod 64].
Lemma below n (P : N -> bool) : forallb P (map N.of_nat (seq 0 (N.to_nat n))) = true -> forall x, x < n -> P x = true.
Proof. intros H x Hx. rewrite forallb_forall in H. apply H. apply in_map_iff. exists (N.to_nat x). split; [lia|]. apply in_seq. lia. Qed.
Lemma or_80 x : x < 64 -> N.lor x 0x80 = 0x80 + x.
Proof. intro H. apply N.eqb_eq. revert x H. apply below. reflexivity. Qed.
Lemma or_C0 x : x < 32 -> N.lor x 0xC0 = 0xC0 + x.
Proof. intro H. apply N.eqb_eq. revert x H. apply below. reflexivity. Qed.
Lemma or_E0 x : x < 16 -> N.lor x 0xE0 = 0xE0 + x.
Proof. intro H. apply N.eqb_eq. revert x H. apply below. reflexivity. Qed.
Lemma or_F0 x : x < 8 -> N.lor x 0xF0 = 0xF0 + x.
Proof. intro H. apply N.eqb_eq. revert x H. apply below. reflexivity. Qed.
Lemma cont_eq x : cont x = 0x80 + x mod 64.
Proof. unfold cont, u8. change 0x3f with (N.ones 6). rewrite N.land_ones. change (2 ^ 6) with 64. rewrite (N.mod_small (x mod 64) 256) by lia. apply or_80. lia. Qed.
Lemma written_enc v : v < 0x200000 -> written v = enc v.
Proof.
  intro H. unfold written, enc, len_utf8. destruct (N.ltb_spec v 0x80); [f_equal; unfold u8; lia|]. destruct (N.ltb_spec v 0x800).
  - rewrite cont_eq, N.shiftr_div_pow2. change (2 ^ 6) with 64. change 0x1f with (N.ones 5). rewrite N.land_ones. change (2 ^ 5) with 32. unfold u8. rewrite or_C0 by lia. f_equal. lia.
  - destruct (N.ltb_spec v 0x10000); rewrite !cont_eq, !N.shiftr_div_pow2.
    + change (2 ^ 6) with 64. change (2 ^ 12) with 4096. change 0x0f with (N.ones 4). rewrite N.land_ones. change (2 ^ 4) with 16. unfold u8. rewrite or_E0 by lia. f_equal. lia.
    + change (2 ^ 6) with 64. change (2 ^ 12) with 4096. change (2 ^ 18) with 262144. change 0x07 with (N.ones 3). rewrite N.land_ones. change (2 ^ 3) with 8. unfold u8. rewrite or_F0 by lia. f_equal. lia.
Qed.
Lemma enc_denotes v : v < 0x200000 -> denotes (enc v) v.
Proof.
  intro H. unfold enc. destruct (N.ltb_spec v 0x80); [cbn; lia|]. destruct (N.ltb_spec v 0x800); [|destruct (N.ltb_spec v 0x10000)].
  - exists (v / 64), (v mod 64). lia.
  - exists (v / 4096), (v / 64 mod 64), (v mod 64). lia.
  - exists (v / 262144), (v / 4096 mod 64), (v / 64 mod 64), (v mod 64). lia.
Qed.
Lemma enc_len v : List.length (enc v) = if v <? 0x80 then 1%nat else if v <? 0x800 then 2%nat else if v <? 0x10000 then 3%nat else 4%nat.
Proof. unfold enc. destruct (v <? 0x80); [reflexivity|]. destruct (v <? 0x800); [reflexivity|]. destruct (v <? 0x10000); reflexivity. Qed.
Lemma digits u z y x : z < 64 -> y < 64 -> x < 64 -> let v := u * 262144 + z * 4096 + y * 64 + x in
  v / 262144 = u /\ v / 4096 mod 64 = z /\ v / 64 mod 64 = y /\ v mod 64 = x.
Proof.
  intros Hz Hy Hx v. subst v. split; [symmetry; apply N.div_unique with (z * 4096 + y * 64 + x); lia|]. split; [|split].
  - replace ((u * 262144 + z * 4096 + y * 64 + x) / 4096) with (u * 64 + z) by (apply N.div_unique with (y * 64 + x); lia). symmetry. apply N.mod_unique with u; lia.
  - replace ((u * 262144 + z * 4096 + y * 64 + x) / 64) with (u * 4096 + z * 64 + y) by (apply N.div_unique with x; lia). symmetry. apply N.mod_unique with (u * 64 + z); lia.
  - symmetry. apply N.mod_unique with (u * 4096 + z * 64 + y); lia.
Qed.
(** Long enough sequences are the encoding. *)
Lemma denotes_enc s v : denotes s v -> v < 0x200000 /\ (List.length (enc v) <= List.length s)%nat /\ (List.length s = List.length (enc v) -> s = enc v).
Proof.
  intro D. rewrite enc_len. destruct s as [|a [|b [|c [|d [|e s]]]]]; cbn [denotes] in D; try contradiction; cbn [List.length].
  - destruct D as [H ->]. split; [lia|]. destruct (N.ltb_spec a 0x80); [|lia]. split; [lia|]. intros _. unfold enc. destruct (N.ltb_spec a 0x80); [reflexivity|lia].
  - destruct D as (y & x & Hy & Hx & -> & -> & ->). split; [lia|]. unfold enc. destruct (N.ltb_spec (y * 64 + x) 0x80); [split; [lia|discriminate]|]. destruct (N.ltb_spec (y * 64 + x) 0x800); [|lia]. split; [lia|]. intros _. replace ((y * 64 + x) / 64) with y by (apply N.div_unique with x; lia). replace ((y * 64 + x) mod 64) with x by (apply N.mod_unique with y; lia). reflexivity.
  - destruct D as (z & y & x & Hz & Hy & Hx & -> & -> & -> & ->). assert (Hz' : z < 64) by lia. split; [lia|]. unfold enc. destruct (N.ltb_spec (z * 4096 + y * 64 + x) 0x80); [split; [lia|discriminate]|]. destruct (N.ltb_spec (z * 4096 + y * 64 + x) 0x800); [split; [lia|discriminate]|]. destruct (N.ltb_spec (z * 4096 + y * 64 + x) 0x10000); [|lia]. split; [lia|]. intros _. replace ((z * 4096 + y * 64 + x) / 4096) with z by (apply N.div_unique with (y * 64 + x); lia). destruct (digits 0 z y x Hz' Hy Hx) as (_ & _ & E3 & E4). cbn [N.mul N.add] in E3, E4. rewrite E3, E4. reflexivity.
  - destruct D as (u & z & y & x & Hu & Hz & Hy & Hx & -> & -> & -> & -> & ->). destruct (digits u z y x Hz Hy Hx) as (E1 & E2 & E3 & E4). remember (u * 262144 + z * 4096 + y * 64 + x) as v eqn:Ev.
    assert (V : v < 0x200000) by (clear E1 E2 E3 E4; lia). split; [exact V|]. unfold enc. rewrite E1, E2, E3, E4.
    destruct (v <? 0x80); [split; [lia|discriminate]|]. destruct (v <? 0x800); [split; [lia|discriminate]|]. destruct (v <? 0x10000); [split; [lia|discriminate]|]. split; [lia|]. reflexivity.
Qed.
Lemma encodes_enc s v : encodes s v <-> scalar v /\ s = enc v.
Proof.
  unfold encodes. split.
  - intros (S & D & M). split; [exact S|]. assert (Hv : v < 0x200000) by (unfold scalar in S; lia). specialize (M _ (enc_denotes v Hv)). destruct (denotes_enc _ _ D) as (_ & L & E). apply E. lia.
  - intros [S ->]. assert (Hv : v < 0x200000) by (unfold scalar in S; lia). split; [exact S|]. split; [now apply enc_denotes|]. intros s' D. now apply denotes_enc in D.
Qed.
(** C58: a code point is accepted iff it is a Unicode scalar value; [encode_utf8] writes its UTF-8 encoding at the start of the
    buffer, leaves the rest alone and returns it; it stops iff the buffer is too small. *)
Theorem C58_from_u32 c : from_u32 c = Some c /\ scalar c \/ from_u32 c = None /\ ~ scalar c.
Proof. unfold from_u32, is_valid_code_point, scalar. destruct (N.ltb_spec 0x10ffff c); [right; cbn; split; [reflexivity|lia]|]. destruct (N.leb_spec 0xd800 c), (N.leb_spec c 0xdfff); cbn; [right; split; [reflexivity|lia]|left|left|left]; (split; [reflexivity|lia]). Qed.
Print Assumptions C58_from_u32.
Theorem C58_encode_utf8 v buf : scalar v -> exists s, encodes s v /\ (forall s', encodes s' v -> s' = s) /\ List.length s = len_utf8 v /\
  (if (List.length s <=? List.length buf)%nat then encode_utf8 v buf = Some (s ++ skipn (List.length s) buf, List.length s) else encode_utf8 v buf = None).
Proof.
  intro S. assert (Hv : v < 0x200000) by (unfold scalar in S; lia). exists (enc v). split; [now apply encodes_enc|]. split; [intros s' E; now apply encodes_enc in E|]. split; [now rewrite enc_len|].
  unfold encode_utf8. rewrite written_enc by exact Hv. assert (L : List.length (enc v) = len_utf8 v) by now rewrite enc_len. rewrite L. destruct (len_utf8 v <=? List.length buf)%nat; reflexivity.
Qed.
Print Assumptions C58_encode_utf8.
(** Encodings are unique both ways. *)
Theorem C58_decoding_unique s v w : encodes s v -> encodes s w -> v = w.
Proof.
  intros (_ & D & _) (_ & D' & _). destruct s as [|a [|b [|c [|d [|e s]]]]]; cbn [denotes] in D, D'; try contradiction.
  - destruct D as [_ ->], D' as [_ ->]. reflexivity.
  - destruct D as (y & x & ? & ? & ? & ? & ->), D' as (y' & x' & ? & ? & ? & ? & ->). assert (y = y') by lia. assert (x = x') by lia. now subst.
  - destruct D as (z & y & x & ? & ? & ? & ? & ? & ? & ->), D' as (z' & y' & x' & ? & ? & ? & ? & ? & ? & ->). assert (z = z') by lia. assert (y = y') by lia. assert (x = x') by lia. now subst.
  - destruct D as (u & z & y & x & ? & ? & ? & ? & ? & ? & ? & ? & ->), D' as (u' & z' & y' & x' & ? & ? & ? & ? & ? & ? & ? & ? & ->). assert (u = u') by lia. assert (z = z') by lia. assert (y = y') by lia. assert (x = x') by lia. now subst.
Qed.
Print Assumptions C58_decoding_unique.

(** * Validation (C57) *)
Lemma table b : char_size b = if b <? 0x80 then 1%nat else if b <? 0xC2 then 0%nat else if b <? 0xE0 then 2%nat else if b <? 0xF0 then 3%nat else if b <? 0xF5 then 4%nat else 0%nat.
Proof.
  destruct (N.ltb_spec b 256) as [H|H].
  - apply Nat.eqb_eq. revert b H. apply (below 256 (fun b => Nat.eqb (char_size b) _)). vm_compute. reflexivity.
  - repeat match goal with |- context [b <? ?k] => destruct (N.ltb_spec b k); [lia|] end. unfold char_size. apply nth_overflow. change (List.length kFirstByteToUtf8CharSize) with 256%nat. lia.
Qed.
Ltac cmp := repeat match goal with
  | |- context [?a <? ?b] => destruct (N.ltb_spec a b)
  | |- context [?a <=? ?b] => destruct (N.leb_spec a b)
  | |- context [?a =? ?b] => destruct (N.eqb_spec a b)
  | H : context [?a <? ?b] |- _ => destruct (N.ltb_spec a b)
  | H : context [?a <=? ?b] |- _ => destruct (N.leb_spec a b)
  | H : context [?a =? ?b] |- _ => destruct (N.eqb_spec a b)
  end.
(** One character. *)
Lemma accept s v : denotes s v -> scalar v -> List.length s = List.length (enc v) -> encodes s v.
Proof. intros D S L. apply encodes_enc. split; [exact S|]. now apply denotes_enc. Qed.
Lemma char_accepted s b r : s = b :: r -> List.length s = char_size b -> is_utf8_char s = true -> exists v, encodes s v.
Proof.
  intros -> L A. rewrite table in L. destruct r as [|c [|d [|e [|f r]]]]; cbn [List.length] in L; [| | | |discriminate A].
  - exists b. apply encodes_enc. assert (b < 0x80) by (cmp; try discriminate; lia). split; [left; lia|]. unfold enc. destruct (N.ltb_spec b 0x80); [reflexivity|lia].
  - assert (Hb : 0xC2 <= b < 0xE0) by (cmp; try discriminate; lia). clear L. cbn [is_utf8_char] in A. unfold second_ok, tail_bad in A. destruct (N.ltb_spec c 0x80), (N.ltb_spec 0xBF c); cbn [orb] in A; try discriminate.
    exists ((b - 0xC0) * 64 + (c - 0x80)). apply accept; [exists (b - 0xC0), (c - 0x80); lia|left; lia|]. rewrite enc_len. cmp; try lia; reflexivity.
  - assert (Hb : 0xE0 <= b < 0xF0) by (cmp; try discriminate; lia). clear L. cbn [is_utf8_char] in A. unfold second_ok, tail_bad in A. destruct (N.ltb_spec d 0x80), (N.ltb_spec 0xBF d); cbn [orb] in A; try discriminate. destruct (N.ltb_spec c 0x80), (N.ltb_spec 0xBF c); cbn [orb] in A; try discriminate.
    assert (R : (b = 0xE0 -> 0xA0 <= c) /\ (b = 0xED -> c <= 0x9F)). { split; intros ->; cbn in A; cmp; try discriminate; lia. } clear A.
    exists ((b - 0xE0) * 4096 + (c - 0x80) * 64 + (d - 0x80)). apply accept; [exists (b - 0xE0), (c - 0x80), (d - 0x80); lia|unfold scalar; lia|]. rewrite enc_len. cmp; try lia; reflexivity.
  - assert (Hb : 0xF0 <= b < 0xF5) by (cmp; try discriminate; lia). clear L. cbn [is_utf8_char] in A. unfold second_ok, tail_bad in A. destruct (N.ltb_spec e 0x80), (N.ltb_spec 0xBF e); cbn [orb] in A; try discriminate. destruct (N.ltb_spec d 0x80), (N.ltb_spec 0xBF d); cbn [orb] in A; try discriminate. destruct (N.ltb_spec c 0x80), (N.ltb_spec 0xBF c); cbn [orb] in A; try discriminate.
    assert (R : (b = 0xF0 -> 0x90 <= c) /\ (b = 0xF4 -> c <= 0x8F)). { split; intros ->; cbn in A; cmp; try discriminate; lia. } clear A.
    exists ((b - 0xF0) * 262144 + (c - 0x80) * 4096 + (d - 0x80) * 64 + (e - 0x80)). apply accept; [exists (b - 0xF0), (c - 0x80), (d - 0x80), (e - 0x80); lia|right; lia|]. rewrite enc_len. cmp; try lia; reflexivity.
Qed.
Lemma tail_good x : 0x80 <= x <= 0xBF -> tail_bad x = false.
Proof. intro H. unfold tail_bad. destruct (N.ltb_spec x 0x80), (N.ltb_spec 0xBF x); try lia; try reflexivity. Qed.
Lemma second_good a b : 0xC2 <= a <= 0xF4 -> 0x80 <= b <= 0xBF -> (a = 0xE0 -> 0xA0 <= b) -> (a = 0xED -> b <= 0x9F) -> (a = 0xF0 -> 0x90 <= b) -> (a = 0xF4 -> b <= 0x8F) -> second_ok a b = true.
Proof.
  intros Ha Hb H1 H2 H3 H4. unfold second_ok, first_ok. rewrite tail_good by exact Hb.
  destruct (N.eqb_spec a 0xE0) as [->|]; [destruct (N.ltb_spec b 0xA0); [lia|reflexivity]|].
  destruct (N.eqb_spec a 0xED) as [->|]; [destruct (N.ltb_spec 0x9F b); [lia|reflexivity]|].
  destruct (N.eqb_spec a 0xF0) as [->|]; [destruct (N.ltb_spec b 0x90); [lia|reflexivity]|].
  destruct (N.eqb_spec a 0xF4) as [->|]; [destruct (N.ltb_spec 0x8F b); [lia|reflexivity]|].
  destruct (N.ltb_spec b 0x80); [lia|]. destruct (N.leb_spec 0x80 a); [|lia]. destruct (N.ltb_spec a 0xC2); [lia|]. cbn. destruct (N.ltb_spec 0xF4 a); [lia|reflexivity].
Qed.
Lemma enc_accepted v : scalar v -> exists b r, enc v = b :: r /\ List.length (enc v) = char_size b /\ is_utf8_char (enc v) = true.
Proof.
  intro S. unfold scalar in S. rewrite enc_len. unfold enc. destruct (N.ltb_spec v 0x80).
  - exists v, []. split; [reflexivity|]. rewrite table. destruct (N.ltb_spec v 0x80); [|lia]. split; [reflexivity|]. cbn [is_utf8_char]. unfold first_ok. destruct (N.leb_spec 0x80 v); [lia|]. cbn. destruct (N.ltb_spec 0xF4 v); [lia|reflexivity].
  - destruct (N.ltb_spec v 0x800); [|destruct (N.ltb_spec v 0x10000)]; eexists; eexists; (split; [reflexivity|]); rewrite table; (split; [cmp; try lia; reflexivity|]); cbn [is_utf8_char]; repeat rewrite tail_good by lia; apply second_good; lia.
Qed.
Lemma enc_app_inv v w s t : scalar v -> scalar w -> enc v ++ s = enc w ++ t -> enc v = enc w /\ s = t.
Proof.
  intros Sv Sw E. destruct (enc_accepted v Sv) as (b & r & Ev & Lv & _). destruct (enc_accepted w Sw) as (b' & r' & Ew & Lw & _). assert (b = b') by (rewrite Ev, Ew in E; now injection E). subst b'.
  assert (L : List.length (enc v) = List.length (enc w)) by congruence. revert L E. generalize (enc v) (enc w). intros x y L. revert y L. induction x as [|p x IH]; intros [|q y] L E; try discriminate; [auto|]. cbn in E. injection E as -> E. injection L as L. destruct (IH y L E) as [-> ->]. auto.
Qed.
Lemma loop_ok fuel : forall s, (List.length s <= fuel)%nat -> utf8_loop fuel s = true <-> well_formed s.
Proof.
  induction fuel as [|fuel IH]; intros s L; destruct s as [|b s]; cbn [utf8_loop]; try (split; [intros _; exists []; constructor|reflexivity]); [cbn in L; lia|]. set (t := b :: s) in *. split.
  - intro H. destruct (Nat.ltb_spec (List.length t) (char_size b)); [discriminate|]. destruct (is_utf8_char (firstn (char_size b) t)) eqn:A; [|discriminate]. cbn [negb] in H.
    assert (Nz : char_size b <> 0%nat) by (intro Z; rewrite Z in A; discriminate). assert (Lf : List.length (firstn (char_size b) t) = char_size b) by (apply firstn_length_le; lia).
    destruct (char_accepted (firstn (char_size b) t) b (firstn (Nat.pred (char_size b)) s)) as (v & E); [unfold t; destruct (char_size b); [lia|reflexivity]|exact Lf|exact A|].
    apply IH in H; [|rewrite skipn_length; lia]. destruct H as (vs & H). exists (v :: vs). rewrite <- (firstn_skipn (char_size b) t). now constructor.
  - intros (vs & H). inversion H as [E|c v s' vs' E H' Et]. apply encodes_enc in E as [S ->]. destruct (enc_accepted v S) as (b' & r & Ev & Lv & A). assert (b' = b) by (rewrite Ev in Et; unfold t in Et; now injection Et). subst b'.
    unfold t in Et. rewrite <- Lv. destruct (Nat.ltb_spec (List.length (enc v ++ s')) (List.length (enc v))) as [Lt|_]; [rewrite app_length in Lt; lia|]. rewrite firstn_app, firstn_all, Nat.sub_diag, app_nil_r, A. cbn [negb]. rewrite skipn_app, skipn_all, Nat.sub_diag. cbn [skipn app]. apply IH; [|exists vs'; exact H']. apply (f_equal (@List.length N)) in Et. rewrite app_length, Ev in Et. unfold t in L. cbn [List.length app] in Et, L. rewrite Ev in Lv. cbn [List.length] in Lv. lia.
Qed.
Lemma ascii_wf s : is_ascii s = true -> well_formed s.
Proof.
  induction s as [|c s IH]; [exists []; constructor|]. cbn. unfold is_ascii_char. destruct (N.leb_spec c 0x7f) as [Hc|]; [|discriminate]. cbn. intro H. destruct (IH H) as (vs & U). exists (c :: vs). change (c :: s) with ([c] ++ s). constructor; [|exact U]. apply encodes_enc. split; [left; lia|]. unfold enc. destruct (N.ltb_spec c 0x80); [reflexivity|lia].
Qed.
(** C57: validation accepts exactly the well-formed UTF-8 texts. *)
Theorem C57_is_utf8_exact s : is_utf8 s = true <-> well_formed s.
Proof. unfold is_utf8. destruct (is_ascii s) eqn:A; [split; [intros _; now apply ascii_wf|reflexivity]|]. apply loop_ok. lia. Qed.
Print Assumptions C57_is_utf8_exact.
Theorem C57_from_utf8 s : (well_formed s -> from_utf8 s = Some s) /\ (~ well_formed s -> from_utf8 s = None).
Proof. unfold from_utf8. rewrite <- C57_is_utf8_exact. destruct (is_utf8 s); split; intro H; try reflexivity; [contradiction|]; try discriminate; exfalso; apply H; reflexivity. Qed.
Print Assumptions C57_from_utf8.
(** A text has one reading. *)
Theorem C57_reading_unique s vs : utf8 s vs -> forall ws, utf8 s ws -> vs = ws.
Proof.
  intro H. induction H as [|c v s vs E H IH]; intros ws W.
  - inversion W as [|c v s' ws' E _ Es]; [reflexivity|]. apply encodes_enc in E as [S ->]. destruct (enc_accepted v S) as (b & r & Ev & _). rewrite Ev in Es. discriminate.
  - inversion W as [Es|c' w s' ws' E' W' Es].
    + apply encodes_enc in E as [S ->]. destruct (enc_accepted v S) as (b & r & Ev & _). rewrite Ev in Es. discriminate.
    + subst ws. pose proof E as E0. pose proof E' as E0'. apply encodes_enc in E0 as [S ->]. apply encodes_enc in E0' as [S' ->]. destruct (enc_app_inv w v s' s S' S Es) as [Ec ->]. rewrite Ec in E'. rewrite (C58_decoding_unique _ _ _ E E'). f_equal. apply IH. exact W'.
Qed.
Print Assumptions C57_reading_unique.
Example utf8_euro : utf8 [0x61; 0xE2; 0x82; 0xAC; 0xF0; 0x9F; 0x92; 0xA9] [0x61; 0x20AC; 0x1F4A9] /\ is_utf8 [0xC0; 0x80] = false /\ is_utf8 [0xED; 0xA0; 0x80] = false /\ is_utf8 [0xE2; 0x82] = false.
Proof.
  split; [|repeat split; reflexivity]. apply (utf8_cons [0x61] 0x61); [apply encodes_enc; split; [left; lia|reflexivity]|]. apply (utf8_cons [0xE2; 0x82; 0xAC] 0x20AC); [apply encodes_enc; split; [left; lia|reflexivity]|]. apply (utf8_cons [0xF0; 0x9F; 0x92; 0xA9] 0x1F4A9 []); [apply encodes_enc; split; [right; lia|reflexivity]|constructor].
Qed.

(** * Comparison (C59) *)
Lemma compare_enc v w x y : scalar v -> scalar w -> view_compare (enc v ++ x) (enc w ++ y) = match v ?= w with Eq => view_compare x y | r => r end.
Proof.
  intros Sv Sw. destruct (N.compare_spec v w) as [->|Lt|Gt].
  - generalize (enc w). intro l. induction l as [|a l IH]; [reflexivity|]. cbn [app view_compare]. now rewrite N.compare_refl.
  - unfold scalar in *. unfold enc. cmp; try lia; cbn [app view_compare]; repeat match goal with |- context [?a ?= ?b] => destruct (N.compare_spec a b); try reflexivity; try lia end.
  - unfold scalar in *. unfold enc. cmp; try lia; cbn [app view_compare]; repeat match goal with |- context [?a ?= ?b] => destruct (N.compare_spec a b); try reflexivity; try lia end.
Qed.
(** C59: strings are ordered by their code points. *)
Theorem C59_order_is_code_point_order a b us vs : utf8 a us -> utf8 b vs -> view_compare a b = compare_text us vs.
Proof.
  intro H. revert b vs. induction H as [|c v s vs E H IH]; intros b ws W.
  - inversion W as [|c v s ws' E _ Es]; [reflexivity|]. apply encodes_enc in E as [S ->]. destruct (enc_accepted v S) as (h & r & Ev & _). rewrite Ev. reflexivity.
  - apply encodes_enc in E as [S ->]. inversion W as [Es|c' w s' ws' E' W' Es].
    + destruct (enc_accepted v S) as (h & r & Ev & _). rewrite Ev. reflexivity.
    + apply encodes_enc in E' as [S' ->]. rewrite compare_enc by assumption. cbn [compare_text]. destruct (v ?= w); [|reflexivity|reflexivity]. now apply IH.
Qed.
Print Assumptions C59_order_is_code_point_order.
Theorem C59_equality a b : view_eq a b = true <-> a = b.
Proof. revert b. induction a as [|x a IH]; intros [|y b]; cbn; try (split; congruence). rewrite andb_true_iff, N.eqb_eq, IH. split; [intros [-> ->]; reflexivity|intro E; injection E; auto]. Qed.
Print Assumptions C59_equality.
Theorem C59_order_laws a b : (view_compare a b = Eq <-> a = b) /\ view_compare b a = CompOpp (view_compare a b).
Proof.
  revert b. induction a as [|x a IH]; intros [|y b]; cbn; try (split; [split; congruence|reflexivity]). rewrite (N.compare_antisym x y). destruct (N.compare_spec x y) as [->|L|G]; cbn [CompOpp].
  - destruct (IH b) as [I1 I2]. split; [rewrite I1; split; [intros ->; reflexivity|intro E; now injection E]|exact I2].
  - split; [|reflexivity]. split; [discriminate|intro E; injection E; lia].
  - split; [|reflexivity]. split; [discriminate|intro E; injection E; lia].
Qed.
Print Assumptions C59_order_laws.

(** * Slices (C60) *)
(** C60: a slice made from a pointer and a length is never null, is aligned if the pointer was, keeps pointer and length unless
    it is empty (null pointers give empty slices), and survives conversion to a span and back. *)
Theorem C60_slice_of align ptr n : 0 < align ->
  let s := slice_of align ptr n in
  word s <> 0 /\ (ptr mod align = 0 -> word s mod align = 0) /\
  (if (ptr =? 0) || (n =? 0) then to_span s = (0, 0) else to_span s = (ptr, n)) /\
  slice_of_span align (to_span s) = s /\ (size s = 0 -> s = slice_empty align).
Proof.
  intros Ha s. unfold s, slice_of, to_span, slice_data, slice_of_span, slice_of. destruct (N.eqb_spec ptr 0) as [->|Np]; cbn [orb].
  - cbn. split; [lia|]. split; [intros _; apply N.mod_same; lia|]. auto.
  - destruct (N.eqb_spec n 0) as [->|Nn]; cbn.
    + split; [lia|]. split; [intros _; apply N.mod_same; lia|]. auto.
    + assert (L : (0 <? n) = true) by (apply N.ltb_lt; lia). rewrite L. cbn. rewrite L. split; [exact Np|]. split; [auto|]. split; [reflexivity|]. cbn. destruct (N.eqb_spec ptr 0); [contradiction|]. rewrite L. split; [reflexivity|lia].
Qed.
Print Assumptions C60_slice_of.
(** Two slices are equal iff they have the same elements. *)
Theorem C60_equality A (eqb : A -> A -> bool) mem width a b : (forall x y, eqb x y = true <-> x = y) ->
  slice_equal eqb mem width a b = true <-> elements mem width (slice_data a) (N.to_nat (size a)) = elements mem width (slice_data b) (N.to_nat (size b)).
Proof.
  intro He. assert (L : forall n p q, equal_from eqb mem width p q n = true <-> elements mem width p n = elements mem width q n).
  { induction n as [|n IH]; intros p q; cbn; [tauto|]. destruct (eqb (mem p) (mem q)) eqn:E; [rewrite IH; apply He in E; rewrite E; split; [congruence|intro H; now injection H]|]. split; [discriminate|]. intro H. injection H as H _. apply He in H. congruence. }
  assert (Ln : forall n p, List.length (elements mem width p n) = n) by (induction n as [|n IH]; intro p; cbn; [|rewrite IH]; reflexivity).
  unfold slice_equal. destruct (N.eqb_spec (size a) (size b)) as [E|N]; cbn [negb]; [rewrite L, E; tauto|]. split; [discriminate|]. intro H. apply (f_equal (@List.length A)) in H. rewrite !Ln in H. lia.
Qed.
Print Assumptions C60_equality.
(** For the aliasing check a slice covers its elements' bytes, and an empty one nothing. *)
Theorem C60_ptr_data align ptr n width : 0 < align -> let r := as_ptr_data width (slice_of align ptr n) in
  if (ptr =? 0) || (n =? 0) then r = (0, 0) else r = (ptr, ptr + n * width).
Proof.
  intros Ha r. destruct (C60_slice_of align ptr n Ha) as (_ & _ & H & _). unfold r, as_ptr_data. destruct ((ptr =? 0) || (n =? 0)); unfold to_span in H; injection H as -> ->; f_equal; lia.
Qed.
Print Assumptions C60_ptr_data.
Example slices : to_span (slice_of 8 4096 3) = (4096, 3) /\ slice_of 8 0 5 = slice_empty 8 /\ slice_of 8 4096 0 = slice_empty 8 /\ scalar 0x10FFFF.
Proof. split; [reflexivity|]. split; [reflexivity|]. split; [reflexivity|]. right. lia. Qed.
