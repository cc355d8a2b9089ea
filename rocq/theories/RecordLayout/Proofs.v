From Coq Require Import List Arith ZArith Bool Lia ZifyNat.
From Verif Require Import RecordLayout.Model RecordLayout.Spec.
Import ListNotations.
Local Open Scope nat_scope.
Local Open Scope list_scope.

(** * Arithmetic *)
Lemma round_up_ge x a : 0 < a -> x <= round_up x a.
Proof.
  intros H. unfold round_up. pose proof (Nat.div_mod (x + a - 1) a) as D. pose proof (Nat.mod_upper_bound (x + a - 1) a) as M.
  rewrite (Nat.mul_comm _ a). remember (a * ((x + a - 1) / a)) as q. lia.
Qed.
Lemma round_up_lt x a : 0 < a -> round_up x a < x + a.
Proof.
  intros H. unfold round_up. pose proof (Nat.div_mod (x + a - 1) a) as D. pose proof (Nat.mod_upper_bound (x + a - 1) a) as M.
  rewrite (Nat.mul_comm _ a). remember (a * ((x + a - 1) / a)) as q. lia.
Qed.
Lemma round_up_multiple x a : 0 < a -> exists k, round_up x a = k * a.
Proof. intros. exists ((x + a - 1) / a). reflexivity. Qed.
Lemma round_up_of_multiple k a : 0 < a -> round_up (k * a) a = k * a.
Proof. intros H. unfold round_up. replace (k * a + a - 1) with (k * a + (a - 1)) by lia. rewrite Nat.div_add_l by lia. rewrite (Nat.div_small (a - 1)) by lia. lia. Qed.
Lemma round_up_1 x : round_up x 1 = x.
Proof. unfold round_up. rewrite Nat.div_1_r. lia. Qed.
Lemma round_up_mono x y a : 0 < a -> x <= y -> round_up x a <= round_up y a.
Proof. intros H L. unfold round_up. apply Nat.mul_le_mono_r, Nat.div_le_mono; lia. Qed.
Lemma round_up_idem x a : 0 < a -> round_up (round_up x a) a = round_up x a.
Proof. intros H. destruct (round_up_multiple x a H) as [k E]. rewrite E. now apply round_up_of_multiple. Qed.

Ltac Zify.zify_post_hook ::= Z.to_euclidean_division_equations.
Lemma ceil8_mul n : ceil8 (8 * n) = n.
Proof. unfold ceil8. lia. Qed.
Lemma ceil8_le x : x <= 8 * ceil8 x.
Proof. unfold ceil8. lia. Qed.
Lemma ceil8_least x y : x <= 8 * y -> ceil8 x <= y.
Proof. unfold ceil8. lia. Qed.
Lemma ceil8_mono x y : x <= y -> ceil8 x <= ceil8 y.
Proof. unfold ceil8. lia. Qed.
Lemma ceil8_from o e : o mod 8 = 0 -> o <= e -> o / 8 + ceil8 (e - o) = ceil8 e.
Proof. unfold ceil8. lia. Qed.

Lemma pow2_pos a : pow2 a -> 0 < a.
Proof. intros [k ->]. pose proof (Nat.pow_nonzero 2 k). lia. Qed.
Lemma pow2_divides a b : pow2 a -> pow2 b -> a <= b -> exists k, b = k * a.
Proof.
  intros [i ->] [j ->] L. assert (i <= j). { destruct (le_lt_dec i j); [assumption|]. exfalso. assert (2 ^ j < 2 ^ i) by (apply Nat.pow_lt_mono_r; lia). lia. }
  exists (2 ^ (j - i)). rewrite <- Nat.pow_add_r. f_equal. lia.
Qed.
Lemma pow2_max a b : pow2 a -> pow2 b -> pow2 (Nat.max a b).
Proof. intros. destruct (Nat.max_spec a b) as [[_ ->]|[_ ->]]; assumption. Qed.
Lemma pow2_1 : pow2 1.
Proof. now exists 0. Qed.
Lemma pow2_max_list l : Forall pow2 l -> pow2 (max_list l).
Proof. induction 1; cbn; [apply pow2_1|now apply pow2_max]. Qed.
Lemma max_list_in l x : In x l -> x <= max_list l.
Proof. induction l as [|y l IH]; cbn; [contradiction|]. intros [->|I]; [lia|]. specialize (IH I). fold max_list. unfold max_list in IH. lia. Qed.
Lemma max_list_ge1 l : 1 <= max_list l.
Proof. induction l; cbn; [lia|]. unfold max_list in IHl. lia. Qed.
Lemma max_list_le l n : 1 <= n -> Forall (fun x => x <= n) l -> max_list l <= n.
Proof. induction 2; cbn; [assumption|]. unfold max_list in IHForall. lia. Qed.

(** * Placing the generated fields *)
Lemma place_app fs gs : forall pos, place pos (fs ++ gs) =
  let '(o1, p1) := place pos fs in let '(o2, p2) := place p1 gs in (o1 ++ o2, p2).
Proof.
  induction fs as [|f fs IH]; intros pos; cbn [app place].
  - destruct (place pos gs); reflexivity.
  - rewrite IH. destruct (place (round_up pos (rf_align f) + rf_size f) fs) as [o1 p1].
    destruct (place p1 gs) as [o2 p2]. destruct (rf_id f); reflexivity.
Qed.

Section Items.
Variable r : record.
Hypothesis struct : is_union r = false.

Definition known_type (i : item) : option rs_type := match i_ir i with Some f => type_for_layout r f | None => None end.

Definition item_ok (i : item) : Prop :=
  i_offset i mod 8 = 0 /\ (forall f, i_ir i = Some f -> f_offset f = i_offset i) /\
  match known_type i with
  | Some t => i_end i = Some (i_offset i + 8 * rt_size t) /\ 0 < rt_align t /\ exists k, i_offset i / 8 = k * rt_align t
  | None => match i_ir i with Some _ => i_end i = None | None => match i_end i with Some e => i_offset i < e | None => True end end
  end.
Definition link (i j : item) : Prop :=
  match i_end i with
  | Some e => 8 * ceil8 e <= i_offset j /\
      match known_type j with Some t => i_offset j / 8 = round_up (ceil8 e) (rt_align t) | None => True end
  | None => i_offset i < i_offset j
  end.
Definition last_ok (a : nat) (i : item) : Prop :=
  match i_end i with Some e => r_size r = round_up (ceil8 e) a | None => i_offset i < 8 * r_size r end.
Fixpoint good (a : nat) (l : list item) : Prop :=
  match l with
  | [] => True
  | i :: l1 => item_ok i /\ match l1 with [] => last_ok a i | j :: _ => link i j end /\ good a l1
  end.

(** Where Rust is before the fields for [cur]. *)
Definition start (prev : option item) (cur : item) : nat :=
  match prev with Some p => match i_end p with Some e => ceil8 e | None => i_offset cur / 8 end | None => i_offset cur / 8 end.
Definition linked (prev : option item) (cur : item) : Prop := match prev with Some p => link p cur | None => True end.

Definition offsets_of (l : list item) : list (nat * nat) :=
  flat_map (fun i => match i_ir i with Some f => [(f_id f, i_offset i / 8)] | None => [] end) l.
Fixpoint end_of (l : list item) : nat :=
  match l with
  | [] => 0
  | [i] => match i_end i with Some e => ceil8 e | None => r_size r end
  | _ :: l1 => end_of l1
  end.

Lemma subtract_le a b : b <= a -> subtract a b = Some (a - b).
Proof. intros H. unfold subtract. destruct (Nat.leb_spec b a); [reflexivity|lia]. Qed.

Lemma one_item prev cur finish : item_ok cur -> linked prev cur ->
  (match i_end cur with Some e => finish = e | None => i_offset cur < finish end) ->
  exists fs o, field_definition r cur (match prev with Some p => match i_end p with Some e => e | None => i_offset cur end | None => i_offset cur end) finish
               = Some (fs, o) /\
    place (start prev cur) fs = (offsets_of [cur], ceil8 finish) /\
    Forall (fun f => rf_align f = 1 \/ exists t, known_type cur = Some t /\ rf_align f = rt_align t) fs /\
    (o = false -> exists t, known_type cur = Some t /\ In (rt_align t) (map rf_align fs)).
Proof.
  intros (M & FO & K) L F. set (pe := match prev with Some p => _ | None => _ end).
  assert (P : 8 * ceil8 pe <= i_offset cur /\ start prev cur = ceil8 pe).
  { unfold pe, start. destruct prev as [p|]; [|unfold ceil8; lia]. unfold linked, link in L. destruct (i_end p) as [e|]; [lia|unfold ceil8; lia]. }
  destruct P as [P1 P2]. unfold field_definition. rewrite struct. fold (known_type cur).
  destruct (known_type cur) as [t|] eqn:KT.
  - destruct K as (E & PA & k & MA). rewrite E in F. subst finish. cbn [Nat.eqb].
    unfold known_type in KT. destruct (i_ir cur) as [f|] eqn:IR; [|discriminate].
    exists [RsField (Some (f_id f)) (rt_size t) (rt_align t)], false. split; [reflexivity|].
    assert (S : round_up (start prev cur) (rt_align t) = i_offset cur / 8).
    { unfold start. destruct prev as [p|]; [|now rewrite MA, round_up_of_multiple]. unfold linked, link in L.
      destruct (i_end p) as [e|]; [|now rewrite MA, round_up_of_multiple]. destruct L as [_ L]. unfold known_type in L. rewrite IR, KT in L. now symmetry. }
    split; [|split].
    + cbn [place rf_align rf_size rf_id]. rewrite S. unfold offsets_of. cbn [flat_map]. rewrite IR. cbn [app]. f_equal. clear -M. unfold ceil8. lia.
    + constructor; [right; exists t; split; reflexivity|constructor].
    + intros _. exists t. split; [reflexivity|now left].
  - rewrite subtract_le by lia. remember (i_offset cur - ceil8 pe * 8) as pad eqn:Epad.
    assert (PL : forall g, place (start prev cur) ((if pad =? 0 then [] else [blob None pad]) ++ [g]) =
                 place (i_offset cur / 8) [g]).
    { intros g. rewrite P2. destruct (Nat.eqb_spec pad 0) as [Z|Z].
      - cbn [app]. f_equal. lia.
      - cbn [app place blob rf_align rf_size rf_id]. rewrite round_up_1. replace (ceil8 pe + ceil8 pad) with (i_offset cur / 8); [reflexivity|]. clear -P1 Epad M. remember (ceil8 pe) as c. unfold ceil8. lia. }
    assert (AL : forall g, rf_align g = 1 -> Forall (fun f => rf_align f = 1 \/ exists t, None = Some t /\ rf_align f = rt_align t) ((if pad =? 0 then [] else [blob None pad]) ++ [g])).
    { intros g Hg. apply Forall_app. split; [|constructor; [now left|constructor]]. destruct (pad =? 0); constructor; [now left|constructor]. }
    assert (LT : i_offset cur < finish).
    { destruct (i_ir cur) as [f|]; destruct (i_end cur) as [e|]; try lia; discriminate. }
    destruct (i_ir cur) as [f|] eqn:IR.
    + rewrite (FO f eq_refl). rewrite subtract_le by lia. destruct (finish - i_offset cur) as [|n] eqn:N; [lia|].
      eexists _, true. split; [reflexivity|]. split; [|split; [apply AL; reflexivity|discriminate]].
      rewrite PL. cbn [place blob rf_align rf_size rf_id]. rewrite round_up_1. unfold offsets_of. cbn [flat_map]. rewrite IR. cbn [app].
      f_equal. rewrite <- N. apply ceil8_from; lia.
    + rewrite subtract_le by lia. destruct (finish - i_offset cur) as [|n] eqn:N; [lia|].
      eexists _, true. split; [reflexivity|]. split; [|split; [apply AL; reflexivity|discriminate]].
      rewrite PL. cbn [place blob rf_align rf_size rf_id]. rewrite round_up_1. unfold offsets_of. cbn [flat_map]. rewrite IR. cbn [app].
      f_equal. rewrite <- N. apply ceil8_from; lia.
Qed.

Lemma definitions_correct a l : forall prev, good a l ->
  match l with [] => True | cur :: _ => linked prev cur end ->
  exists fs o, definitions r prev l = Some (fs, o) /\
    match l with
    | [] => fs = []
    | cur :: _ => place (start prev cur) fs = (offsets_of l, end_of l)
    end /\
    Forall (fun f => rf_align f = 1 \/ exists i t, In i l /\ known_type i = Some t /\ rf_align f = rt_align t) fs /\
    (o = false -> forall i, In i l -> exists t, known_type i = Some t /\ In (rt_align t) (map rf_align fs)).
Proof.
  induction l as [|cur l IH]; intros prev G L.
  - exists [], false. repeat split; [constructor|]. intros _ i [].
  - destruct G as (OK & LK & G).
    assert (A : match prev with
                | Some p => match i_ir p, i_end p with Some _, Some e => is_union r || (e <=? i_offset cur) | _, _ => true end
                | None => true end = true).
    { destruct prev as [p|]; [|reflexivity]. unfold linked, link in L. destruct (i_ir p); [|reflexivity]. destruct (i_end p) as [e|]; [|reflexivity].
      rewrite struct. cbn. apply Nat.leb_le. pose proof (ceil8_le e). lia. }
    remember (match i_end cur with Some e => e | None => match l with next :: _ => i_offset next | [] => r_size r * 8 end end) as finish eqn:EF.
    assert (FI : match i_end cur with Some e => finish = e | None => i_offset cur < finish end).
    { subst finish. destruct (i_end cur) as [e|] eqn:E; [reflexivity|]. destruct l as [|j l1].
      - unfold last_ok in LK. rewrite E in LK. lia.
      - unfold link in LK. rewrite E in LK. exact LK. }
    destruct (one_item prev cur finish OK L FI) as (fs & o & E1 & P1 & A1 & K1).
    assert (L' : match l with [] => True | j :: _ => linked (Some cur) j end) by (destruct l; [trivial|exact LK]).
    destruct (IH (Some cur) G L') as (fs' & o' & E2 & P2 & A2 & K2).
    exists (fs ++ fs'), (o || o'). cbn [definitions]. rewrite A, <- EF, E1, E2. split; [reflexivity|]. split; [|split].
    + rewrite place_app, P1. destruct l as [|j l1].
      * subst fs'. cbn [place]. unfold offsets_of. rewrite app_nil_r. f_equal. cbn [end_of]. destruct (i_end cur); subst finish; [reflexivity|]. unfold ceil8. lia.
      * assert (S : ceil8 finish = start (Some cur) j).
        { unfold start. destruct (i_end cur) as [e|] eqn:E; subst finish; [reflexivity|].
          cbn [good] in G. destruct G as ((M & _) & _). unfold ceil8. lia. }
        rewrite S, P2. unfold offsets_of. cbn [flat_map]. rewrite app_nil_r. reflexivity.
    + apply Forall_app. split.
      * eapply Forall_impl; [|exact A1]. cbn. intros f [H|(t & H1 & H2)]; [now left|]. right. exists cur, t. auto.
      * eapply Forall_impl; [|exact A2]. cbn. intros f [H|(i & t & H1 & H2 & H3)]; [now left|]. right. exists i, t. auto.
    + intros O. apply orb_false_iff in O. destruct O as [O1 O2]. intros i [<-|I].
      * destruct (K1 O1) as (t & H1 & H2). exists t. split; [exact H1|]. rewrite map_app. apply in_app_iff. now left.
      * destruct (K2 O2 i I) as (t & H1 & H2). exists t. split; [exact H1|]. rewrite map_app. apply in_app_iff. now right.
Qed.
End Items.
