From Coq Require Import List Arith Bool Lia.
From Coq Require Import Strings.Byte.
From Verif.Bridge Require Import Model Spec.
Import ListNotations.
Set Implicit Arguments.
Local Arguments Nat.ltb : simpl never.
Local Arguments Nat.leb : simpl never.
Local Arguments Nat.eqb : simpl never.
Local Arguments Nat.sub : simpl never.
Local Arguments Byte.eqb : simpl never.

(** Induction on schemas. *)
Section AbiInd.
  Variable P : abi -> Prop.
  Hypothesis HT : forall n, P (Transmute n).
  Hypothesis HU : forall l, Forall P l -> P (Tuple l).
  Hypothesis HO : forall a, P a -> P (Opt a).
  Fixpoint abi_ind' (a : abi) : P a :=
    match a with
    | Transmute n => HT n
    | Tuple l => HU ((fix go l : Forall P l := match l with
                       | [] => Forall_nil P
                       | a :: l' => Forall_cons a (abi_ind' a) (go l')
                       end) l)
    | Opt a => HO (abi_ind' a)
    end.
End AbiInd.

Lemma fold_add l : forall acc, fold_left (fun acc x => acc + x) l acc = acc + list_sum l.
Proof. induction l as [|x l IH]; intro acc; [cbn; lia|]. cbn [fold_left]. rewrite IH. unfold list_sum. cbn [fold_right]. lia. Qed.

Lemma rs_size_doc a : rs_size a = documented_size a.
Proof.
  induction a as [n|l IH|a IH] using abi_ind'; cbn; [reflexivity| |lia].
  rewrite fold_add. cbn. f_equal. apply map_ext_in. intros a Ha. rewrite Forall_forall in IH. auto.
Qed.
Lemma cc_size_doc a : cc_size a = documented_size a.
Proof.
  induction a as [n|l IH|a IH] using abi_ind'; cbn; [reflexivity| |lia].
  change Nat.add with (fun acc x => acc + x). rewrite fold_add. cbn. f_equal.
  apply map_ext_in. intros a Ha. rewrite Forall_forall in IH. auto.
Qed.

(** ** The C++ and the Rust encoder are the same function *)
Lemma put_next buf n bs e : rs_put buf n bs e =
  match cc_next (fst e) n with Ok r => Ok (r, store (snd e) (buf + r) bs) | Err x => Err x end.
Proof.
  destruct e as [rem m]. unfold rs_put, cc_next. cbn.
  destruct (Nat.ltb_spec rem n), (Nat.leb_spec n rem); try lia; reflexivity.
Qed.
Lemma enc_same buf a : forall v e, cc_enc buf a v e = rs_enc buf a v e.
Proof.
  induction a as [n|l IH|a IH] using abi_ind'; intros v e; destruct v as [bs|vs| |v]; cbn; try reflexivity.
  - now rewrite put_next.
  - revert vs e. induction IH as [|a l Ha _ IHl]; intros [|v vs] e; try reflexivity.
    rewrite Ha. destruct (rs_enc buf a v e); [apply IHl|reflexivity].
  - rewrite put_next. reflexivity.
  - rewrite put_next. destruct (cc_next (fst e) 1); [apply IH|reflexivity].
Qed.

Lemma load_length m a n : length (load m a n) = n.
Proof. unfold load. now rewrite map_length, seq_length. Qed.
Lemma load_1 m a : load m a 1 = [m a].
Proof. unfold load. cbn. now rewrite Nat.add_0_r. Qed.

Lemma dec_same buf a : forall m rem, cc_dec true buf a m rem = rs_dec buf a m rem.
Proof.
  induction a as [n|l IH|a IH] using abi_ind'; intros m rem; cbn.
  - unfold rs_get, cc_next. destruct (Nat.ltb_spec rem n), (Nat.leb_spec n rem); try lia; reflexivity.
  - match goal with |- match ?x with _ => _ end = match ?y with _ => _ end => assert (E : x = y); [|now rewrite E] end.
    revert rem. induction IH as [|a l Ha _ IHl]; intros rem; [reflexivity|].
    rewrite Ha. destruct (rs_dec buf a m rem) as [[v r]|]; [|reflexivity]. now rewrite IHl.
  - unfold rs_get, cc_next. destruct (Nat.ltb_spec rem 1), (Nat.leb_spec 1 rem); try lia; [reflexivity|].
    rewrite load_1. rewrite IH. reflexivity.
Qed.

(** ** Layout: bytes from the lowest to the highest address *)
Fixpoint layout (v : value) : list byte :=
  match v with
  | VBytes bs => bs
  | VTuple vs => (fix go l := match l with [] => [] | v :: l' => go l' ++ layout v end) vs
  | VNone => [false_byte]
  | VSome v => layout v ++ [true_byte]
  end.
Fixpoint layouts (vs : list value) : list byte :=
  match vs with [] => [] | v :: vs' => layouts vs' ++ layout v end.
Lemma layout_tuple vs : layout (VTuple vs) = layouts vs.
Proof. reflexivity. Qed.

Section BelongsInd.
  Variable P : abi -> value -> Prop.
  Hypothesis H1 : forall n bs, length bs = n -> P (Transmute n) (VBytes bs).
  Hypothesis H2 : forall l vs, Forall2 belongs l vs -> Forall2 P l vs -> P (Tuple l) (VTuple vs).
  Hypothesis H3 : forall a, P (Opt a) VNone.
  Hypothesis H4 : forall a v, belongs a v -> P a v -> P (Opt a) (VSome v).
  Fixpoint belongs_ind' a v (b : belongs a v) {struct b} : P a v :=
    match b with
    | B_transmute n bs e => @H1 n bs e
    | B_tuple l vs f => @H2 l vs f ((fix go l vs (f : Forall2 belongs l vs) : Forall2 P l vs :=
         match f with
         | Forall2_nil _ => Forall2_nil P
         | @Forall2_cons _ _ _ x y l l' h t => @Forall2_cons _ _ P x y l l' (belongs_ind' h) (go _ _ t)
         end) _ _ f)
    | B_none a => H3 a
    | B_some a v b => @H4 a v b (belongs_ind' b)
    end.
End BelongsInd.

Lemma layout_size a v : belongs a v -> length (layout v) <= documented_size a /\
  (complete v -> length (layout v) = documented_size a).
Proof.
  intro H. induction H as [n bs E|l vs _ IH|a|a v _ [IH1 IH2]] using belongs_ind'; cbn [layout documented_size].
  - lia.
  - change (length (layouts vs) <= list_sum (map documented_size l) /\
      (complete (VTuple vs) -> length (layouts vs) = list_sum (map documented_size l))).
    induction IH as [|a v l vs [Ha1 Ha2] _ [I1 I2]]; unfold list_sum in *; cbn in *; [auto|].
    rewrite app_length. split; [lia|]. intro Hc. inversion Hc as [|? Hf|]; subst.
    inversion Hf; subst. rewrite I2 by (now constructor). rewrite Ha2 by assumption. lia.
  - cbn. split; [lia|]. intro H; inversion H.
  - rewrite app_length. cbn. split; [lia|]. intro H; inversion H; subst. rewrite IH2 by assumption. lia.
Qed.

(** ** Encoding *)
Definition stored (m m' : memory) (p : nat) (bs : list byte) : Prop :=
  forall x, m' x = store m p bs x.

Lemma store_app m p a b x : store (store m (p + length a) b) p a x = store m p (a ++ b) x.
Proof.
  unfold store. rewrite app_length.
  destruct (Nat.leb_spec p x); cbn; [|].
  - destruct (Nat.ltb_spec x (p + length a)).
    + destruct (Nat.ltb_spec x (p + (length a + length b))); try lia. rewrite app_nth1 by lia. reflexivity.
    + destruct (Nat.leb_spec (p + length a) x); try lia. cbn.
      destruct (Nat.ltb_spec x (p + length a + length b)), (Nat.ltb_spec x (p + (length a + length b))); try lia; [|reflexivity].
      rewrite app_nth2 by lia. f_equal. lia.
  - destruct (Nat.leb_spec (p + length a) x); try lia. reflexivity.
Qed.
Lemma store_ext m m' p bs : (forall x, m x = m' x) -> forall x, store m p bs x = store m' p bs x.
Proof. intros H x. unfold store. now rewrite H. Qed.

Lemma enc_spec buf a v : belongs a v -> forall rem m, length (layout v) <= rem ->
  exists m', rs_enc buf a v (rem, m) = Ok (rem - length (layout v), m') /\
    stored m m' (buf + (rem - length (layout v))) (layout v).
Proof.
  intro H. induction H as [n bs E|l vs _ IH|a|a v _ IH] using belongs_ind'; intros rem m Hr.
  - cbn in *. subst n. rewrite Nat.eqb_refl. destruct (Nat.ltb_spec rem (length bs)); [lia|].
    eexists. split; [reflexivity|]. intro x. reflexivity.
  - rewrite layout_tuple in *. cbn [rs_enc].
    revert rem m Hr. induction IH as [|a v l vs Ha _ IHl]; intros rem m Hr; cbn [layouts length] in *.
    + exists m. rewrite Nat.sub_0_r. split; [reflexivity|]. intro x. unfold store. cbn.
      destruct (Nat.leb_spec (buf + rem) x), (Nat.ltb_spec x (buf + rem + 0)); try lia; reflexivity.
    + rewrite app_length in *. destruct (Ha rem m) as (m1 & E1 & S1); [lia|]. rewrite E1.
      destruct (IHl (rem - length (layout v)) m1) as (m2 & E2 & S2); [lia|]. rewrite E2.
      exists m2. split; [do 2 f_equal; lia|]. intro x. rewrite S2.
      rewrite (@store_ext m1 _ _ _ S1). rewrite <- store_app.
      replace (buf + (rem - (length (layouts vs) + length (layout v))) + length (layouts vs))
        with (buf + (rem - length (layout v))) by lia.
      replace (rem - length (layout v) - length (layouts vs))
        with (rem - (length (layouts vs) + length (layout v))) by lia. reflexivity.
  - cbn in *. destruct (Nat.ltb_spec rem 1); [lia|]. eexists. split; [reflexivity|]. intro x. reflexivity.
  - cbn [layout] in *. rewrite app_length in *. cbn [length] in *. cbn [rs_enc rs_put].
    destruct (Nat.ltb_spec rem 1); [lia|].
    destruct (IH (rem - 1) (store m (buf + (rem - 1)) [true_byte])) as (m2 & E2 & S2); [lia|].
    rewrite E2. exists m2. split; [do 2 f_equal; lia|]. intro x. rewrite S2.
    rewrite <- store_app.
    replace (buf + (rem - (length (layout v) + 1)) + length (layout v)) with (buf + (rem - 1)) by lia.
    replace (rem - 1 - length (layout v)) with (rem - (length (layout v) + 1)) by lia. reflexivity.
Qed.

(** ** Decoding *)
Definition reads (m : memory) (p : nat) (bs : list byte) : Prop :=
  forall i, i < length bs -> m (p + i) = nth i bs x00.
Lemma reads_app m p a b : reads m p (a ++ b) -> reads m p a /\ reads m (p + length a) b.
Proof.
  unfold reads. rewrite app_length. intro H. split; intros i Hi.
  - rewrite H by lia. now rewrite app_nth1.
  - rewrite <- Nat.add_assoc. rewrite H by lia. rewrite app_nth2 by lia. f_equal. lia.
Qed.
Lemma reads_load m p bs : reads m p bs -> load m p (length bs) = bs.
Proof.
  intro H. unfold load. apply nth_ext with (d := x00) (d' := x00); rewrite map_length, seq_length; [reflexivity|].
  intros i Hi. rewrite nth_indep with (d' := m (p + 0)) by (now rewrite map_length, seq_length).
  rewrite (map_nth (fun i => m (p + i))). rewrite seq_nth by lia. now apply H.
Qed.

Lemma dec_spec buf a v : belongs a v -> forall rem m, length (layout v) <= rem ->
  reads m (buf + (rem - length (layout v))) (layout v) ->
  rs_dec buf a m rem = Ok (v, rem - length (layout v)).
Proof.
  intro H. induction H as [n bs E|l vs _ IH|a|a v _ IH] using belongs_ind'; intros rem m Hr Hm.
  - cbn in *. subst n. unfold rs_get. destruct (Nat.ltb_spec rem (length bs)); [lia|].
    now rewrite (reads_load Hm).
  - rewrite layout_tuple in *. cbn [rs_dec].
    match goal with |- match ?f with _ => _ end = _ => assert (E : f = Ok (vs, rem - length (layouts vs))); [|now rewrite E] end.
    revert rem Hr Hm. induction IH as [|a v l vs Ha _ IHl]; intros rem Hr Hm; cbn [layouts length] in *.
    + now rewrite Nat.sub_0_r.
    + rewrite app_length in *. apply reads_app in Hm. destruct Hm as [Hm1 Hm2].
      rewrite Ha; [|lia|].
      * rewrite IHl; [do 2 f_equal; lia|lia|].
        replace (rem - length (layout v) - length (layouts vs))
          with (rem - (length (layouts vs) + length (layout v))) by lia. exact Hm1.
      * replace (buf + (rem - length (layout v)))
          with (buf + (rem - (length (layouts vs) + length (layout v))) + length (layouts vs)) by lia. exact Hm2.
  - cbn in *. unfold rs_get. destruct (Nat.ltb_spec rem 1); [lia|]. rewrite load_1.
    specialize (Hm 0 ltac:(cbn; lia)). cbn in Hm. rewrite Nat.add_0_r in Hm. rewrite Hm. reflexivity.
  - cbn [layout] in *. rewrite app_length in *. cbn [length] in *. apply reads_app in Hm. destruct Hm as [Hm1 Hm2].
    cbn [rs_dec]. unfold rs_get. destruct (Nat.ltb_spec rem 1); [lia|]. rewrite load_1.
    specialize (Hm2 0 ltac:(cbn; lia)). cbn in Hm2. rewrite Nat.add_0_r in Hm2.
    replace (buf + (rem - 1)) with (buf + (rem - (length (layout v) + 1)) + length (layout v)) by lia.
    rewrite Hm2. replace (Byte.eqb true_byte true_byte) with true by reflexivity.
    rewrite IH; [do 2 f_equal; lia|lia|].
    replace (rem - 1 - length (layout v)) with (rem - (length (layout v) + 1)) by lia. exact Hm1.
Qed.

Lemma store_reads m p bs m' : stored m m' p bs -> reads m' p bs.
Proof.
  intros H i Hi. rewrite H. unfold store.
  destruct (Nat.leb_spec p (p + i)), (Nat.ltb_spec (p + i) (p + length bs)); try lia. cbn. f_equal. lia.
Qed.

(** ** Safety on arbitrary memory *)
Definition agree (lo hi : nat) (m m' : memory) : Prop := forall x, lo <= x < hi -> m x = m' x.

Lemma load_agree m m' lo hi a n : agree lo hi m m' -> lo <= a -> a + n <= hi -> load m a n = load m' a n.
Proof.
  intros H H1 H2. unfold load. apply map_ext_in. intros i Hi. apply in_seq in Hi. apply H. lia.
Qed.

Lemma dec_safe buf a : forall rem m, documented_size a <= rem ->
  match rs_dec buf a m rem with
  | Ok (v, rem') => rem - documented_size a <= rem' <= rem
  | Err BadBool => True
  | Err _ => False
  end /\
  forall m', agree (buf + (rem - documented_size a)) (buf + rem) m m' -> rs_dec buf a m' rem = rs_dec buf a m rem.
Proof.
  induction a as [n|l IH|a IH] using abi_ind'; intros rem m Hr; cbn [documented_size] in Hr.
  - cbn. unfold rs_get. destruct (Nat.ltb_spec rem n); [lia|]. split; [lia|]. intros m' Hm.
    erewrite (load_agree (m := m')); [reflexivity| |apply Nat.le_refl|]; [intros x Hx; symmetry; apply Hm; exact Hx|lia].
  - cbn [rs_dec documented_size].
    set (go := fix go (l : list abi) (m : memory) (rem : nat) {struct l} : res (list value * nat) :=
         match l with
         | [] => Ok ([], rem)
         | a :: l' =>
             match rs_dec buf a m rem with
             | Ok (v, rem1) => match go l' m rem1 with Ok (vs, rem2) => Ok (v :: vs, rem2) | Err x => Err x end
             | Err x => Err x
             end
         end).
    assert (Hgo : forall l m rem, (fix go (l : list abi) (rem : nat) : res (list value * nat) :=
         match l with
         | [] => Ok ([], rem)
         | a :: l' =>
             match rs_dec buf a m rem with
             | Ok (v, rem1) => match go l' rem1 with Ok (vs, rem2) => Ok (v :: vs, rem2) | Err x => Err x end
             | Err x => Err x
             end
         end) l rem = go l m rem).
    { clear. intros l m. induction l as [|a l IHl]; intro rem; cbn; [reflexivity|].
      destruct (rs_dec buf a m rem) as [[v r]|]; [|reflexivity]. now rewrite IHl. }
    rewrite Hgo.
    assert (Hmain : match go l m rem with
              | Ok (vs, rem') => rem - list_sum (map documented_size l) <= rem' <= rem
              | Err BadBool => True
              | Err _ => False
              end /\
              forall m', agree (buf + (rem - list_sum (map documented_size l))) (buf + rem) m m' ->
                         go l m' rem = go l m rem).
    { clear Hgo. revert rem Hr. induction IH as [|a l Ha _ IHl]; intros rem Hr.
      - cbn. split; [lia|reflexivity].
      - unfold list_sum in Hr; cbn [map fold_right] in Hr; fold (list_sum (map documented_size l)) in Hr.
        cbn [go map]. change (list_sum (documented_size a :: map documented_size l))
          with (documented_size a + list_sum (map documented_size l)).
        destruct (Ha rem m) as [Ha1 Ha2]; [lia|].
        destruct (rs_dec buf a m rem) as [[v r]|e] eqn:Ea.
        + destruct (IHl r) as [Hl1 Hl2]; [lia|]. split.
          * destruct (go l m r) as [[vs r2]|]; [lia|exact Hl1].
          * intros m' Hm. cbn [go]. rewrite Ha2; [|intros x Hx; apply Hm; lia].
            rewrite Hl2; [reflexivity|]. intros x Hx. apply Hm. lia.
        + split; [exact Ha1|]. intros m' Hm. cbn [go]. rewrite Ha2; [reflexivity|intros x Hx; apply Hm; lia]. }
    destruct Hmain as [Hm1 Hm2]. split.
    + destruct (go l m rem) as [[vs r]|]; [|exact Hm1]. exact Hm1.
    + intros m' Hm. rewrite Hgo. now rewrite Hm2.
  - cbn [rs_dec documented_size]. unfold rs_get. destruct (Nat.ltb_spec rem 1); [lia|]. rewrite load_1.
    destruct (IH (rem - 1) m) as [I1 I2]; [lia|]. split.
    + destruct (Byte.eqb _ true_byte).
      * destruct (rs_dec buf a m (rem - 1)) as [[v r]|]; [lia|exact I1].
      * destruct (Byte.eqb _ false_byte); [lia|exact I].
    + intros m' Hm. rewrite load_1. rewrite <- (Hm (buf + (rem - 1))) by lia.
      rewrite I2; [reflexivity|]. intros x Hx. apply Hm. lia.
Qed.
