(** What each operation of vector.rs does to the memory invariant. *)
From Coq Require Import List Arith Lia Bool Permutation.
Import ListNotations.
From Verif.CcVector Require Import Model Spec Heap.

Section Ops.
Context {E : Type}.
Variable clone : E -> E.
Variable asan lens : bool.
Implicit Types (w : @world E) (xs ys : list E).
Notation good := (good asan).
Notation mkv := (set_begin_len_capacity lens).

Definition shape (s : vector) xs : Prop := s = mkv (begin_ s) (length xs) (capacity s) /\ length xs <= capacity s.
Definition vown (s : vector) xs : own := Own (begin_ s) (capacity s) (begin_ s) xs true.
Definition as_std (s : vector) : vec := create_vec_from_raw_parts (begin_ s) (len s) (capacity s).

Lemma mkv_begin p l n : begin_ (mkv p l n) = if n =? 0 then 0 else p.
Proof. unfold set_begin_len_capacity, null. destruct (n =? 0), lens; reflexivity. Qed.
Lemma mkv_len p l n : len (mkv p l n) = l.
Proof. unfold set_begin_len_capacity, null. destruct (n =? 0), lens; cbn; lia. Qed.
Lemma mkv_capacity p l n : capacity (mkv p l n) = n.
Proof. unfold set_begin_len_capacity, null. destruct (n =? 0), lens; cbn; lia. Qed.
Lemma mkv_end p l n : end_ (mkv p l n) = begin_ (mkv p l n) + l.
Proof. unfold set_begin_len_capacity, null. destruct (n =? 0), lens; reflexivity. Qed.
Lemma mkv_capacity_end p l n : capacity_end (mkv p l n) = begin_ (mkv p l n) + n.
Proof. unfold set_begin_len_capacity, null. destruct (n =? 0), lens; reflexivity. Qed.

Lemma shape_mkv p xs n : length xs <= n -> shape (mkv p (length xs) n) xs.
Proof.
  intros L. split; [|now rewrite mkv_capacity]. rewrite mkv_capacity, mkv_begin.
  unfold set_begin_len_capacity, null. destruct (n =? 0), lens; reflexivity.
Qed.

Lemma shape_len s xs : shape s xs -> len s = length xs.
Proof. intros [-> _]. rewrite mkv_len. reflexivity. Qed.
Lemma shape_end s xs : shape s xs -> end_ s = begin_ s + length xs.
Proof. intros [H _]. rewrite H at 1. rewrite mkv_end. rewrite <- H. reflexivity. Qed.
Lemma shape_capacity_end s xs : shape s xs -> capacity_end s = begin_ s + capacity s.
Proof. intros [H _]. rewrite H at 1. rewrite mkv_capacity_end. rewrite <- H. reflexivity. Qed.

Lemma vown_zero c w s xs gs : good c w (vown s xs :: gs) -> begin_ s = 0 -> capacity s = 0.
Proof.
  intros (_ & _ & C) Z. inversion C as [|? ? (H1 & H2 & _) _]; subst. cbn in *.
  destruct (Nat.eq_dec (capacity s) 0) as [|N]; [assumption|]. destruct (H2 N). lia.
Qed.

Lemma shape_nil s xs : shape s xs -> capacity s = 0 -> xs = [].
Proof. intros [_ L] Z. rewrite Z in L. destruct xs; [auto | cbn in L; lia]. Qed.

(** ** ASan *)

Lemma unpoison_ok c w s xs gs :
  shape s xs -> good c w (vown s xs :: gs) ->
  exists w', asan_unpoison_tail asan w s = Ok w' /\ good c w' (std (as_std s) xs :: gs) /\ dropped w' = dropped w /\
             vlen (as_std s) = length xs /\ length xs <= vcap (as_std s) /\ vcap (as_std s) = capacity s.
Proof.
  intros S G. pose proof G as (A & B & C). inversion C as [|? ? (H1 & H2 & H3 & H4) C2]; subst. cbn in H1, H2, H3, H4.
  pose proof (shape_len _ _ S) as SL. pose proof S as [_ SC].
  destruct H4 as (_ & H4 & H5).
  destruct (Nat.eq_dec (begin_ s) 0) as [Z|Z].
  - (* null *)
    pose proof (vown_zero _ _ _ _ _ G Z) as CZ. pose proof (shape_nil _ _ S CZ) as ->.
    assert (U : exists w', asan_unpoison_tail asan w s = Ok w' /\ mem w' = mem w /\ blocks w' = blocks w /\ dropped w' = dropped w /\
                           (forall a, poisoned w' a = poisoned w a)).
    { unfold asan_unpoison_tail. destruct asan; [|exists w; auto].
      unfold annotate. rewrite (shape_end _ _ S), (shape_capacity_end _ _ S), CZ, Z. cbn.
      eexists. split; [reflexivity|]. cbn. repeat split; auto; intros a; destruct a; reflexivity. }
    destruct U as (w' & E1 & E2 & E3 & E4 & E5). exists w'. split; [exact E1|].
    unfold as_std, create_vec_from_raw_parts. rewrite Z. cbn. split; [|auto].
    apply (good_add_empty asan c w' gs dangling false).
    eapply good_drop_empty in G; [|exact CZ]. destruct G as (GA & GB & GC).
    split; [rewrite E3; exact GA|]. split; [exact GB|].
    eapply Forall_impl; [|exact GC]. intros g. apply holds_frame. intros a _. now rewrite E2, E5.
  - assert (AS : as_std s = Vec (begin_ s) (length xs) (capacity s)).
    { unfold as_std, create_vec_from_raw_parts. destruct (begin_ s =? null) eqn:Q; [apply Nat.eqb_eq in Q; unfold null in Q; lia|].
      now rewrite SL. }
    rewrite AS. cbn.
    assert (U : exists w', asan_unpoison_tail asan w s = Ok w' /\ mem w' = mem w /\ blocks w' = blocks w /\ dropped w' = dropped w /\
                           (forall a, begin_ s <= a < begin_ s + capacity s -> poisoned w' a = false) /\
                           (forall a, ~ (begin_ s <= a < begin_ s + capacity s) -> poisoned w' a = poisoned w a)).
    { unfold asan_unpoison_tail. destruct asan; [|exists w; repeat split; auto].
      unfold annotate. rewrite (shape_end _ _ S), (shape_capacity_end _ _ S).
      assert (Q : (begin_ s <=? begin_ s + length xs) && (begin_ s + length xs <=? begin_ s + capacity s) &&
                  (begin_ s <=? begin_ s + capacity s) && (begin_ s + capacity s <=? begin_ s + capacity s) = true).
      { rewrite !andb_true_iff, !Nat.leb_le. lia. }
      rewrite Q. eexists. split; [reflexivity|]. cbn [mem blocks dropped poisoned]. repeat split; auto.
      - intros a Ha. destruct ((begin_ s + length xs <=? a) && (a <? begin_ s + capacity s)) eqn:T; [reflexivity|].
        rewrite andb_false_iff, Nat.leb_gt, Nat.ltb_ge in T.
        destruct ((begin_ s + capacity s <=? a) && (a <? begin_ s + length xs)) eqn:T2.
        { rewrite andb_true_iff, Nat.leb_le, Nat.ltb_lt in T2. lia. }
        destruct (nth_error xs (a - begin_ s)) as [x|] eqn:Nx.
        + destruct (H3 _ _ Nx) as [_ P]. replace (begin_ s + (a - begin_ s)) with a in P by lia. exact P.
        + apply nth_error_None in Nx. lia.
      - intros a Ha. destruct ((begin_ s + length xs <=? a) && (a <? begin_ s + capacity s)) eqn:T.
        { rewrite andb_true_iff, Nat.leb_le, Nat.ltb_lt in T. lia. }
        destruct ((begin_ s + capacity s <=? a) && (a <? begin_ s + length xs)) eqn:T2; [|reflexivity].
        rewrite andb_true_iff, Nat.leb_le, Nat.ltb_lt in T2. lia. }
    destruct U as (w' & E1 & E2 & E3 & E4 & E5 & E6). exists w'. split; [exact E1|]. split; [|auto].
    split; [rewrite E3; exact A|]. split; [exact B|]. constructor.
    + split; [|split; [|split]]; cbn; auto.
      intros i x Hi. destruct (H3 i x Hi) as [M P]. rewrite E2. split; [exact M|]. apply E5.
      assert (i < length xs) by (apply nth_error_Some; rewrite Hi; discriminate). lia.
    + eapply good_others; [exact G|]. intros a Ha. rewrite E2. split; [reflexivity|]. apply E6.
      intros K. assert (in_block (begin_ s, capacity s) a = true) by (apply in_block_iff; cbn; lia). cbn in Ha. congruence.
Qed.

Lemma poison_ok c w v xs gs :
  vlen v = length xs -> length xs <= vcap v -> good c w (std v xs :: gs) ->
  let s := mkv (vptr v) (vlen v) (vcap v) in
  exists w', asan_poison_tail asan w s = Ok w' /\ good c w' (vown s xs :: gs) /\ dropped w' = dropped w /\ shape s xs /\
             capacity s = vcap v.
Proof.
  intros L1 L2 G s.
  assert (S : shape s xs) by (unfold s; rewrite L1; now apply shape_mkv).
  assert (SC : capacity s = vcap v) by (unfold s; apply mkv_capacity).
  pose proof G as (A & B & C). inversion C as [|? ? (H1 & H2 & H3 & H4) C2]; subst. cbn in H1, H2, H3, H4.
  destruct (Nat.eq_dec (vcap v) 0) as [Z|Z].
  - assert (xs = []) as -> by auto.
    assert (BZ : begin_ s = 0) by (unfold s; rewrite mkv_begin, Z; reflexivity).
    assert (U : exists w', asan_poison_tail asan w s = Ok w' /\ mem w' = mem w /\ blocks w' = blocks w /\ dropped w' = dropped w /\
                           (forall a, poisoned w' a = poisoned w a)).
    { unfold asan_poison_tail. destruct asan; [|exists w; auto].
      unfold annotate. rewrite (shape_end _ _ S), (shape_capacity_end _ _ S), SC, Z, BZ. cbn.
      eexists. split; [reflexivity|]. cbn. repeat split; auto; intros a; destruct a; reflexivity. }
    destruct U as (w' & E1 & E2 & E3 & E4 & E5). exists w'. split; [exact E1|]. split; [|auto].
    unfold vown. rewrite SC, Z. apply (good_add_empty asan c w' gs (begin_ s) true).
    eapply good_drop_empty in G; [|exact Z]. destruct G as (GA & GB & GC).
    split; [rewrite E3; exact GA|]. split; [exact GB|].
    eapply Forall_impl; [|exact GC]. intros g. apply holds_frame. intros a _. now rewrite E2, E5.
  - assert (BZ : begin_ s = vptr v).
    { unfold s. rewrite mkv_begin. destruct (vcap v =? 0) eqn:Q; [apply Nat.eqb_eq in Q; lia | reflexivity]. }
    specialize (H2 Z).
    assert (U : exists w', asan_poison_tail asan w s = Ok w' /\ mem w' = mem w /\ blocks w' = blocks w /\ dropped w' = dropped w /\
                           (forall a, vptr v <= a < vptr v + length xs -> poisoned w' a = false) /\
                           (forall a, vptr v + length xs <= a < vptr v + vcap v -> poisoned w' a = asan) /\
                           (forall a, ~ (vptr v <= a < vptr v + vcap v) -> poisoned w' a = poisoned w a)).
    { unfold asan_poison_tail. destruct asan.
      2: { exists w; repeat split; auto; intros a Ha; apply H4; lia. }
      unfold annotate. rewrite (shape_end _ _ S), (shape_capacity_end _ _ S), SC, BZ.
      assert (Q : (vptr v <=? vptr v + vcap v) && (vptr v + vcap v <=? vptr v + vcap v) &&
                  (vptr v <=? vptr v + length xs) && (vptr v + length xs <=? vptr v + vcap v) = true).
      { rewrite !andb_true_iff, !Nat.leb_le. lia. }
      rewrite Q. eexists. split; [reflexivity|]. cbn [mem blocks dropped poisoned].
      assert (T : forall a, (vptr v + vcap v <=? a) && (a <? vptr v + length xs) = false).
      { intros a. apply andb_false_iff. rewrite Nat.leb_gt, Nat.ltb_ge. lia. }
      repeat split; auto; intros a Ha; rewrite T;
        destruct ((vptr v + length xs <=? a) && (a <? vptr v + vcap v)) eqn:T2;
        rewrite ?andb_true_iff, ?andb_false_iff, ?Nat.leb_le, ?Nat.ltb_lt, ?Nat.leb_gt, ?Nat.ltb_ge in T2; try lia; auto.
      apply H4; lia. }
    destruct U as (w' & E1 & E2 & E3 & E4 & E5 & E6 & E7). exists w'. split; [exact E1|]. split; [|auto].
    split; [|split].
    + rewrite E3, A. cbn. unfold gblock; cbn. rewrite SC, BZ. reflexivity.
    + cbn in B |- *. unfold gblock in *; cbn in *. rewrite SC, BZ. exact B.
    + constructor.
      * split; [|split; [|split]]; cbn; rewrite ?SC, ?BZ; auto; try lia.
        -- intros i x Hi. destruct (H3 i x Hi) as [M P]. rewrite E2. split; [exact M|]. apply E5.
           assert (i < length xs) by (apply nth_error_Some; rewrite Hi; discriminate). lia.
        -- split; [reflexivity|]. split.
           ++ intros AZ a Ha. destruct (le_lt_dec (vptr v + length xs) a); [rewrite E6 by lia; exact AZ | apply E5; lia].
           ++ intros AZ _ a Ha. rewrite E6 by lia. exact AZ.
      * eapply good_others; [exact G|]. intros a Ha. rewrite E2. split; [reflexivity|]. apply E7.
        intros K. assert (in_block (vptr v, vcap v) a = true) by (apply in_block_iff; cbn; lia). cbn in Ha. congruence.
Qed.

(** A panic between the two leaves the vector usable, its tail unpoisoned. *)
Lemma std_to_vown c w s xs gs :
  shape s xs -> (begin_ s = 0 -> capacity s = 0) -> good c w (std (as_std s) xs :: gs) -> good false w (vown s xs :: gs).
Proof.
  intros S NZ G. unfold as_std, create_vec_from_raw_parts in G. destruct (begin_ s =? null) eqn:Q.
  - apply Nat.eqb_eq in Q. unfold null in Q. pose proof (NZ Q) as CZ. pose proof (shape_nil _ _ S CZ) as ->.
    unfold vown. rewrite CZ. apply good_add_empty. apply good_drop_empty in G; [|reflexivity]. eapply good_unclean; eauto.
  - apply good_unclean in G. destruct G as (A & B & C). split; [exact A|]. split; [exact B|].
    inversion C as [|? ? (H1 & H2 & H3 & H4) C2]; subst. cbn in H1, H2, H3, H4.
    constructor; [|exact C2]. split; [|split; [|split]]; cbn; auto.
    split; [auto|]. split; [auto|]. discriminate.
Qed.

(** ** The methods *)

Lemma vec_call_ok op ch c w v xs gs :
  vlen v = length xs -> good c w (std v xs :: gs) ->
  safe (vec_call clone op ch w v)
    (fun '(w', v', out) =>
       match std_vec clone op xs with
       | None => out = Panicked /\ v' = v /\ good c w' (std v xs :: gs) /\ dropped w' = dropped w ++ moved_in op
       | Some (ys, ds, r) =>
           out = Done r /\ good c w' (std v' ys :: gs) /\ vlen v' = length ys /\ length ys <= vcap v' /\ promised op xs <= vcap v' /\
           dropped w' = dropped w ++ ds
       end).
Proof.
  intros L G. unfold vec_call. rewrite L.
  pose proof (read_all_ok asan c w _ _ G) as R. cbn in R. rewrite R. cbn [bind].
  destruct (std_vec clone op xs) as [[[ys ds] r]|] eqn:SV.
  - eapply safe_bind; [eapply vec_store_ok; exact G|].
    intros [w1 v1] (G1 & L1 & L2 & L3 & D1). cbn.
    split; [reflexivity|]. split; [now apply drop_all_good|]. rewrite D1. auto.
  - cbn. split; [reflexivity|]. split; [reflexivity|]. split; [now apply drop_all_good | reflexivity].
Qed.

Lemma call_ok c w s xs gs m ch :
  shape s xs -> good c w (vown s xs :: gs) ->
  safe (call clone asan lens w s m ch)
    (fun '(w', s', out) =>
       match std_vec clone (method_call m) xs with
       | None => out = Panicked /\ s' = s /\ good false w' (vown s xs :: gs) /\ dropped w' = dropped w ++ moved_in (method_call m)
       | Some (ys, ds, r) =>
           out = Done r /\ shape s' ys /\ good c w' (vown s' ys :: gs) /\ promised (method_call m) xs <= capacity s' /\
           dropped w' = dropped w ++ ds
       end).
Proof.
  intros S G. unfold call, mutate_self_as_vec.
  destruct (unpoison_ok c w s xs gs S G) as (w1 & E1 & G1 & D1 & L1 & L2 & _). rewrite E1. cbn [bind].
  fold (as_std s).
  eapply safe_bind; [eapply vec_call_ok; [exact L1 | exact G1]|].
  intros [[w2 v2] out]. destruct (std_vec clone (method_call m) xs) as [[[ys ds] r]|].
  - intros (-> & G2 & L3 & L4 & L5 & D2).
    destruct (poison_ok c w2 v2 ys gs L3 L4 G2) as (w3 & E3 & G3 & D3 & S3 & C3). rewrite E3. cbn.
    split; [reflexivity|]. split; [exact S3|]. split; [exact G3|]. rewrite C3. split; [exact L5|]. congruence.
  - intros (-> & -> & G2 & D2). cbn. split; [reflexivity|]. split; [reflexivity|]. split.
    + eapply std_to_vown; [exact S | intros Z; eapply vown_zero; [exact G | exact Z] | exact G2].
    + congruence.
Qed.

Lemma new_ok : shape (new lens) (@nil E) /\ capacity (new lens) = 0 /\ begin_ (new lens) = 0.
Proof. unfold new, shape, set_begin_len_capacity. destruct lens; cbn; auto. Qed.

Lemma good_new c w gs : good c w gs -> good c w (vown (new lens) [] :: gs).
Proof. intros G. destruct new_ok as (_ & C & B). unfold vown. rewrite C, B. now apply good_add_empty. Qed.

Lemma from_std_vec_ok c w v xs gs :
  vlen v = length xs -> length xs <= vcap v -> good c w (std v xs :: gs) ->
  safe (from_std_vec asan lens w v)
    (fun '(w', s') => shape s' xs /\ good c w' (vown s' xs :: gs) /\ dropped w' = dropped w).
Proof.
  intros L1 L2 G. unfold from_std_vec.
  destruct (poison_ok c w v xs gs L1 L2 G) as (w3 & E3 & G3 & D3 & S3 & C3). rewrite E3. cbn. auto.
Qed.

Lemma append_ok c w s other xs ys gs ch :
  shape s xs -> shape other ys -> good c w (vown s xs :: vown other ys :: gs) ->
  safe (append asan lens w s other ch)
    (fun '(w', s', other') => shape s' (xs ++ ys) /\ shape other' (@nil E) /\
        good c w' (vown s' (xs ++ ys) :: vown other' [] :: gs) /\ dropped w' = dropped w).
Proof.
  intros S1 S2 G. unfold append.
  destruct (unpoison_ok c w s xs _ S1 G) as (w1 & E1 & G1 & D1 & L1 & L2 & _). rewrite E1. cbn [bind].
  apply good_swap in G1.
  destruct (unpoison_ok c w1 other ys _ S2 G1) as (w2 & E2 & G2 & D2 & L3 & L4 & _). rewrite E2. cbn [bind].
  fold (as_std s) (as_std other).
  unfold vec_append. rewrite L1, L3.
  pose proof (read_all_ok asan c w2 _ _ G2) as R2. cbn in R2.
  apply good_swap in G2.
  pose proof (read_all_ok asan c w2 _ _ G2) as R1. cbn in R1.
  rewrite R1. cbn [bind]. rewrite R2. cbn [bind].
  pose proof (vec_store_ok asan c w2 _ _ _ (xs ++ ys) 0 ch G2) as VS.
  destruct (vec_store w2 (as_std s) (xs ++ ys) 0 ch) as [[w3 v1]| |]; cbn in VS |- *; auto.
  destruct VS as (G3 & L5 & L6 & _ & D3).
  apply good_swap in G3.
  assert (G4 : good c w3 (std (Vec (vptr (as_std other)) 0 (vcap (as_std other))) [] :: std v1 (xs ++ ys) :: gs)).
  { destruct G3 as (A & B & C). split; [exact A|]. split; [exact B|].
    inversion C as [|? ? (H1 & H2 & H3 & H4) C2]; subst. constructor; [|exact C2]. cbn in *.
    split; [|split; [|split]]; cbn; auto.
    - intros Z. specialize (H2 Z). lia.
    - intros i x Hi. destruct i; discriminate. }
  destruct (poison_ok c w3 (Vec (vptr (as_std other)) 0 (vcap (as_std other))) [] _ eq_refl (Nat.le_0_l _) G4) as (w4 & E4 & G5 & D4 & S4 & C4).
  cbn in E4. rewrite E4. cbn [bind].
  apply good_swap in G5.
  destruct (poison_ok c w4 v1 (xs ++ ys) _ L5 L6 G5) as (w5 & E5 & G6 & D5 & S5 & C5).
  rewrite E5. cbn. split; [exact S5|]. split; [exact S4|]. split; [exact G6|]. congruence.
Qed.

Lemma split_off_ok c w s xs gs n ch :
  shape s xs -> good c w (vown s xs :: gs) ->
  safe (split_off asan lens w s n ch)
    (fun '(w', s', r) =>
       match r with
       | None => length xs < n /\ s' = s /\ good false w' (vown s xs :: gs) /\ dropped w' = dropped w
       | Some s2 => n <= length xs /\ shape s' (firstn n xs) /\ shape s2 (skipn n xs) /\
                    good c w' (vown s2 (skipn n xs) :: vown s' (firstn n xs) :: gs) /\ dropped w' = dropped w
       end).
Proof.
  intros S G. unfold split_off.
  destruct (unpoison_ok c w s xs _ S G) as (w1 & E1 & G1 & D1 & L1 & L2 & _). rewrite E1. cbn [bind].
  fold (as_std s). unfold vec_split_off. rewrite L1.
  pose proof (read_all_ok asan c w1 _ _ G1) as R1. cbn in R1. rewrite R1. cbn [bind].
  destruct (n <=? length xs) eqn:Q.
  - apply Nat.leb_le in Q.
    assert (G2 : good c w1 (std vec_new [] :: std (as_std s) xs :: gs)) by (apply good_add_empty; exact G1).
    pose proof (vec_store_ok asan c w1 _ _ _ (skipn n xs) 0 ch G2) as VS.
    destruct (vec_store w1 vec_new (skipn n xs) 0 ch) as [[w2 o]| |]; cbn in VS |- *; auto.
    destruct VS as (G3 & L3 & L4 & _ & D3).
    apply good_swap in G3.
    assert (LF : length (firstn n xs) = n) by (rewrite firstn_length; lia).
    assert (G4 : good c w2 (std (Vec (vptr (as_std s)) n (vcap (as_std s))) (firstn n xs) :: std o (skipn n xs) :: gs)).
    { destruct G3 as (A & B & C). split; [exact A|]. split; [exact B|].
      inversion C as [|? ? (H1 & H2 & H3 & H4) C2]; subst. constructor; [|exact C2]. cbn in *.
      split; [|split; [|split]]; cbn; auto.
      - intros Z. rewrite (H1 Z). now rewrite firstn_nil.
      - intros Z. specialize (H2 Z). lia.
      - intros i x Hi. apply H3.
        assert (i < n). { apply nth_error_Some_bound || idtac. assert (i < length (firstn n xs)) by (apply nth_error_Some; rewrite Hi; discriminate). lia. }
        rewrite <- (firstn_skipn n xs). rewrite nth_error_app1 by lia. exact Hi. }
    assert (LV : vlen (Vec (vptr (as_std s)) n (vcap (as_std s))) = length (firstn n xs)) by (cbn; lia).
    assert (LC : length (firstn n xs) <= vcap (Vec (vptr (as_std s)) n (vcap (as_std s)))) by (cbn; lia).
    destruct (poison_ok c w2 _ _ _ LV LC G4) as (w3 & E3 & G5 & D4 & S3 & C3). cbn in E3. rewrite E3. cbn [bind].
    apply good_swap in G5.
    eapply safe_bind; [eapply from_std_vec_ok; [exact L3 | exact L4 | exact G5]|].
    intros [w4 s2] (S2 & G6 & D5). cbn. split; [exact Q|]. split; [exact S3|]. split; [exact S2|]. split; [exact G6|]. congruence.
  - apply Nat.leb_gt in Q. cbn. split; [exact Q|]. split; [reflexivity|]. split; [|exact D1].
    eapply std_to_vown; [exact S | intros Z; eapply vown_zero; [exact G | exact Z] | exact G1].
Qed.

Lemma drop_ok c w s xs gs :
  shape s xs -> good c w (vown s xs :: gs) ->
  exists w', drop asan w s = Ok w' /\ good c w' gs /\ dropped w' = dropped w ++ xs.
Proof.
  intros S G. unfold drop, null. destruct (begin_ s =? 0) eqn:Z; cbn [negb].
  - apply Nat.eqb_eq in Z. pose proof (vown_zero _ _ _ _ _ G Z) as CZ. pose proof (shape_nil _ _ S CZ) as ->.
    exists w. split; [reflexivity|]. rewrite app_nil_r. split; [|reflexivity]. eapply good_drop_empty; [exact G | exact CZ].
  - destruct (unpoison_ok c w s xs _ S G) as (w1 & E1 & G1 & D1 & L1 & L2 & _). rewrite E1. cbn [bind].
    unfold as_std, create_vec_from_raw_parts, null in *. rewrite Z in *.
    unfold vec_drop. cbn in L1. cbn [vptr vlen]. rewrite L1.
    pose proof (read_all_ok asan c w1 _ _ G1) as R1. cbn in R1. rewrite R1. cbn [bind].
    apply (drop_all_good asan c w1 _ xs) in G1.
    destruct (free_buffer_ok asan c _ _ _ (length xs) _ _ _ _ G1) as (w2 & E2 & G2 & D2).
    exists w2. split; [exact E2|]. split; [exact G2|]. rewrite D2. cbn. now rewrite D1.
Qed.

Lemma set_len_shape s xs ys :
  shape s xs -> length ys <= capacity s ->
  (match s with Lengths b _ c => Lengths b (length ys) c | Pointers b _ c => Pointers b (b + length ys) c end)
  = mkv (begin_ s) (length ys) (capacity s).
Proof.
  intros [H L] L2. remember (capacity s) as n eqn:Hn. remember (begin_ s) as p eqn:Hp.
  rewrite H in *. clear H. unfold set_begin_len_capacity in *.
  destruct (n =? 0) eqn:Z, lens; cbn in *; subst; auto.
Qed.

Lemma into_vec_ok c w s xs gs :
  shape s xs -> good c w (vown s xs :: gs) ->
  exists w', into_vec asan w s = Ok (w', xs) /\ good c w' gs /\ dropped w' = dropped w.
Proof.
  intros S G. unfold into_vec.
  pose proof (read_all_ok asan c w _ _ G) as R. cbn in R. rewrite (shape_len _ _ S), R. cbn [bind].
  destruct (unpoison_ok c w s xs _ S G) as (w1 & E1 & G1 & D1 & L1 & L2 & CE). rewrite E1. cbn [bind].
  unfold set_len.
  pose proof (set_len_shape s xs (@nil E) S (Nat.le_0_l _)) as SL. cbn [length] in SL. rewrite SL.
  assert (G2 : good c w1 (std (Vec (vptr (as_std s)) 0 (vcap (as_std s))) [] :: gs)).
  { destruct G1 as (A & B & C). split; [exact A|]. split; [exact B|].
    inversion C as [|? ? (H1 & H2 & H3 & H4) C2]; subst. constructor; [|exact C2]. cbn in *.
    split; [|split; [|split]]; cbn; auto.
    - intros Z. specialize (H2 Z). lia.
    - intros i x Hi. destruct i; discriminate. }
  destruct (poison_ok c w1 (Vec (vptr (as_std s)) 0 (vcap (as_std s))) [] _ eq_refl (Nat.le_0_l _) G2) as (w2 & E2 & G3 & D2 & S2 & C2).
  cbn [vptr vlen vcap] in *.
  assert (SE : mkv (vptr (as_std s)) 0 (vcap (as_std s)) = mkv (begin_ s) 0 (capacity s)).
  { rewrite CE. unfold as_std, create_vec_from_raw_parts in *. unfold null in *. destruct (begin_ s =? 0) eqn:Z; [|reflexivity].
    cbn in CE. rewrite <- CE. unfold set_begin_len_capacity. reflexivity. }
  rewrite SE in *. rewrite E2. cbn [bind].
  destruct (drop_ok c w2 _ _ _ S2 G3) as (w3 & E3 & G4 & D3). rewrite E3. cbn [bind].
  exists w3. split; [reflexivity|]. split; [exact G4|]. rewrite D3, app_nil_r. congruence.
Qed.

Lemma as_slice_ok c w s xs gs : shape s xs -> good c w (vown s xs :: gs) -> as_slice w s = Ok xs.
Proof.
  intros S G. unfold as_slice, null. destruct (begin_ s =? 0) eqn:Z.
  - apply Nat.eqb_eq in Z. pose proof (vown_zero _ _ _ _ _ G Z) as CZ. now rewrite (shape_nil _ _ S CZ).
  - rewrite (shape_len _ _ S). exact (read_all_ok asan c w _ _ G).
Qed.

Lemma deref_ok c w s xs gs : shape s xs -> good c w (vown s xs :: gs) -> deref w s = Ok xs.
Proof.
  intros S G. unfold deref, is_empty. rewrite (shape_len _ _ S). destruct (length xs =? 0) eqn:Z.
  - apply Nat.eqb_eq in Z. destruct xs; [reflexivity | discriminate].
  - exact (read_all_ok asan c w _ _ G).
Qed.

Lemma cpp_read_ok c w s xs gs : shape s xs -> good c w (vown s xs :: gs) -> cpp_read w s = Ok xs.
Proof.
  intros S G. unfold cpp_read. rewrite (shape_end _ _ S). replace (begin_ s + length xs - begin_ s) with (length xs) by lia.
  exact (read_all_ok asan c w _ _ G).
Qed.

Lemma assign_ok c w s gs i x xs :
  shape s xs -> good c w (vown s xs :: gs) ->
  safe (assign_index w s i x)
    (fun '(w', r) =>
       match r with
       | None => length xs <= i /\ good c w' (vown s xs :: gs) /\ dropped w' = dropped w ++ [x]
       | Some _ => exists l y ys, xs = l ++ y :: ys /\ i = length l /\
                   shape s (l ++ x :: ys) /\ good c w' (vown s (l ++ x :: ys) :: gs) /\ dropped w' = dropped w ++ [y]
       end).
Proof.
  intros S G. unfold assign_index, null. destruct (begin_ s =? 0) eqn:Z.
  - apply Nat.eqb_eq in Z. pose proof (vown_zero _ _ _ _ _ G Z) as CZ. pose proof (shape_nil _ _ S CZ) as ->.
    cbn. split; [lia|]. split; [now apply drop_all_good | reflexivity].
  - rewrite (shape_len _ _ S). destruct (i <? length xs) eqn:Q.
    2: { apply Nat.ltb_ge in Q. cbn. split; [lia|]. split; [now apply drop_all_good | reflexivity]. }
    apply Nat.ltb_lt in Q. apply Nat.eqb_neq in Z.
    destruct (nth_error xs i) as [y|] eqn:Ny; [|apply nth_error_None in Ny; lia].
    pose proof (read_ok asan c w _ _ i y G Ny) as R. cbn in R. rewrite R. cbn [bind].
    apply nth_error_split in Ny. destruct Ny as (l & ys & -> & <-).
    pose proof G as (A & B & C). inversion C as [|? ? (H1 & H2 & H3 & H4) C2]; subst. cbn in H1, H2, H3, H4.
    destruct H4 as (_ & H4 & H5).
    assert (CN : capacity s <> 0).
    { intros CZ. rewrite (H1 CZ) in Q. cbn in Q. lia. }
    specialize (H2 CN).
    assert (AL : allocated w (begin_ s + length l) = true).
    { eapply allocated_of_good; [exact G|]. apply in_block_iff; cbn. rewrite app_length in *. cbn in *. lia. }
    destruct (H3 (length l) y) as [M P]. { rewrite nth_error_app2 by lia. now rewrite Nat.sub_diag. }
    unfold write. rewrite AL, P. cbn.
    exists l, y, ys. split; [reflexivity|]. split; [reflexivity|].
    assert (LE : length (l ++ x :: ys) = length (l ++ y :: ys)) by (rewrite !app_length; reflexivity).
    split; [destruct S as [S1 S2]; split; [rewrite LE; exact S1 | rewrite LE; exact S2]|].
    split; [|reflexivity]. apply drop_all_good.
    split; [exact A|]. split; [exact B|]. constructor.
    + split; [|split; [|split]]; cbn; rewrite ?LE; auto.
      * tauto.
      * intros j z Hj. cbn. unfold upd. destruct (begin_ s + j =? begin_ s + length l) eqn:J.
        -- apply Nat.eqb_eq in J. assert (j = length l) by lia. subst j.
           rewrite nth_error_app2 in Hj by lia. rewrite Nat.sub_diag in Hj. cbn in Hj. injection Hj as ->. auto.
        -- apply Nat.eqb_neq in J. apply H3. destruct (le_lt_dec (length l) j).
           ++ rewrite nth_error_app2 in Hj |- * by lia. destruct (j - length l) eqn:K; [lia|]. exact Hj.
           ++ rewrite nth_error_app1 in Hj |- * by lia. exact Hj.
    + eapply good_others; [exact G|]. intros a Ha. cbn. split; [|reflexivity]. unfold upd.
      destruct (a =? begin_ s + length l) eqn:J; [|reflexivity].
      apply Nat.eqb_eq in J. subst a. cbn in Ha.
      assert (in_block (begin_ s, capacity s) (begin_ s + length l) = true).
      { apply in_block_iff; cbn. rewrite app_length in *. cbn in *. lia. }
      congruence.
Qed.

Lemma clone_ok c w s xs gs ch :
  shape s xs -> good c w (vown s xs :: gs) ->
  safe (clone_vector clone asan lens w s ch)
    (fun '(w', s') => shape s' (map clone xs) /\ good c w' (vown s' (map clone xs) :: vown s xs :: gs) /\ dropped w' = dropped w).
Proof.
  intros S G. unfold clone_vector.
  assert (R : read_all w (vptr (as_std s)) (vlen (as_std s)) = Ok xs).
  { unfold as_std, create_vec_from_raw_parts, null. destruct (begin_ s =? 0) eqn:Z; cbn.
    - apply Nat.eqb_eq in Z. pose proof (vown_zero _ _ _ _ _ G Z) as CZ. now rewrite (shape_nil _ _ S CZ).
    - rewrite (shape_len _ _ S). exact (read_all_ok asan c w _ _ G). }
  fold (as_std s). rewrite R. cbn [bind].
  assert (G2 : good c w (std vec_new [] :: vown s xs :: gs)) by (apply good_add_empty; exact G).
  eapply safe_bind; [eapply vec_store_ok; exact G2|].
  intros [w1 v1] (G3 & L1 & L2 & _ & D1).
  eapply safe_imp; [eapply from_std_vec_ok; [exact L1 | exact L2 | exact G3]|].
  intros [w2 s2] (S2 & G4 & D2). split; [exact S2|]. split; [exact G4|]. congruence.
Qed.

Lemma from_elements_ok c w xs gs m ch1 ch2 ys :
  good c w gs -> std_vec clone (method_call m) [] = Some (ys, [], []) ->
  safe (from_elements clone asan lens w xs m ch1 ch2)
    (fun '(w', s') => shape s' ys /\ good c w' (vown s' ys :: gs) /\ dropped w' = dropped w).
Proof.
  intros G SV. unfold from_elements, with_capacity.
  destruct new_ok as (S0 & _ & _).
  eapply safe_bind; [eapply call_ok; [exact S0 | apply good_new; exact G]|].
  intros [[w1 s1] o1] H. cbn in H. destruct H as (_ & S1 & G1 & _ & D1).
  eapply safe_bind; [eapply call_ok; [exact S1 | exact G1]|].
  intros [[w2 s2] o2] H. rewrite SV in H. destruct H as (_ & S2 & G2 & _ & D2). cbn.
  split; [exact S2|]. split; [exact G2|]. rewrite D2, D1, !app_nil_r. reflexivity.
Qed.

Lemma fill_tail_ok c w s xs gs ys :
  shape s xs -> len s + length ys <= capacity s -> good c w (vown s xs :: gs) ->
  safe (fill_tail asan w s ys)
    (fun '(w', s') => shape s' (xs ++ ys) /\ good c w' (vown s' (xs ++ ys) :: gs) /\ dropped w' = dropped w).
Proof.
  intros S LC G. unfold fill_tail.
  destruct (unpoison_ok c w s xs _ S G) as (w1 & E1 & G1 & D1 & L1 & L2 & CE). rewrite E1. cbn [bind].
  rewrite (shape_len _ _ S) in *.
  pose proof G1 as (A & B & C). inversion C as [|? ? (H1 & H2 & H3 & H4) C2]; subst. cbn in H1, H2, H3, H4.
  assert (VP : capacity s <> 0 -> vptr (as_std s) = begin_ s).
  { intros N. unfold as_std, create_vec_from_raw_parts, null. destruct (begin_ s =? 0) eqn:Z; [|reflexivity].
    apply Nat.eqb_eq in Z. pose proof (vown_zero _ _ _ _ _ G Z). lia. }
  assert (EN : length ys <> 0 -> end_ s = vptr (as_std s) + length xs).
  { intros N. rewrite (shape_end _ _ S), VP by lia. reflexivity. }
  destruct (write_all_raw w1 ys (end_ s)) as (w2 & W1 & W2 & W3 & W4 & W5 & W6).
  { intros i Hi. rewrite EN by lia. split.
    - eapply allocated_of_good; [exact G1|]. apply in_block_iff; cbn. lia.
    - apply H4. lia. }
  rewrite W1. cbn [bind].
  assert (LA : length xs + length ys = length (xs ++ ys)) by now rewrite app_length.
  assert (G2 : good c w2 (std (Vec (vptr (as_std s)) (length (xs ++ ys)) (vcap (as_std s))) (xs ++ ys) :: gs)).
  { split; [rewrite W2; exact A|]. split; [exact B|]. constructor.
    - split; [|split; [|split]]; cbn.
      + intros Z. destruct ys; [|cbn in *; lia]. rewrite app_nil_r. auto.
      + intros Z. specialize (H2 Z). lia.
      + intros i x Hi. destruct (le_lt_dec (length xs) i).
        * rewrite nth_error_app2 in Hi by lia.
          assert (i - length xs < length ys) by (apply nth_error_Some; rewrite Hi; discriminate).
          rewrite W3. specialize (W5 _ _ Hi). rewrite EN in W5 by lia.
          replace (vptr (as_std s) + length xs + (i - length xs)) with (vptr (as_std s) + i) in W5 by lia.
          split; [exact W5 | apply H4; lia].
        * rewrite nth_error_app1 in Hi by lia. rewrite W3. destruct (H3 _ _ Hi) as [M P]. split; [|exact P].
          destruct (Nat.eq_dec (length ys) 0) as [Z|Z].
          -- rewrite W6; [exact M | rewrite Z; lia].
          -- rewrite W6; [exact M | rewrite EN by lia; lia].
      + rewrite W3. exact H4.
    - eapply good_others; [exact G1|]. intros a Ha. cbn in Ha. rewrite W3. split; [|reflexivity]. apply W6. intros K.
      rewrite EN in K by lia. assert (in_block (vptr (as_std s), vcap (as_std s)) a = true) by (apply in_block_iff; cbn; lia). congruence. }
  assert (LC2 : length (xs ++ ys) <= vcap (Vec (vptr (as_std s)) (length (xs ++ ys)) (vcap (as_std s)))) by (cbn; lia).
  destruct (poison_ok c w2 (Vec (vptr (as_std s)) (length (xs ++ ys)) (vcap (as_std s))) (xs ++ ys) _ eq_refl LC2 G2) as (w3 & E3 & G3 & D3 & S3 & C3). cbn [vptr vlen vcap] in *.
  assert (SE : mkv (vptr (as_std s)) (length (xs ++ ys)) (vcap (as_std s)) = mkv (begin_ s) (length (xs ++ ys)) (capacity s)).
  { rewrite CE. unfold as_std, create_vec_from_raw_parts, null in *. destruct (begin_ s =? 0) eqn:Z; [|reflexivity].
    cbn in CE. rewrite <- CE. unfold set_begin_len_capacity. reflexivity. }
  rewrite SE in *. unfold set_len. rewrite LA.
  rewrite (set_len_shape s xs (xs ++ ys) S) by lia. rewrite E3. cbn [bind].
  unfold safe. split; [exact S3|]. split; [exact G3|]. congruence.
Qed.

Lemma cpp_mutate_ok c w s xs gs ys ds ch :
  shape s xs -> good c w (vown s xs :: gs) ->
  safe (cpp_mutate asan lens w s ys ds ch)
    (fun '(w', s') => shape s' ys /\ good c w' (vown s' ys :: gs) /\ dropped w' = dropped w ++ ds).
Proof.
  intros S G. unfold cpp_mutate.
  destruct (unpoison_ok c w s xs _ S G) as (w1 & E1 & G1 & D1 & L1 & L2 & CE). rewrite E1. cbn [bind].
  rewrite (shape_end _ _ S), (shape_capacity_end _ _ S).
  replace (begin_ s + length xs - begin_ s) with (length xs) by lia.
  replace (begin_ s + capacity s - begin_ s) with (capacity s) by lia.
  assert (G2 : good c w1 (std (Vec (begin_ s) (length xs) (capacity s)) xs :: gs)).
  { unfold as_std, create_vec_from_raw_parts, null in G1. destruct (begin_ s =? 0) eqn:Z; [|exact G1].
    apply Nat.eqb_eq in Z. pose proof (vown_zero _ _ _ _ _ G Z) as CZ. pose proof (shape_nil _ _ S CZ) as ->.
    unfold std; cbn. rewrite CZ. apply good_add_empty. apply good_drop_empty in G1; [exact G1 | reflexivity]. }
  eapply safe_bind; [eapply vec_store_ok; exact G2|].
  intros [w2 v] (G3 & L3 & L4 & _ & D3).
  apply (drop_all_good asan c w2 _ ds) in G3.
  destruct (poison_ok c _ v ys gs L3 L4 G3) as (w3 & E3 & G4 & D4 & S4 & C4). rewrite E3. cbn.
  split; [exact S4|]. split; [exact G4|]. rewrite D4. cbn. congruence.
Qed.

(** ** Iterators *)

Definition iown (i : into_iter) xs : own := Own (ibuf i) (icap i) (istart i) xs false.

Lemma into_iter_ok c w s xs gs :
  shape s xs -> good c w (vown s xs :: gs) ->
  safe (vector_into_iter asan w s)
    (fun '(w', i) => icount i = length xs /\ good c w' (iown i xs :: gs) /\ dropped w' = dropped w).
Proof.
  intros S G. unfold vector_into_iter.
  destruct (unpoison_ok c w s xs _ S G) as (w1 & E1 & G1 & D1 & L1 & L2 & CE). rewrite E1. cbn.
  split; [exact L1|]. split; [exact G1 | exact D1].
Qed.

Lemma iter_next_ok c w i xs gs :
  icount i = length xs -> good c w (iown i xs :: gs) ->
  match xs with
  | [] => iter_next w i = Ok (i, None)
  | x :: ys => exists i', iter_next w i = Ok (i', Some x) /\ icount i' = length ys /\ good c w (iown i' ys :: gs)
  end.
Proof.
  intros L G. destruct xs as [|x ys]; unfold iter_next; rewrite L; cbn; [reflexivity|].
  pose proof (read_ok asan c w _ _ 0 x G eq_refl) as R. cbn in R. rewrite Nat.add_0_r in R. rewrite R. cbn.
  eexists. split; [reflexivity|]. cbn. split; [reflexivity|].
  destruct G as (A & B & C). split; [exact A|]. split; [exact B|].
  inversion C as [|? ? (H1 & H2 & H3 & H4) C2]; subst. constructor; [|exact C2]. cbn in *.
  split; [|split; [|split]]; cbn; auto.
  - intros Z. specialize (H1 Z). discriminate.
  - intros Z. specialize (H2 Z). lia.
  - intros j z Hj. rewrite Nat.add_succ_comm || idtac. replace (S (istart i + j)) with (istart i + S j) by lia. now apply H3.
Qed.

Lemma iter_next_back_ok c w i xs gs :
  icount i = length xs -> good c w (iown i xs :: gs) ->
  (xs = [] /\ iter_next_back w i = Ok (i, None)) \/
  (exists ys x i', xs = ys ++ [x] /\ iter_next_back w i = Ok (i', Some x) /\ icount i' = length ys /\ good c w (iown i' ys :: gs)).
Proof.
  intros L G. destruct xs as [|x0 xs0] eqn:X.
  - left. split; [auto|]. unfold iter_next_back. rewrite L. reflexivity.
  - right. rewrite <- X in *. assert (N : xs <> []) by (rewrite X; discriminate). clear X x0 xs0.
    destruct (exists_last N) as (ys & x & ->). exists ys, x.
    unfold iter_next_back. rewrite L, app_length. cbn [length]. rewrite Nat.add_1_r. cbn [bind].
    pose proof (read_ok asan c w _ _ (length ys) x G) as R. cbn in R.
    rewrite R. 2: { rewrite nth_error_app2 by lia. now rewrite Nat.sub_diag. }
    cbn [bind]. eexists. split; [reflexivity|]. split; [reflexivity|]. cbn. split; [reflexivity|].
    destruct G as (A & B & C). split; [exact A|]. split; [exact B|].
    inversion C as [|? ? (H1 & H2 & H3 & H4) C2]; subst. constructor; [|exact C2]. cbn in *.
    rewrite app_length in H2. cbn in H2.
    split; [|split; [|split]]; cbn; auto.
    + intros Z. specialize (H1 Z). now apply app_eq_nil in H1.
    + intros Z. specialize (H2 Z). lia.
    + intros j z Hj. apply H3. rewrite nth_error_app1; [exact Hj|]. apply nth_error_Some. rewrite Hj. discriminate.
Qed.

Lemma iter_drop_ok c w i xs gs :
  icount i = length xs -> good c w (iown i xs :: gs) ->
  exists w', iter_drop w i = Ok w' /\ good c w' gs /\ dropped w' = dropped w ++ xs.
Proof.
  intros L G. unfold iter_drop. rewrite L.
  pose proof (read_all_ok asan c w _ _ G) as R. cbn in R. rewrite R. cbn [bind].
  apply (drop_all_good asan c w _ xs) in G.
  destruct (free_buffer_ok asan c _ _ _ 0 _ _ _ _ G) as (w2 & E2 & G2 & D2).
  exists w2. split; [exact E2|]. split; [exact G2|]. rewrite D2. reflexivity.
Qed.

End Ops.
