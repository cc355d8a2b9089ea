(** Invariants of futures and wakers. *)
From Coq Require Import List Bool Arith Lia.
From Verif.Async Require Import Model Spec.
From Verif.Own Require Import Own.
Import ListNotations.

Lemma ends_touches i e : ends i e = true -> touches i e = true.
Proof. destruct e; cbn; auto; discriminate. Qed.

Notation Inv := (inv ends touches).
Notation cnt := (count_occ Nat.eq_dec).

(** ** Lists *)
Lemma cnt_remove_nth : forall l k x y, nth_error l k = Some x ->
  cnt l y = cnt (remove_nth k l) y + (if Nat.eq_dec x y then 1 else 0).
Proof.
  induction l as [|z l IH]; intros [|k] x y H; try discriminate.
  - cbn in H. injection H as ->. unfold remove_nth. cbn. destruct (Nat.eq_dec x y); lia.
  - cbn in H. specialize (IH k x y H). unfold remove_nth in *. cbn [firstn skipn app count_occ].
    change (skipn (S k) (z :: l)) with (skipn k l) in *.
    cbn [count_occ]. destruct (Nat.eq_dec z y); cbn in *; lia.
Qed.

Lemma cnt_app l1 l2 y : cnt (l1 ++ l2) y = cnt l1 y + cnt l2 y.
Proof. apply count_occ_app. Qed.

Lemma nth_cnt : forall l k x, nth_error l k = Some x -> 0 < cnt l x.
Proof. intros l k x H. apply count_occ_In. eapply nth_error_In; eauto. Qed.

Lemma map_remove_nth (f : nat -> nat) k l : map f (remove_nth k l) = remove_nth k (map f l).
Proof. unfold remove_nth. now rewrite map_app, firstn_map, skipn_map. Qed.

(** ** The waker invariant *)
Record W (w : world) : Prop := {
  W_rc : forall x, w_rc w x = cnt (w_cpp w) x + cnt (w_rust w) x;
  W_new : forall x, w_nw w <= x -> w_rc w x = 0;
  W_free : forall x, frees x (w_log w) = if (x <? w_nw w) && (w_rc w x =? 0) then 1 else 0 }.

Lemma frees_app x l1 l2 : frees x (l1 ++ l2) = frees x l1 + frees x l2.
Proof. unfold frees. rewrite filter_app, app_length. reflexivity. Qed.

Lemma wakes_app l1 l2 : wakes (l1 ++ l2) = wakes l1 ++ wakes l2.
Proof. apply flat_map_app. Qed.

(** What waker operations leave alone: everything about futures.  [l] is what
    they append to the log. *)
Record wk (w w' : world) (l : list event) : Prop := {
  wk_nf : w_nf w' = w_nf w;
  wk_polls : w_polls w' = w_polls w;
  wk_futs : w_futs w' = w_futs w;
  wk_dyns : w_dyns w' = w_dyns w;
  wk_log : w_log w' = w_log w ++ l;
  wk_ev : forallb is_waker_event l = true;
  wk_stat : w_stat w' = w_stat w;
  wk_task : forall x, x < w_nw w -> w_task w' x = w_task w x;
  wk_nw : w_nw w <= w_nw w' }.

Lemma wk_refl w : wk w w [].
Proof. constructor; auto. now rewrite app_nil_r. Qed.

Lemma wk_trans a b c l1 l2 : wk a b l1 -> wk b c l2 -> wk a c (l1 ++ l2).
Proof.
  intros A B. constructor.
  - rewrite (wk_nf _ _ _ B). apply A.
  - rewrite (wk_polls _ _ _ B). apply A.
  - rewrite (wk_futs _ _ _ B). apply A.
  - rewrite (wk_dyns _ _ _ B). apply A.
  - rewrite (wk_log _ _ _ B), (wk_log _ _ _ A). now rewrite app_assoc.
  - rewrite forallb_app, (wk_ev _ _ _ A), (wk_ev _ _ _ B). reflexivity.
  - rewrite (wk_stat _ _ _ B). apply A.
  - intros x H. rewrite (wk_task _ _ _ B), (wk_task _ _ _ A); auto. pose proof (wk_nw _ _ _ A). lia.
  - pose proof (wk_nw _ _ _ A). pose proof (wk_nw _ _ _ B). lia.
Qed.

Lemma W_lt w x : W w -> w_rc w x <> 0 -> x < w_nw w.
Proof.
  intros H N. destruct (Nat.lt_ge_cases x (w_nw w)); auto. exfalso. apply N. apply (W_new _ H); auto.
Qed.

Ltac prj := cbn [w_nf w_polls w_futs w_dyns w_nw w_task w_rc w_cpp w_rust w_log w_stat
                 emit stop set_fut set_dyn set_rc set_cpp set_rust new_fut count_poll new_waker].

(* giving up one reference: the lists lost one occurrence of [x] *)
Lemma destroy_ok : forall w x cpp' rust',
  W w -> w_stat w = Running ->
  (forall y, cnt (w_cpp w) y + cnt (w_rust w) y = cnt cpp' y + cnt rust' y + (if Nat.eq_dec x y then 1 else 0)) ->
  let w1 := set_rust (set_cpp w cpp') rust' in
  let w' := waker_destroy w1 x in
  W w' /\ w_cpp w' = cpp' /\ w_rust w' = rust' /\
  exists l, wk w w' l /\ wakes l = [] /\ w_task w' = w_task w /\ w_nw w' = w_nw w.
Proof.
  intros w x cpp' rust' H St C w1 w'.
  assert (Rx : w_rc w x = S (cnt cpp' x + cnt rust' x)).
  { rewrite (W_rc _ H x), C. destruct (Nat.eq_dec x x); [lia|congruence]. }
  assert (Lx : x < w_nw w) by (apply W_lt; auto; lia).
  subst w' w1. unfold waker_destroy, alive. prj. rewrite Rx. cbn [Nat.sub]. rewrite Nat.sub_0_r.
  set (r := cnt cpp' x + cnt rust' x) in *.
  set (w2 := set_rc _ x r).
  assert (RC : forall y, w_rc w2 y = cnt cpp' y + cnt rust' y).
  { intros y. unfold w2. prj. unfold fupd. destruct (Nat.eqb_spec y x) as [->|N]; [reflexivity|].
    rewrite (W_rc _ H y), C. destruct (Nat.eq_dec x y); [congruence|lia]. }
  assert (NW : forall y, w_nw w <= y -> w_rc w2 y = 0).
  { intros y Hy. unfold w2. prj. unfold fupd. destruct (Nat.eqb_spec y x); [lia|]. apply (W_new _ H); auto. }
  assert (FR : forall y, y <> x -> frees y (w_log w) = if (y <? w_nw w) && (w_rc w2 y =? 0) then 1 else 0).
  { intros y N. rewrite (W_free _ H y). unfold w2. prj. unfold fupd.
    destruct (Nat.eqb_spec y x); [congruence|reflexivity]. }
  assert (F0 : frees x (w_log w) = 0).
  { rewrite (W_free _ H x), Rx. cbn [Nat.eqb]. now rewrite andb_false_r. }
  assert (R2x : w_rc w2 x = r) by (rewrite RC; reflexivity).
  destruct r as [|r'] eqn:Er.
  - split; [|split; [reflexivity|split; [reflexivity|]]].
    + constructor.
      * exact RC.
      * exact NW.
      * intros y. prj. rewrite frees_app. unfold frees at 2. cbn [filter length].
        destruct (Nat.eqb_spec x y) as [<-|N].
        -- change (w_rc (emit w2 (EvFree x)) x) with (w_rc w2 x). rewrite R2x.
           change (w_log w2) with (w_log w). rewrite F0.
           change (w_nw w2) with (w_nw w).
           rewrite (proj2 (Nat.ltb_lt x (w_nw w)) Lx). reflexivity.
        -- change (w_log w2) with (w_log w). rewrite (FR y) by congruence. cbn [length]. rewrite Nat.add_0_r. reflexivity.
    + exists [EvFree x]. split; [|auto]. constructor; auto.
  - split; [|split; [reflexivity|split; [reflexivity|]]].
    + constructor.
      * exact RC.
      * exact NW.
      * intros y. change (w_log w2) with (w_log w). destruct (Nat.eq_dec y x) as [->|N].
        -- rewrite F0, R2x. cbn [Nat.eqb]. now rewrite andb_false_r.
        -- apply FR; auto.
    + exists []. split; [|auto]. constructor; auto. unfold w2. prj. now rewrite app_nil_r.
Qed.

Lemma wake_by_ref_ok : forall w x, W w -> w_stat w = Running -> w_rc w x <> 0 ->
  let w' := waker_wake_by_ref w x in
  w' = emit w (EvWake (w_task w x)) /\ W w' /\ wk w w' [EvWake (w_task w x)].
Proof.
  intros w x H St R w'. subst w'. unfold waker_wake_by_ref, alive.
  destruct (w_rc w x) eqn:E; [congruence|]. split; [reflexivity|]. split.
  - constructor; prj; try apply H. intros y. rewrite frees_app. cbn. rewrite Nat.add_0_r. apply (W_free _ H).
  - constructor; auto.
Qed.

Lemma clone_ok : forall S w x, W w -> w_stat w = Running -> w_rc w x <> 0 ->
  let w' := vt_clone S w x in
  W w' /\ w_cpp w' = w_cpp w /\ wk w w' [] /\
  rust_tasks w' = rust_tasks w ++ [w_task w x] /\ w_stat w' = Running.
Proof.
  intros S w x H St R w'. assert (Lx := W_lt _ _ H R).
  subst w'. unfold vt_clone, waker_clone. destruct (w_rc w x) as [|r] eqn:E; [congruence|].
  assert (HT : forall t y, In y (w_rust w) -> fupd (w_task w) (w_nw w) t y = w_task w y).
  { intros t y Hy. unfold fupd. destruct (Nat.eqb_spec y (w_nw w)); auto. subst.
    apply (count_occ_In Nat.eq_dec) in Hy. pose proof (W_rc _ H (w_nw w)) as K.
    rewrite (W_new _ H) in K by lia. lia. }
  destruct (s_fresh S x).
  - unfold andthen. prj. rewrite St. split; [|split; [reflexivity|split; [|split; [|exact St]]]].
    + constructor; prj.
      * intros y. rewrite cnt_app. cbn [count_occ]. unfold fupd.
        destruct (Nat.eqb_spec y (w_nw w)) as [->|N].
        -- pose proof (W_rc _ H (w_nw w)) as K. rewrite (W_new _ H) in K by lia.
           destruct (Nat.eq_dec (w_nw w) (w_nw w)); [lia|congruence].
        -- rewrite (W_rc _ H y). destruct (Nat.eq_dec (w_nw w) y); [congruence|lia].
      * intros y Hy. unfold fupd. destruct (Nat.eqb_spec y (w_nw w)); [lia|]. apply (W_new _ H). lia.
      * intros y. rewrite (W_free _ H y). unfold fupd.
        destruct (Nat.eqb_spec y (w_nw w)) as [->|N].
        -- rewrite Nat.ltb_irrefl. cbn [Nat.eqb andb]. now rewrite andb_false_r.
        -- destruct (Nat.ltb_spec y (w_nw w)), (Nat.ltb_spec y (Datatypes.S (w_nw w))); try lia; reflexivity.
    + constructor; prj; auto.
      * now rewrite app_nil_r.
      * intros y Hy. unfold fupd. destruct (Nat.eqb_spec y (w_nw w)); [lia|auto].
    + unfold rust_tasks. prj. rewrite map_app. cbn. f_equal.
      * apply map_ext_in. intros y Hy. apply HT; auto.
      * unfold fupd. now rewrite Nat.eqb_refl.
  - unfold andthen. prj. rewrite St. split; [|split; [reflexivity|split; [|split; [|exact St]]]].
    + constructor; prj.
      * intros y. rewrite cnt_app. cbn [count_occ]. unfold fupd.
        destruct (Nat.eqb_spec y x) as [->|N].
        -- pose proof (W_rc _ H x) as K. rewrite E in K.
           destruct (Nat.eq_dec x x); [lia|congruence].
        -- rewrite (W_rc _ H y). destruct (Nat.eq_dec x y); [congruence|lia].
      * intros y Hy. unfold fupd. destruct (Nat.eqb_spec y x); [lia|]. apply (W_new _ H). lia.
      * intros y. rewrite (W_free _ H y). unfold fupd.
        destruct (Nat.eqb_spec y x) as [->|N]; auto. rewrite E.
        replace (Datatypes.S r + 1) with (Datatypes.S (r + 1)) by lia. reflexivity.
    + constructor; prj; auto. now rewrite app_nil_r.
    + unfold rust_tasks. prj. rewrite map_app. reflexivity.
Qed.

Lemma rust_rc w k x : W w -> nth_error (w_rust w) k = Some x -> w_rc w x <> 0.
Proof. intros H E. apply nth_cnt in E. rewrite (W_rc _ H). lia. Qed.

Lemma cpp_rc w k x : W w -> nth_error (w_cpp w) k = Some x -> w_rc w x <> 0.
Proof. intros H E. apply nth_cnt in E. rewrite (W_rc _ H). lia. Qed.

Lemma set_rust_cpp w l : set_rust (set_cpp w (w_cpp w)) l = set_rust w l.
Proof. reflexivity. Qed.

Lemma hop_ok : forall S w h, W w -> w_stat w = Running ->
  let w' := run_hop S w h in
  W w' /\ w_cpp w' = w_cpp w /\
  exists l, wk w w' l /\ (wakes l, rust_tasks w') = hop_spec h (rust_tasks w).
Proof.
  intros S w h H St w'. subst w'. unfold rust_tasks at 2.
  assert (Id : forall w', w' = w -> W w' /\ w_cpp w' = w_cpp w /\
     exists l, wk w w' l /\ (wakes l, rust_tasks w') = ([], map (w_task w) (w_rust w))).
  { intros w' ->. split; auto. split; auto. exists []. split; [apply wk_refl|reflexivity]. }
  destruct h as [k|k|k|k]; cbn [run_hop hop_spec]; rewrite nth_error_map;
    destruct (nth_error (w_rust w) k) as [x|] eqn:E; cbn [option_map]; auto.
  - (* wake *)
    assert (R := rust_rc _ _ _ H E).
    unfold waker_wake_and_destroy, waker_wake_by_ref, alive. prj.
    destruct (w_rc w x) as [|r] eqn:Er; [congruence|].
    unfold andthen. prj. rewrite St.
    set (w1 := emit w (EvWake (w_task w x))).
    assert (H1 : W w1). { destruct (wake_by_ref_ok w x H St) as (Ew & Hw & _); [lia|]. rewrite Ew in Hw. exact Hw. }
    assert (K1 : wk w w1 [EvWake (w_task w x)]).
    { destruct (wake_by_ref_ok w x H St) as (Ew & _ & Hw); [lia|]. rewrite Ew in Hw. exact Hw. }
    destruct (destroy_ok w1 x (w_cpp w1) (remove_nth k (w_rust w)) H1 St) as (A & B & C & l & D & F & G & G2).
    { intros y. change (w_rust w1) with (w_rust w). rewrite (cnt_remove_nth _ _ _ y E). lia. }
    rewrite set_rust_cpp in *.
    change (emit (set_rust w (remove_nth k (w_rust w))) (EvWake (w_task w x)))
      with (set_rust w1 (remove_nth k (w_rust w))).
    split; [exact A|]. split; [rewrite B; reflexivity|].
    exists ([EvWake (w_task w x)] ++ l). split; [eapply wk_trans; eauto|].
    rewrite wakes_app, F. cbn [wakes flat_map app]. f_equal.
    unfold rust_tasks. rewrite C, G, <- map_remove_nth. reflexivity.
  - (* wake by ref *)
    assert (R := rust_rc _ _ _ H E).
    destruct (wake_by_ref_ok w x H St R) as (Ew & A & B). rewrite Ew in *.
    split; [exact A|]. split; [reflexivity|]. eexists. split; [exact B|]. reflexivity.
  - (* drop *)
    destruct (destroy_ok w x (w_cpp w) (remove_nth k (w_rust w)) H St) as (A & B & C & l & D & F & G & G2).
    { intros y. rewrite (cnt_remove_nth _ _ _ y E). lia. }
    rewrite set_rust_cpp in *.
    split; [exact A|]. split; [exact B|]. exists l. split; [exact D|]. rewrite F. f_equal.
    unfold rust_tasks. rewrite C, G, <- map_remove_nth. reflexivity.
  - (* clone *)
    assert (R := rust_rc _ _ _ H E).
    destruct (clone_ok S w x H St R) as (A & B & C & D & F).
    split; [exact A|]. split; [exact B|]. exists []. split; [exact C|]. rewrite D. reflexivity.
Qed.

Lemma actions_ok : forall S acts w j x t, W w -> w_stat w = Running ->
  nth_error (w_cpp w) j = Some x -> w_task w x = t ->
  let w' := fold_left (run_action S x) acts w in
  W w' /\ w_cpp w' = w_cpp w /\
  exists l, wk w w' l /\ (wakes l, rust_tasks w') = actions_spec t acts (rust_tasks w).
Proof.
  induction acts as [|a r IH]; intros w j x t H St E Et w'; subst w'; cbn [fold_left actions_spec].
  { split; auto. split; auto. exists []. split; [apply wk_refl|reflexivity]. }
  set (w1 := run_action S x w a).
  assert (K : W w1 /\ w_cpp w1 = w_cpp w /\ exists l, wk w w1 l /\
              (wakes l, rust_tasks w1) = action_spec t a (rust_tasks w)).
  { unfold w1, run_action, andthen. rewrite St.
    assert (R := cpp_rc _ _ _ H E).
    destruct a as [| |h]; cbn [action_spec].
    - destruct (clone_ok S w x H St R) as (A & B & C & D & F).
      split; [exact A|]. split; [exact B|]. exists []. split; [exact C|]. rewrite D, Et. reflexivity.
    - destruct (wake_by_ref_ok w x H St R) as (Ew & A & B). rewrite Ew in *.
      split; [exact A|]. split; [reflexivity|]. eexists. split; [exact B|]. rewrite Et. reflexivity.
    - apply hop_ok; auto. }
  destruct K as (A & B & l & C & D).
  assert (Lx : x < w_nw w) by (apply W_lt; auto; eapply cpp_rc; eauto).
  destruct (IH w1 j x t A) as (A2 & B2 & l2 & C2 & D2).
  - rewrite (wk_stat _ _ _ C). exact St.
  - rewrite B. exact E.
  - rewrite (wk_task _ _ _ C); auto.
  - split; [exact A2|]. split; [congruence|]. exists (l ++ l2). split; [eapply wk_trans; eauto|].
    rewrite wakes_app. destruct (action_spec t a (rust_tasks w)) as [w1' ts1] eqn:Ea.
    injection D as D D'. rewrite D' in D2. destruct (actions_spec t r ts1) as [w2' ts2].
    injection D2 as D2 D2'. rewrite D, D2, D2'. reflexivity.
Qed.
