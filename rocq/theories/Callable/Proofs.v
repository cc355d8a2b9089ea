(** The representation refines the documented behaviour. *)
From Coq Require Import List Bool Arith Lia.
From Verif.Callable Require Import Model Spec.
Import ListNotations.

Lemma ref_eqb_refl r : ref_eqb r r = true.
Proof. destruct r; cbn; auto using Nat.eqb_refl. Qed.

Lemma ref_eqb_neq a b : a <> b -> ref_eqb a b = false.
Proof.
  destruct a, b; cbn; intros H; try congruence; auto.
  apply Nat.eqb_neq. congruence.
Qed.

Lemma ref_eqb_neq' a b : a <> b -> ref_eqb b a = false.
Proof. intros H. apply ref_eqb_neq. congruence. Qed.

Definition crel (c : cell) (s : astate) : Prop :=
  match s with
  | AEmpty => c_mg c = MEmpty /\ c_iv c = INull
  | AHolds b => c = mkCell (SBox b) MRust IRust
  | ASpent => c_mg c = MEmpty /\ c_iv c = IAfterMove
  end.

Definition orel (c : option cell) (s : option astate) : Prop :=
  match c, s with
  | None, None => True
  | Some c, Some s => crel c s
  | _, _ => False
  end.

Lemma cells_set w r c q :
  w_cells (set_cell w r c) q = if ref_eqb q r then c else w_cells w q.
Proof. reflexivity. Qed.
Lemma cells_set_same w r c : w_cells (set_cell w r c) r = c.
Proof. cbn. now rewrite ref_eqb_refl. Qed.
Lemma cells_set_other w r c q : q <> r -> w_cells (set_cell w r c) q = w_cells w q.
Proof. intros N. cbn. now rewrite (ref_eqb_neq _ _ N). Qed.
Lemma stat_set w r c : w_stat (set_cell w r c) = w_stat w. Proof. reflexivity. Qed.
Lemma next_set w r c : w_next (set_cell w r c) = w_next w. Proof. reflexivity. Qed.
Lemma log_set w r c : w_log (set_cell w r c) = w_log w. Proof. reflexivity. Qed.

Lemma set_mgr_eq w r m c : w_cells w r = Some c ->
  set_mgr w r m = set_cell w r (Some (mkCell (c_st c) m (c_iv c))).
Proof. unfold set_mgr, with_cell. now intros ->. Qed.
Lemma set_inv_eq w r i c : w_cells w r = Some c ->
  set_inv w r i = set_cell w r (Some (mkCell (c_st c) (c_mg c) i)).
Proof. unfold set_inv, with_cell. now intros ->. Qed.
Lemma copy_mgr_eq w a b c : w_cells w b = Some c -> copy_mgr w a b = set_mgr w a (c_mg c).
Proof. unfold copy_mgr, with_cell. now intros ->. Qed.
Lemma copy_inv_eq w a b c : w_cells w b = Some c -> copy_inv w a b = set_inv w a (c_iv c).
Proof. unfold copy_inv, with_cell. now intros ->. Qed.
Lemma andthen_run w f : w_stat w = Running -> andthen w f = f w.
Proof. unfold andthen. now intros ->. Qed.

Lemma dispose_spec w r c y : w_cells w r = Some c -> crel c y ->
  w_stat (dispose w r) = w_stat w /\ w_next (dispose w r) = w_next w /\  w_log (dispose w r) = w_log w ++ drop_ev y /\  forall q, w_cells (dispose w r) q = w_cells w q.
Proof.
  intros H C. unfold dispose, with_cell. rewrite H.
  destruct y; cbn in C; [destruct C as [-> _]|subst c|destruct C as [-> _]];
    cbn; rewrite ?app_nil_r; auto.
Qed.

(* what [this] holds after the storage of [other] is relocated to it *)
Lemma relocate_spec w from to cf ct x : w_cells w from = Some cf -> w_cells w to = Some ct ->
  crel cf x -> (from = to -> c_mg cf = MEmpty) ->
  exists s, w_stat (relocate w from to) = w_stat w /\ w_next (relocate w from to) = w_next w /\    w_log (relocate w from to) = w_log w /\    w_cells (relocate w from to) to = Some (mkCell s (c_mg ct) (c_iv ct)) /\    (forall b, x = AHolds b -> s = SBox b) /\    (forall q, q <> to -> w_cells (relocate w from to) q = w_cells w q).
Proof.
  intros Hf Ht C Ne. unfold relocate, with_cell. rewrite Hf, Ht.
  destruct (c_mg cf) eqn:M.
  - exists (c_st ct). repeat (split; [reflexivity|]).
    split; [rewrite Ht; destruct ct; reflexivity|]. split; [|auto].
    intros b ->. cbn in C. subst cf. discriminate.
  - rewrite ref_eqb_neq by (intros E; specialize (Ne E); discriminate).
    exists (c_st cf). repeat (split; [reflexivity|]).
    split; [apply cells_set_same|]. split.
    + intros b ->. cbn in C. subst cf. reflexivity.
    + intros q N. apply cells_set_other. auto.
Qed.

Lemma move_assign_spec : forall w this other ct co y x,
  w_stat w = Running -> this <> other ->
  w_cells w this = Some ct -> w_cells w other = Some co ->
  crel ct y -> crel co x ->
  let w' := move_assign w this other in
  w_stat w' = Running /\ w_next w' = w_next w /\ w_log w' = w_log w ++ drop_ev y /\
  (exists c, w_cells w' this = Some c /\ crel c x) /\
  (exists c, w_cells w' other = Some c /\ crel c AEmpty) /\
  (forall r, r <> this -> r <> other -> w_cells w' r = w_cells w r).
Proof.
  intros w this other ct co y x St Ne Ht Ho Cy Cx w'. subst w'.
  assert (Ne' : other <> this) by congruence.
  unfold move_assign, managed_assign.
  destruct (dispose_spec w this ct y Ht Cy) as (A1 & B1 & C1 & D1).
  set (w1 := dispose w this) in *. rewrite (andthen_run w1) by congruence.
  destruct (relocate_spec w1 other this co ct x) as (s & A2 & B2 & C2 & T2 & S2 & D2);
    try (rewrite D1; assumption); auto; try congruence.
  set (w2 := relocate w1 other this) in *. rewrite (andthen_run w2) by congruence.
  assert (Ho2 : w_cells w2 other = Some co) by (rewrite D2, D1; auto).
  rewrite (copy_mgr_eq _ _ _ _ Ho2), (set_mgr_eq _ _ _ _ T2). cbn [c_st c_mg c_iv].
  set (w3 := set_cell w2 this _).
  assert (Ho3 : w_cells w3 other = Some co) by (unfold w3; rewrite cells_set_other; auto).
  assert (Ht3 : w_cells w3 this = Some (mkCell s (c_mg co) (c_iv ct))) by apply cells_set_same.
  rewrite (set_mgr_eq _ _ _ _ Ho3). set (w4 := set_cell w3 other _).
  rewrite (andthen_run w4) by (unfold w4, w3; rewrite !stat_set; congruence).
  assert (Ho4 : w_cells w4 other = Some (mkCell (c_st co) MEmpty (c_iv co))) by apply cells_set_same.
  assert (Ht4 : w_cells w4 this = Some (mkCell s (c_mg co) (c_iv ct)))
    by (unfold w4; rewrite cells_set_other; auto).
  rewrite (copy_inv_eq _ _ _ _ Ho4), (set_inv_eq _ _ _ _ Ht4). cbn [c_st c_mg c_iv].
  set (w5 := set_cell w4 this _).
  assert (Ho5 : w_cells w5 other = Some (mkCell (c_st co) MEmpty (c_iv co)))
    by (unfold w5; rewrite cells_set_other; auto).
  assert (Ht5 : w_cells w5 this = Some (mkCell s (c_mg co) (c_iv co))) by apply cells_set_same.
  rewrite (set_inv_eq _ _ _ _ Ho5). cbn [c_st c_mg c_iv]. set (w6 := set_cell w5 other _).
  split. { unfold w6, w5, w4, w3. rewrite !stat_set. congruence. }
  split. { unfold w6, w5, w4, w3. rewrite !next_set. congruence. }
  split. { unfold w6, w5, w4, w3. rewrite !log_set. congruence. }
  split. { exists (mkCell s (c_mg co) (c_iv co)). split.
           - unfold w6. rewrite cells_set_other; auto.
           - destruct x; cbn in Cx |- *; auto. subst co. cbn. rewrite (S2 _ eq_refl). reflexivity. }
  split. { eexists. split; [apply cells_set_same|]. cbn. auto. }
  intros r N1 N2. unfold w6, w5, w4, w3. rewrite !cells_set_other by auto. rewrite D2, D1; auto.
Qed.

Lemma self_assign_spec : forall w r c x,
  w_stat w = Running -> w_cells w r = Some c -> crel c x -> (forall b, x <> AHolds b) ->
  let w' := move_assign w r r in
  w_stat w' = Running /\ w_next w' = w_next w /\ w_log w' = w_log w /\
  (exists c, w_cells w' r = Some c /\ crel c AEmpty) /\
  (forall q, q <> r -> w_cells w' q = w_cells w q).
Proof.
  intros w r c x St Hc Cx Nh w'. subst w'.
  assert (M : c_mg c = MEmpty). { destruct x; cbn in Cx; try tauto. exfalso. eapply Nh; reflexivity. }
  unfold move_assign, managed_assign.
  destruct (dispose_spec w r c x Hc Cx) as (A1 & B1 & C1 & D1).
  set (w1 := dispose w r) in *. rewrite (andthen_run w1) by congruence.
  destruct (relocate_spec w1 r r c c x) as (s & A2 & B2 & C2 & T2 & S2 & D2);
    try (rewrite D1; assumption); auto.
  set (w2 := relocate w1 r r) in *. rewrite (andthen_run w2) by congruence.
  rewrite (copy_mgr_eq _ _ _ _ T2), (set_mgr_eq _ _ _ _ T2). cbn [c_st c_mg c_iv].
  set (w3 := set_cell w2 r _).
  assert (H3 : w_cells w3 r = Some (mkCell s (c_mg c) (c_iv c))) by apply cells_set_same.
  rewrite (set_mgr_eq _ _ _ _ H3). set (w4 := set_cell w3 r _).
  rewrite (andthen_run w4) by (unfold w4, w3; rewrite !stat_set; congruence).
  assert (H4 : w_cells w4 r = Some (mkCell s MEmpty (c_iv c))) by apply cells_set_same.
  rewrite (copy_inv_eq _ _ _ _ H4), (set_inv_eq _ _ _ _ H4). cbn [c_st c_mg c_iv].
  set (w5 := set_cell w4 r _).
  assert (H5 : w_cells w5 r = Some (mkCell s MEmpty (c_iv c))) by apply cells_set_same.
  rewrite (set_inv_eq _ _ _ _ H5). cbn [c_st c_mg c_iv]. set (w6 := set_cell w5 r _).
  assert (Dr : drop_ev x = []) by (destruct x; auto; exfalso; eapply Nh; reflexivity).
  split. { unfold w6, w5, w4, w3. rewrite !stat_set. congruence. }
  split. { unfold w6, w5, w4, w3. rewrite !next_set. congruence. }
  split. { unfold w6, w5, w4, w3. rewrite !log_set. rewrite C2, C1, Dr, app_nil_r. reflexivity. }
  split. { eexists. split; [apply cells_set_same|]. cbn. auto. }
  intros q N1. unfold w6, w5, w4, w3. rewrite !cells_set_other by auto. rewrite D2, D1; auto.
Qed.

Lemma move_ctor_spec : forall w this other co x,
  w_stat w = Running -> this <> other ->
  w_cells w other = Some co -> crel co x ->
  let w' := move_ctor w this other in
  w_stat w' = Running /\ w_next w' = w_next w /\ w_log w' = w_log w /\
  (exists c, w_cells w' this = Some c /\ crel c x) /\
  (exists c, w_cells w' other = Some c /\ crel c AEmpty) /\
  (forall r, r <> this -> r <> other -> w_cells w' r = w_cells w r).
Proof.
  intros w this other co x St Ne Ho Cx w'. subst w'. unfold move_ctor.
  assert (H := move_assign_spec (set_cell w this (Some default_cell)) this other default_cell co AEmpty x).
  cbn [w_stat w_next w_log w_cells set_cell] in H.
  rewrite ref_eqb_refl, (ref_eqb_neq' _ _ Ne) in H.
  specialize (H St Ne eq_refl Ho (conj eq_refl eq_refl) Cx). cbn zeta in H.
  destruct H as (A & B & C & D & E & F).
  cbn [drop_ev] in C. rewrite app_nil_r in C.
  repeat (split; [assumption|]).
  intros r N1 N2. rewrite (F r N1 N2). rewrite (ref_eqb_neq _ _ N1). reflexivity.
Qed.

Lemma destroy_spec : forall w r c y,
  w_stat w = Running -> w_cells w r = Some c -> crel c y ->
  let w' := destroy w r in
  w_stat w' = Running /\ w_next w' = w_next w /\ w_log w' = w_log w ++ drop_ev y /\
  w_cells w' r = None /\ (forall q, q <> r -> w_cells w' q = w_cells w q).
Proof.
  intros w r c y St Hc Cy w'. subst w'. unfold destroy, dispose, with_cell. rewrite Hc.
  destruct y; cbn in Cy; [destruct Cy as [M _]; rewrite M| subst c|destruct Cy as [M _]; rewrite M];
    cbn [c_mg c_st]; unfold andthen; cbn [w_stat emit]; rewrite St;
    cbn [set_cell w_stat w_next w_log w_cells emit drop_ev]; rewrite ?app_nil_r, ref_eqb_refl;
    (split; [assumption|split; [reflexivity|split; [reflexivity|split; [reflexivity|]]]]);
    intros q N; rewrite (ref_eqb_neq _ _ N); reflexivity.
Qed.

(** The simulation relation. *)
Record sim (w : world) (a : aworld) : Prop := {
  sim_next : w_next w = a_next a;
  sim_log : w_log w = a_log a;
  sim_stat : w_stat w = if a_done a then Terminated else Running;
  sim_tmp : a_done a = false -> w_cells w Tmp = None;
  sim_cells : forall n, orel (w_cells w (Var n)) (a_cells a n) }.

Lemma sim_init : sim init ainit.
Proof. constructor; cbn; auto. Qed.

Lemma sim_cells_at : forall w a n c, sim w a -> w_cells w (Var n) = Some c ->
  exists s, a_cells a n = Some s /\ crel c s.
Proof.
  intros w a n c S H. pose proof (sim_cells _ _ S n) as K. rewrite H in K.
  destruct (a_cells a n) as [s|]; cbn in K; [eauto|contradiction].
Qed.

Lemma sim_acell_at : forall w a n s, sim w a -> a_cells a n = Some s ->
  exists c, w_cells w (Var n) = Some c /\ crel c s.
Proof.
  intros w a n s S H. pose proof (sim_cells _ _ S n) as K. rewrite H in K.
  destruct (w_cells w (Var n)) as [c|]; cbn in K; [eauto|contradiction].
Qed.

Lemma sim_none_at : forall w a n, sim w a -> a_cells a n = None -> w_cells w (Var n) = None.
Proof.
  intros w a n S H. pose proof (sim_cells _ _ S n) as K. rewrite H in K.
  destruct (w_cells w (Var n)) as [c|]; cbn in K; [contradiction|auto].
Qed.

Lemma live_some w n c : w_cells w (Var n) = Some c -> live w n = true.
Proof. unfold live. now intros ->. Qed.
Lemma live_none w n : w_cells w (Var n) = None -> live w n = false.
Proof. unfold live. now intros ->. Qed.

(* close a goal [forall m, orel (w_cells w' (Var m)) (updates m)] *)
Ltac upd_cases m :=
  repeat match goal with
  | |- context [Nat.eqb m ?x] =>
      let E := fresh "E" in destruct (Nat.eqb_spec m x) as [E|E]; [subst m|]; cbn [orel]
  end.

Theorem step_sim : forall k w a o a', sim w a -> astep k a o = Some a' -> sim (step k w o) a'.
Proof.
  intros k w a o a' S H. unfold astep in H.
  destruct (a_done a) eqn:D.
  { injection H as <-. unfold step, andthen. rewrite (sim_stat _ _ S), D. exact S. }
  assert (St : w_stat w = Running) by (rewrite (sim_stat _ _ S), D; reflexivity).
  assert (T0 : w_cells w Tmp = None) by (apply (sim_tmp _ _ S D)).
  unfold step, andthen at 1. rewrite St.
  destruct o as [n|n|n s|n s|n s|n pan|n|n|n|n].
  - (* default *)
    destruct (a_cells a n) as [x|] eqn:An; injection H as <-.
    + destruct (sim_acell_at _ _ _ _ S An) as (c & Hc & _). rewrite (live_some _ _ _ Hc). exact S.
    + rewrite (live_none _ _ (sim_none_at _ _ _ S An)).
      constructor; cbn; try apply S; auto.
      intros m. destruct (Nat.eqb m n); [cbn; auto|apply S].
  - (* receive *)
    destruct (a_cells a n) as [x|] eqn:An; injection H as <-.
    + destruct (sim_acell_at _ _ _ _ S An) as (c & Hc & _). rewrite (live_some _ _ _ Hc). exact S.
    + rewrite (live_none _ _ (sim_none_at _ _ _ S An)).
      constructor; cbn; try apply S; auto.
      * f_equal. apply S.
      * intros m. destruct (Nat.eqb m n); [cbn; rewrite (sim_next _ _ S); auto|apply S].
  - (* move ctor *)
    destruct (a_cells a n) as [x|] eqn:An.
    + injection H as <-. destruct (sim_acell_at _ _ _ _ S An) as (c & Hc & _).
      rewrite (live_some _ _ _ Hc). exact S.
    + rewrite (live_none _ _ (sim_none_at _ _ _ S An)).
      destruct (a_cells a s) as [x|] eqn:As; injection H as <-.
      * destruct (sim_acell_at _ _ _ _ S As) as (c & Hc & Cc). rewrite (live_some _ _ _ Hc).
        assert (Ne : n <> s) by congruence.
        assert (Ne' : Var n <> Var s) by congruence.
        destruct (move_ctor_spec w (Var n) (Var s) c x St Ne' Hc Cc)
          as (A & B & C & (c1 & D1 & D2) & (c2 & E1 & E2) & F).
        constructor; cbn [a_next a_log a_done a_cells aset].
        -- rewrite B. apply S.
        -- rewrite C. apply S.
        -- rewrite A, D. reflexivity.
        -- intros _. rewrite F by congruence. exact T0.
        -- intros m. destruct (Nat.eqb_spec m s) as [->|N1].
           { rewrite E1. exact E2. }
           destruct (Nat.eqb_spec m n) as [->|N2].
           { rewrite D1. exact D2. }
           rewrite F by congruence. apply S.
      * rewrite (live_none _ _ (sim_none_at _ _ _ S As)). exact S.
  - (* move assign *)
    destruct (a_cells a n) as [y|] eqn:An.
    2:{ injection H as <-. rewrite (live_none _ _ (sim_none_at _ _ _ S An)). exact S. }
    destruct (sim_acell_at _ _ _ _ S An) as (cn & Hn & Cn). rewrite (live_some _ _ _ Hn).
    destruct (a_cells a s) as [x|] eqn:As.
    2:{ injection H as <-. rewrite (live_none _ _ (sim_none_at _ _ _ S As)). exact S. }
    destruct (sim_acell_at _ _ _ _ S As) as (cs & Hs & Cs). rewrite (live_some _ _ _ Hs).
    cbn [andb]. destruct (Nat.eqb_spec n s) as [->|Ne].
    + assert (cs = cn) by congruence. subst cs.
      assert (Nh : forall b, x <> AHolds b) by (intros b ->; discriminate).
      assert (a' = aset a s (Some AEmpty)) by (destruct x; congruence). subst a'.
      destruct (self_assign_spec w (Var s) cn x St Hn Cs Nh) as (A & B & C & (c1 & D1 & D2) & F).
      constructor; cbn [a_next a_log a_done a_cells aset].
      * rewrite B. apply S.
      * rewrite C. apply S.
      * rewrite A, D. reflexivity.
      * intros _. rewrite F by congruence. exact T0.
      * intros m. destruct (Nat.eqb_spec m s) as [->|N1].
        { rewrite D1. exact D2. }
        rewrite F by congruence. apply S.
    + injection H as <-. assert (Ne' : Var n <> Var s) by congruence.
      destruct (move_assign_spec w (Var n) (Var s) cn cs y x St Ne' Hn Hs Cn Cs)
          as (A & B & C & (c1 & D1 & D2) & (c2 & E1 & E2) & F).
      constructor; cbn [a_next a_log a_done a_cells aset aemit].
      * rewrite B. apply S.
      * rewrite C. f_equal. apply S.
      * rewrite A, D. reflexivity.
      * intros _. rewrite F by congruence. exact T0.
      * intros m. destruct (Nat.eqb_spec m s) as [->|N1].
        { rewrite E1. exact E2. }
        destruct (Nat.eqb_spec m n) as [->|N2].
        { rewrite D1. exact D2. }
        rewrite F by congruence. apply S.
  - (* swap *)
    destruct (a_cells a n) as [y|] eqn:An.
    2:{ injection H as <-. rewrite (live_none _ _ (sim_none_at _ _ _ S An)). exact S. }
    destruct (sim_acell_at _ _ _ _ S An) as (cn & Hn & Cn). rewrite (live_some _ _ _ Hn).
    destruct (a_cells a s) as [x|] eqn:As.
    2:{ injection H as <-. rewrite (live_none _ _ (sim_none_at _ _ _ S As)). exact S. }
    destruct (sim_acell_at _ _ _ _ S As) as (cs & Hs & Cs). rewrite (live_some _ _ _ Hs).
    cbn [andb]. injection H as <-. unfold swap.
    assert (NT : Tmp <> Var n) by congruence.
    destruct (move_ctor_spec w Tmp (Var n) cn y St NT Hn Cn)
      as (A & B & C & (c1 & D1 & D2) & (c2 & E1 & E2) & F).
    set (w1 := move_ctor w Tmp (Var n)) in *. unfold andthen at 1. rewrite A.
    assert (W2 : exists w2, w2 = move_assign w1 (Var n) (Var s) /\
       w_stat w2 = Running /\ w_next w2 = w_next w /\ w_log w2 = w_log w /\
       (exists c, w_cells w2 Tmp = Some c /\ crel c y) /\
       (exists c, w_cells w2 (Var s) = Some c /\ crel c AEmpty) /\
       (n <> s -> exists c, w_cells w2 (Var n) = Some c /\ crel c x) /\
       (forall q, q <> Tmp -> q <> Var n -> q <> Var s -> w_cells w2 q = w_cells w q)).
    { eexists; split; [reflexivity|].
      destruct (Nat.eq_dec n s) as [->|Ne].
      - destruct (self_assign_spec w1 (Var s) c2 AEmpty A E1 E2) as (A' & B' & C' & (c3 & D1' & D2') & F').
        { intros b; discriminate. }
        split; [exact A'|]. split; [congruence|]. split; [congruence|].
        split; [exists c1; split; [rewrite F' by congruence; exact D1|exact D2]|].
        split; [eauto|]. split; [congruence|].
        intros q N1 N2 _. rewrite F' by congruence. apply F; congruence.
      - assert (Ne' : Var n <> Var s) by congruence.
        assert (Hs1 : w_cells w1 (Var s) = Some cs) by (rewrite F by congruence; exact Hs).
        destruct (move_assign_spec w1 (Var n) (Var s) c2 cs AEmpty x A Ne' E1 Hs1 E2 Cs)
          as (A' & B' & C' & (c3 & D1' & D2') & (c4 & E1' & E2') & F').
        cbn [drop_ev] in C'. rewrite app_nil_r in C'.
        split; [exact A'|]. split; [congruence|]. split; [congruence|].
        split; [exists c1; split; [rewrite F' by congruence; exact D1|exact D2]|].
        split; [eauto|]. split; [eauto|].
        intros q N1 N2 N3. rewrite F' by congruence. apply F; congruence. }
    destruct W2 as (w2 & -> & A2 & B2 & C2 & (ct & T1 & T2) & (cs2 & S1 & S2) & Hn2 & F2).
    set (w2 := move_assign w1 (Var n) (Var s)) in *. unfold andthen at 1. rewrite A2.
    assert (NTs : Var s <> Tmp) by congruence.
    destruct (move_assign_spec w2 (Var s) Tmp cs2 ct AEmpty y A2 NTs S1 T1 S2 T2)
      as (A3 & B3 & C3 & (c5 & D5 & D6) & (c6 & E5 & E6) & F3).
    cbn [drop_ev] in C3. rewrite app_nil_r in C3.
    set (w3 := move_assign w2 (Var s) Tmp) in *. unfold andthen at 1. rewrite A3.
    destruct (destroy_spec w3 Tmp c6 AEmpty A3 E5 E6) as (A4 & B4 & C4 & D4 & F4).
    cbn [drop_ev] in C4. rewrite app_nil_r in C4.
    constructor; cbn [a_next a_log a_done a_cells aset aemit].
    + rewrite B4, B3, B2. apply S.
    + rewrite C4, C3, C2. apply S.
    + rewrite A4, D. reflexivity.
    + intros _. exact D4.
    + intros m. rewrite F4 by congruence.
      destruct (Nat.eqb_spec m s) as [->|N1].
      { rewrite D5. exact D6. }
      rewrite F3 by congruence.
      destruct (Nat.eqb_spec m n) as [->|N2].
      { destruct (Hn2 N1) as (c & -> & K). exact K. }
      rewrite F2 by congruence. apply S.
  - (* call *)
    destruct (a_cells a n) as [y|] eqn:An.
    2:{ injection H as <-. rewrite (live_none _ _ (sim_none_at _ _ _ S An)). exact S. }
    destruct (sim_acell_at _ _ _ _ S An) as (cn & Hn & Cn). rewrite (live_some _ _ _ Hn).
    unfold call, with_cell. rewrite Hn.
    destruct y as [|b|]; cbn in Cn; [discriminate| |].
    + subst cn. cbn [c_iv].
      assert (U1 : forall m, orel (if Nat.eqb m n then Some (mkCell SSpent MEmpty IAfterMove) else w_cells w (Var m))
                        (if Nat.eqb m n then Some ASpent else a_cells a m)).
      { intros m. destruct (Nat.eqb m n); [cbn; auto|apply S]. }
      destruct k; unfold invoke_rust, set_mgr, set_inv, with_cell, set_cell; cbn [w_cells];
        rewrite ?Hn, ?ref_eqb_refl; cbn [w_cells c_st c_mg c_iv]; rewrite ?Hn, ?ref_eqb_refl;
        cbn [w_cells c_st c_mg c_iv]; rewrite ?ref_eqb_refl; cbn [c_st c_mg c_iv];
        destruct pan; injection H as <-; constructor;
        cbn [stop emit aterminate aemit aset a_next a_log a_done a_cells w_next w_log w_stat w_cells ref_eqb];
        try apply S; rewrite ?(sim_log _ _ S); auto; try discriminate; try (rewrite ?St, ?D; reflexivity).
      all: intros m; specialize (U1 m); destruct (Nat.eqb m n); exact U1.
    + destruct Cn as [M I]. rewrite I. injection H as <-.
      assert (U1 : forall m, orel (if Nat.eqb m n then Some (mkCell (c_st cn) MEmpty IAfterMove) else w_cells w (Var m))
                        (a_cells a m)).
      { intros m. destruct (Nat.eqb_spec m n) as [->|N]; [rewrite An; cbn; auto|apply S]. }
      destruct k; unfold set_mgr, set_inv, with_cell, set_cell; cbn [w_cells];
        rewrite ?Hn; cbn [w_cells c_st c_mg c_iv]; rewrite ?ref_eqb_refl; cbn [c_st c_mg c_iv];
        constructor; cbn [stop aterminate a_next a_log a_done a_cells w_next w_log w_stat w_cells ref_eqb];
        try apply S; auto; try discriminate.
      intros m; specialize (U1 m); destruct (Nat.eqb m n); exact U1.
  - (* bool *)
    unfold with_cell.
    destruct (a_cells a n) as [y|] eqn:An; injection H as <-.
    2:{ rewrite (sim_none_at _ _ _ S An). exact S. }
    destruct (sim_acell_at _ _ _ _ S An) as (cn & Hn & Cn). rewrite Hn.
    constructor; cbn [emit aemit a_next a_log a_done a_cells w_next w_log w_stat w_cells]; try apply S.
    rewrite (sim_log _ _ S). unfold has_value.
    destruct y; cbn in Cn; [destruct Cn as [_ ->]|subst cn|destruct Cn as [_ ->]]; reflexivity.
  - (* to rust *)
    unfold to_rust, with_cell at 1.
    destruct (a_cells a n) as [y|] eqn:An.
    2:{ injection H as <-. rewrite (sim_none_at _ _ _ S An). exact S. }
    destruct (sim_acell_at _ _ _ _ S An) as (cn & Hn & Cn). rewrite Hn.
    assert (NT : Tmp <> Var n) by congruence.
    destruct (move_ctor_spec w Tmp (Var n) cn y St NT Hn Cn)
      as (A & B & C & (c1 & D1 & D2) & (c2 & E1 & E2) & F).
    set (w1 := move_ctor w Tmp (Var n)) in *. unfold andthen at 1. rewrite A.
    unfold encode_tmp, with_cell at 1. rewrite D1.
    assert (K : forall ev w2, w2 = emit w1 ev ->
       sim (destroy (set_mgr w2 Tmp MEmpty) Tmp) (aset (aemit a [ev]) n (Some AEmpty))).
    { intros ev w2 ->. unfold set_mgr, with_cell. cbn [emit w_cells]. rewrite D1.
      unfold destroy, dispose, with_cell. cbn [set_cell w_cells ref_eqb]. cbn [c_mg].
      unfold andthen. cbn [set_cell w_stat emit]. rewrite A.
      constructor; cbn [set_cell emit aset aemit a_next a_log a_done a_cells w_next w_log w_stat w_cells ref_eqb].
      - rewrite B. apply S.
      - rewrite C. f_equal. apply S.
      - rewrite A, D. reflexivity.
      - reflexivity.
      - intros m. destruct (Nat.eqb_spec m n) as [->|N2].
        { rewrite E1. exact E2. }
        rewrite F by congruence. apply S. }
    destruct y as [|b|]; cbn in D2; [|subst c1|discriminate]; injection H as <-.
    + unfold has_value. destruct D2 as [_ ->].
      cbn [andthen emit w_stat]. unfold andthen. cbn [emit w_stat]. rewrite A. apply (K _ _ eq_refl).
    + cbn [has_value c_iv c_st]. unfold andthen. cbn [emit w_stat]. rewrite A. apply (K _ _ eq_refl).
  - (* to any *)
    unfold to_any, with_cell at 1.
    destruct (a_cells a n) as [y|] eqn:An.
    2:{ injection H as <-. rewrite (sim_none_at _ _ _ S An). exact S. }
    destruct (sim_acell_at _ _ _ _ S An) as (cn & Hn & Cn). rewrite Hn.
    unfold set_mgr, set_inv, with_cell, set_cell; cbn [w_cells];
        rewrite ?Hn; cbn [w_cells c_st c_mg c_iv]; rewrite ?ref_eqb_refl; cbn [c_st c_mg c_iv].
    destruct y as [|b|]; cbn in Cn; [destruct Cn as [M ->]; rewrite M|subst cn|destruct Cn as [M ->]; rewrite M];
      injection H as <-; cbn [c_mg c_st];
      constructor; cbn [emit aset aemit a_next a_log a_done a_cells w_next w_log w_stat w_cells ref_eqb];
      try apply S; try (rewrite (sim_log _ _ S); reflexivity); auto.
    all: intros m; destruct (Nat.eqb m n); [cbn; auto|apply S].
  - (* destroy *)
    destruct (a_cells a n) as [y|] eqn:An.
    2:{ injection H as <-. rewrite (live_none _ _ (sim_none_at _ _ _ S An)). exact S. }
    destruct (sim_acell_at _ _ _ _ S An) as (cn & Hn & Cn). rewrite (live_some _ _ _ Hn).
    injection H as <-.
    destruct (destroy_spec w (Var n) cn y St Hn Cn) as (A4 & B4 & C4 & D4 & F4).
    constructor; cbn [aset aemit a_next a_log a_done a_cells].
    + rewrite B4. apply S.
    + rewrite C4. f_equal. apply S.
    + rewrite A4, D. reflexivity.
    + intros _. rewrite F4 by congruence. exact T0.
    + intros m. destruct (Nat.eqb_spec m n) as [->|N2].
      { rewrite D4. exact Logic.I. }
      rewrite F4 by congruence. apply S.
Qed.

Lemma run_sim : forall k ops w a a', sim w a -> arun_from k a ops = Some a' ->
  sim (fold_left (step k) ops w) a'.
Proof.
  induction ops as [|o r IH]; cbn; intros w a a' S H.
  - injection H as <-. exact S.
  - destruct (astep k a o) as [a1|] eqn:E; [|discriminate].
    apply (IH _ a1); auto. eapply step_sim; eauto.
Qed.
