(** Ownership of allocations: the invariant of the memory model and what each primitive does to it. *)
From Coq Require Import List Arith Lia Bool Permutation.
Import ListNotations.
From Verif.CcVector Require Import Model Spec.

Definition safe {A} (r : res A) (P : A -> Prop) : Prop :=
  match r with Ok a => P a | Ub => False | Impossible => True end.

Lemma safe_bind {A B} (r : res A) (k : A -> res B) P Q :
  safe r P -> (forall a, P a -> safe (k a) Q) -> safe (bind r k) Q.
Proof. destruct r; cbn; auto; tauto. Qed.

Lemma safe_imp {A} (r : res A) (P Q : A -> Prop) : safe r P -> (forall a, P a -> Q a) -> safe r Q.
Proof. destruct r; cbn; auto. Qed.

Section Heap.
Context {E : Type}.
Variable asan : bool.
Implicit Types (w : @world E) (xs ys : list E).

(** A buffer [gp .. gp+gc) (none if [gc = 0]) with the initialised elements [gxs] from [glo] on; [gvec]: owned by a [vector], whose
    tail ASan may have poisoned, rather than by a [Vec] or an iterator. *)
Record own := Own { gp : nat; gc : nat; glo : nat; gxs : list E; gvec : bool }.

Definition gblock (g : own) : list (nat * nat) := if gc g =? 0 then [] else [(gp g, gc g)].

Definition holds (clean : bool) w (g : own) : Prop :=
  (gc g = 0 -> gxs g = []) /\
  (gc g <> 0 -> gp g <> 0 /\ gp g <= glo g /\ glo g + length (gxs g) <= gp g + gc g) /\
  elements_at w (glo g) (gxs g) /\
  (if gvec g
   then gp g = glo g /\
        (asan = false -> forall a, gp g <= a < gp g + gc g -> poisoned w a = false) /\
        (asan = true -> clean = true -> forall a, glo g + length (gxs g) <= a < gp g + gc g -> poisoned w a = true)
   else forall a, gp g <= a < gp g + gc g -> poisoned w a = false).

Definition disjoint (b b' : nat * nat) : Prop := forall a, in_block b a = true -> in_block b' a = true -> False.

Definition good (clean : bool) w (gs : list own) : Prop :=
  Permutation (blocks w) (flat_map gblock gs) /\
  ForallOrdPairs disjoint (flat_map gblock gs) /\
  Forall (holds clean w) gs.

Lemma in_block_iff b a : in_block b a = true <-> fst b <= a < fst b + snd b.
Proof. unfold in_block. rewrite andb_true_iff, Nat.leb_le, Nat.ltb_lt. tauto. Qed.

Lemma disjoint_sym b b' : disjoint b b' -> disjoint b' b.
Proof. unfold disjoint. eauto. Qed.

Lemma FOP_app {A} (R : A -> A -> Prop) l1 l2 :
  ForallOrdPairs R (l1 ++ l2) <->
  ForallOrdPairs R l1 /\ ForallOrdPairs R l2 /\ (forall x y, In x l1 -> In y l2 -> R x y).
Proof.
  induction l1 as [|x l1 IH]; cbn.
  - split; intros; [repeat split; [constructor | tauto | tauto] | tauto].
  - split.
    + intros H. inversion H as [|? ? H1 H2]; subst.
      apply IH in H2. destruct H2 as (P & Q & S).
      rewrite Forall_app in H1. destruct H1 as [H1 H1'].
      repeat split; [constructor; auto | auto |].
      intros a b [-> | Ha] Hb; [rewrite Forall_forall in H1'; auto | auto].
    + intros (P & Q & S). inversion P as [|? ? P1 P2]; subst.
      constructor; [rewrite Forall_app; split; [auto | apply Forall_forall; auto] | apply IH; auto 8].
Qed.

Lemma FOP_perm {A} (R : A -> A -> Prop) (sym : forall x y, R x y -> R y x) l l' :
  Permutation l l' -> ForallOrdPairs R l -> ForallOrdPairs R l'.
Proof.
  induction 1; intros H1; auto.
  - inversion H1; subst. constructor; auto. eapply Permutation_Forall; eauto.
  - inversion H1 as [|? ? F1 F2]; subst. inversion F2 as [|? ? F3 F4]; subst.
    inversion F1; subst. constructor; [constructor; auto | constructor; auto].
Qed.

Lemma flat_map_perm {A B} (f : A -> list B) l l' : Permutation l l' -> Permutation (flat_map f l) (flat_map f l').
Proof. apply Permutation_flat_map. Qed.

Lemma good_perm c w gs gs' : Permutation gs gs' -> good c w gs -> good c w gs'.
Proof.
  intros P (A & B & C). split; [|split].
  - rewrite A. now apply flat_map_perm.
  - eapply FOP_perm; [apply disjoint_sym | apply flat_map_perm, P | exact B].
  - eapply Permutation_Forall; eauto.
Qed.

Lemma good_swap c w g g' gs : good c w (g :: g' :: gs) -> good c w (g' :: g :: gs).
Proof. apply good_perm. constructor. Qed.

Lemma good_unclean c w gs : good c w gs -> good false w gs.
Proof.
  intros (A & B & C). split; [|split]; auto.
  eapply Forall_impl; [|exact C]. intros g (H1 & H2 & H3 & H4).
  split; [|split; [|split]]; auto.
  destruct (gvec g); auto. destruct H4 as (H4 & H5 & _). split; [|split]; auto. discriminate.
Qed.

(** Memory outside the head's block is not the head's business. *)
Lemma holds_frame c w w' g :
  (forall a, in_block (gp g, gc g) a = true -> mem w' a = mem w a /\ poisoned w' a = poisoned w a) ->
  holds c w g -> holds c w' g.
Proof.
  intros F (H1 & H2 & H3 & H4). split; [|split; [|split]]; auto.
  - intros i x Hi. destruct (Nat.eq_dec (gc g) 0) as [Z|Z].
    + rewrite (H1 Z) in Hi. destruct i; discriminate.
    + specialize (H2 Z). assert (i < length (gxs g)) by (apply nth_error_Some; rewrite Hi; discriminate).
      destruct (F (glo g + i)) as [Fm Fp]. { apply in_block_iff; cbn; lia. }
      rewrite Fm, Fp. now apply H3.
  - destruct (gvec g).
    + destruct H4 as (H4 & H5 & H6). split; [auto|]. split.
      * intros Z a Ha. destruct (F a) as [_ Fp]. { apply in_block_iff; cbn; lia. } rewrite Fp. auto.
      * intros Z Z' a Ha. destruct (F a) as [_ Fp]. { apply in_block_iff; cbn; lia. } rewrite Fp. auto.
    + intros a Ha. destruct (F a) as [_ Fp]. { apply in_block_iff; cbn; lia. } rewrite Fp. auto.
Qed.

Lemma block_in_flat g gs a : In g gs -> in_block (gp g, gc g) a = true -> In (gp g, gc g) (flat_map gblock gs).
Proof.
  intros H I. apply in_flat_map. exists g. split; [auto|]. unfold gblock.
  destruct (gc g =? 0) eqn:Z; [|now left].
  apply Nat.eqb_eq in Z. apply in_block_iff in I. cbn in I. lia.
Qed.

(** Changes inside the head's block leave the others alone. *)
Lemma good_others c w w' g gs :
  good c w (g :: gs) ->
  (forall a, in_block (gp g, gc g) a = false -> mem w' a = mem w a /\ poisoned w' a = poisoned w a) ->
  Forall (holds c w') gs.
Proof.
  intros (A & B & C) F. inversion C as [|? ? C1 C2]; subst.
  apply Forall_forall. intros g' Hg. rewrite Forall_forall in C2.
  apply holds_frame with w; [|auto].
  intros a Ha. apply F. destruct (in_block (gp g, gc g) a) eqn:I; [|auto].
  exfalso. cbn in B. rewrite FOP_app in B. destruct B as (_ & _ & D).
  apply (D (gp g, gc g) (gp g', gc g')) with (3 := Ha) (4 := I) || eapply (D (gp g, gc g) (gp g', gc g')); eauto.
  - unfold gblock. destruct (gc g =? 0) eqn:Z; [|now left].
    apply Nat.eqb_eq in Z. apply in_block_iff in I. cbn in I. lia.
  - eapply block_in_flat; eauto.
Qed.

(** ** Reading *)

Lemma allocated_of_good c w g gs a :
  good c w (g :: gs) -> in_block (gp g, gc g) a = true -> allocated w a = true.
Proof.
  intros (A & _ & _) I. unfold allocated. apply existsb_exists. exists (gp g, gc g). split; [|auto].
  eapply Permutation_in; [symmetry; exact A|]. eapply block_in_flat; [now left | exact I].
Qed.

Lemma read_ok c w g gs i x :
  good c w (g :: gs) -> nth_error (gxs g) i = Some x -> read w (glo g + i) = Ok x.
Proof.
  intros G Hi. pose proof G as (A & B & C). inversion C as [|? ? (H1 & H2 & H3 & H4) C2]; subst.
  assert (L : i < length (gxs g)) by (apply nth_error_Some; rewrite Hi; discriminate).
  destruct (Nat.eq_dec (gc g) 0) as [Z|Z]; [rewrite (H1 Z) in L; cbn in L; lia|].
  destruct (H3 i x Hi) as [M P]. unfold read.
  rewrite (allocated_of_good c w g gs); [|auto|apply in_block_iff; cbn; specialize (H2 Z); lia].
  now rewrite P, M.
Qed.

Lemma read_all_at (w : world) xs : forall p,
  (forall i x, nth_error xs i = Some x -> read w (p + i) = Ok x) -> read_all w p (length xs) = Ok xs.
Proof.
  induction xs as [|x xs IH]; intros p H; cbn; [reflexivity|].
  rewrite <- (Nat.add_0_r p) at 1. rewrite (H 0 x eq_refl). cbn.
  rewrite IH; [reflexivity|]. intros i y Hi. rewrite Nat.add_succ_comm. apply (H (S i)). exact Hi.
Qed.

Lemma read_all_ok c w g gs : good c w (g :: gs) -> read_all w (glo g) (length (gxs g)) = Ok (gxs g).
Proof. intros G. apply read_all_at. intros i x. eapply read_ok; eauto. Qed.

(** ** Writing *)

Lemma write_in c w p n lo xs gs a x :
  good c w (Own p n lo xs false :: gs) -> p <= a < p + n ->
  exists w', write w a x = Ok w' /\ blocks w' = blocks w /\ poisoned w' = poisoned w /\ dropped w' = dropped w /\
             mem w' = upd (mem w) a (Some x).
Proof.
  intros G Ha. pose proof G as (A & B & C). inversion C as [|? ? (H1 & H2 & H3 & H4) C2]; subst. cbn in *.
  unfold write. rewrite (allocated_of_good c w _ gs _ G); [|apply in_block_iff; cbn; lia].
  rewrite (H4 a Ha). cbn. eexists; split; [reflexivity|]. cbn. auto.
Qed.

Lemma write_all_raw (w : world) ys : forall p,
  (forall i, i < length ys -> allocated w (p + i) = true /\ poisoned w (p + i) = false) ->
  exists w', write_all w p ys = Ok w' /\ blocks w' = blocks w /\ poisoned w' = poisoned w /\ dropped w' = dropped w /\
             (forall i y, nth_error ys i = Some y -> mem w' (p + i) = Some y) /\
             (forall a, ~ (p <= a < p + length ys) -> mem w' a = mem w a).
Proof.
  revert w. induction ys as [|y ys IH]; intros w p H; cbn [write_all].
  - exists w. repeat split; auto. intros i y Hi. destruct i; discriminate.
  - destruct (H 0) as [A P]; [cbn; lia|]. rewrite Nat.add_0_r in A, P.
    unfold write. rewrite A, P. cbn [negb andb bind].
    set (w1 := World _ _ _ _).
    destruct (IH w1 (S p)) as (w' & E1 & E2 & E3 & E4 & E5 & E6).
    { intros i Hi. rewrite Nat.add_succ_comm. apply (H (S i)). cbn. lia. }
    exists w'. split; [exact E1|]. split; [exact E2|]. split; [exact E3|]. split; [exact E4|]. split.
    + intros [|i] z Hi; cbn in Hi.
      * injection Hi as <-. rewrite Nat.add_0_r. rewrite E6 by lia. cbn. unfold upd. now rewrite Nat.eqb_refl.
      * rewrite <- Nat.add_succ_comm. now apply E5.
    + intros a Ha. cbn in Ha. rewrite E6 by lia. cbn. unfold upd.
      destruct (a =? p) eqn:Q; [apply Nat.eqb_eq in Q; lia | reflexivity].
Qed.

Lemma write_all_ok c w p n lo xs gs ys :
  good c w (Own p n lo xs false :: gs) -> length ys <= n ->
  exists w', write_all w p ys = Ok w' /\ good c w' (Own p n p ys false :: gs) /\ dropped w' = dropped w.
Proof.
  intros G L. pose proof G as (A & B & C). inversion C as [|? ? (H1 & H2 & H3 & H4) C2]; subst. cbn in *.
  destruct (write_all_raw w ys p) as (w' & E1 & E2 & E3 & E4 & E5 & E6).
  { intros i Hi. split.
    - eapply allocated_of_good; [exact G|]. apply in_block_iff; cbn; lia.
    - apply H4. lia. }
  exists w'. split; [exact E1|]. split; [|exact E4].
  split; [rewrite E2; exact A|]. split; [exact B|]. constructor.
  - split; [|split; [|split]]; cbn.
    + intros ->. destruct ys; [auto | cbn in L; lia].
    + intros Z. specialize (H2 Z). lia.
    + intros i y Hi. assert (i < length ys) by (apply nth_error_Some; rewrite Hi; discriminate).
      rewrite E3. split; [now apply E5 | apply H4; lia].
    + rewrite E3. exact H4.
  - eapply good_others; [exact G|]. intros a Ha. rewrite E3. split; [|reflexivity].
    apply E6. intros K. assert (in_block (p, n) a = true) by (apply in_block_iff; cbn; lia). cbn in Ha. congruence.
Qed.

Lemma drop_all_good c w gs xs : good c w gs -> good c (drop_all w xs) gs.
Proof. intros (A & B & C). split; [exact A|]. split; [exact B|]. eapply Forall_impl; [|exact C]. intros g. apply holds_frame. auto. Qed.

(** ** Allocating and freeing *)

Lemma overlaps_false b b' : snd b <> 0 -> snd b' <> 0 -> overlaps b b' = false -> disjoint b b'.
Proof.
  unfold overlaps, disjoint. intros N N' H a Ha Hb.
  apply in_block_iff in Ha, Hb. apply andb_false_iff in H. rewrite !Nat.ltb_ge in H. lia.
Qed.

Lemma flat_gblock_nonzero gs b : In b (flat_map gblock gs) -> snd b <> 0.
Proof.
  intros H. apply in_flat_map in H. destruct H as (g & _ & H). unfold gblock in H.
  destruct (gc g =? 0) eqn:Z; cbn in H; [tauto|]. destruct H as [<-|[]]. now apply Nat.eqb_neq in Z.
Qed.

Lemma alloc_ok c w gs a n :
  good c w gs ->
  safe (alloc w a n) (fun w' => n <> 0 /\ good c w' (Own a n a [] false :: gs) /\ dropped w' = dropped w).
Proof.
  intros (A & B & C). unfold alloc.
  destruct ((0 <? n) && negb (a =? null) && negb (existsb (overlaps (a, n)) (blocks w))) eqn:Q; [|exact Logic.I].
  cbn. rewrite !andb_true_iff, !negb_true_iff, Nat.ltb_lt, Nat.eqb_neq in Q. destruct Q as [[Q1 Q2] Q3].
  assert (D : forall b, In b (flat_map gblock gs) -> disjoint (a, n) b).
  { intros b Hb. apply overlaps_false; [cbn; lia | eapply flat_gblock_nonzero; eauto |].
    destruct (overlaps (a, n) b) eqn:O; [|reflexivity].
    assert (X : existsb (overlaps (a, n)) (blocks w) = true).
    { apply existsb_exists. exists b. split; [eapply Permutation_in; [symmetry; exact A | exact Hb] | exact O]. }
    congruence. }
  split; [lia|]. split; [|reflexivity].
  assert (GB : gblock (Own a n a [] false) = [(a, n)]).
  { unfold gblock; cbn. destruct (n =? 0) eqn:Z; [apply Nat.eqb_eq in Z; lia | reflexivity]. }
  split; [|split].
  - cbn. rewrite GB. cbn. now constructor.
  - cbn [flat_map]. rewrite GB. cbn. constructor; [apply Forall_forall; auto | exact B].
  - constructor.
    + split; [|split; [|split]]; cbn.
      * auto.
      * unfold null in *. intros _. split; [lia|]. lia.
      * intros [|i] x Hi; discriminate.
      * intros b Hb. assert (X : in_block (a, n) b = true) by (apply in_block_iff; cbn; lia). unfold in_block in X; cbn in X. unfold in_block; cbn. now rewrite X.
    + apply Forall_forall. intros g Hg. rewrite Forall_forall in C. apply holds_frame with w; [|auto].
      intros b Hb. cbn. destruct (in_block (a, n) b) eqn:I; [|auto].
      exfalso. eapply D; [eapply block_in_flat; eauto | exact I | exact Hb].
Qed.

Lemma remove_block_perm b bs : In b bs -> Permutation bs (b :: remove_block b bs).
Proof.
  induction bs as [|b' bs IH]; intros H; [destruct H|]. cbn.
  destruct (block_eqb b b') eqn:Q.
  - unfold block_eqb in Q. apply andb_true_iff in Q. rewrite !Nat.eqb_eq in Q.
    destruct b, b'; cbn in *. destruct Q; subst. reflexivity.
  - destruct H as [->|H].
    + unfold block_eqb in Q. rewrite !Nat.eqb_refl in Q. discriminate.
    + rewrite (IH H) at 1. constructor.
Qed.

Lemma dealloc_ok c w g gs :
  good c w (g :: gs) -> gc g <> 0 ->
  exists w', dealloc w (gp g) (gc g) = Ok w' /\ good c w' gs /\ dropped w' = dropped w.
Proof.
  intros G Z. pose proof G as (A & B & C).
  assert (GB : gblock g = [(gp g, gc g)]).
  { unfold gblock. destruct (gc g =? 0) eqn:Q; [apply Nat.eqb_eq in Q; lia | reflexivity]. }
  cbn [flat_map] in A, B. rewrite GB in A, B. cbn in A, B.
  assert (I : In (gp g, gc g) (blocks w)) by (eapply Permutation_in; [symmetry; exact A | now left]).
  unfold dealloc.
  assert (X : existsb (block_eqb (gp g, gc g)) (blocks w) = true).
  { apply existsb_exists. eexists; split; [exact I|]. unfold block_eqb. now rewrite !Nat.eqb_refl. }
  rewrite X. eexists. split; [reflexivity|]. split; [|reflexivity].
  split; [|split].
  - cbn. apply Permutation_cons_inv with (gp g, gc g). rewrite <- A. symmetry. now apply remove_block_perm.
  - inversion B; auto.
  - eapply good_others; [exact G|]. intros a Ha. cbn. unfold in_block in *; cbn in *. rewrite Ha. auto.
Qed.

(** Giving up a buffer that does not exist. *)
Lemma good_drop_empty c w g gs : good c w (g :: gs) -> gc g = 0 -> good c w gs.
Proof.
  intros (A & B & C) Z. cbn in A, B. unfold gblock at 1 in A. unfold gblock at 1 in B. rewrite Z in A, B. cbn in A, B.
  split; [exact A|]. split; [exact B|]. now inversion C.
Qed.

Lemma good_add_empty c w gs p v : good c w gs -> good c w (Own p 0 p [] v :: gs).
Proof.
  intros (A & B & C). split; [exact A|]. split; [exact B|]. constructor; [|exact C].
  split; [|split; [|split]]; cbn; auto; try lia.
  - intros i x Hi. destruct i; discriminate.
  - destruct v; [split; [auto|split]|]; intros; lia.
Qed.

Lemma free_buffer_ok c w p n l lo xs m gs :
  good c w (Own p n lo xs m :: gs) ->
  exists w', free_buffer w (Vec p l n) = Ok w' /\ good c w' gs /\ dropped w' = dropped w.
Proof.
  intros G. unfold free_buffer. cbn. destruct (n =? 0) eqn:Z.
  - apply Nat.eqb_eq in Z. exists w. split; [reflexivity|]. split; [|reflexivity].
    eapply good_drop_empty; [exact G | exact Z].
  - apply Nat.eqb_neq in Z. exact (dealloc_ok c w _ gs G Z).
Qed.

(** ** [Vec] *)

Definition std (v : vec) xs : own := Own (vptr v) (vcap v) (vptr v) xs false.

Lemma vec_store_ok c w v xs gs ys need ch :
  good c w (std v xs :: gs) ->
  safe (vec_store w v ys need ch)
    (fun '(w', v') => good c w' (std v' ys :: gs) /\ vlen v' = length ys /\ length ys <= vcap v' /\ need <= vcap v' /\
                      dropped w' = dropped w).
Proof.
  intros G. unfold vec_store. destruct ch as [[a n]|].
  - destruct ((length ys <=? n) && (need <=? n)) eqn:Q; [|exact Logic.I].
    apply andb_true_iff in Q. rewrite !Nat.leb_le in Q. destruct Q as [Q1 Q2].
    destruct (n =? 0) eqn:Z.
    + apply Nat.eqb_eq in Z. subst n. destruct v as [p l k].
      destruct (free_buffer_ok c w p k l _ _ _ gs G) as (w1 & E1 & G1 & D1). rewrite E1. cbn.
      assert (ys = []) as -> by (destruct ys; [auto | cbn in Q1; lia]).
      split; [now apply good_add_empty|]. cbn. auto.
    + eapply safe_bind; [eapply alloc_ok; exact G|].
      intros w1 (N & G1 & D1). cbn beta.
      destruct (write_all_ok c w1 a n a [] _ ys G1 Q1) as (w2 & E2 & G2 & D2). rewrite E2. cbn.
      apply good_swap in G2. destruct v as [p l k].
      destruct (free_buffer_ok c w2 p k l _ _ _ _ G2) as (w3 & E3 & G3 & D3). rewrite E3. cbn.
      split; [exact G3|]. cbn. repeat split; auto. congruence.
  - destruct ((length ys <=? vcap v) && (need <=? vcap v)) eqn:Q; [|exact Logic.I].
    apply andb_true_iff in Q. rewrite !Nat.leb_le in Q. destruct Q as [Q1 Q2].
    destruct (write_all_ok c w _ _ _ _ _ ys G Q1) as (w2 & E2 & G2 & D2). rewrite E2. cbn.
    split; [exact G2|]. cbn. auto.
Qed.

End Heap.
