From Coq Require Import List Arith Lia Bool Permutation.
Import ListNotations.
From Verif.CcVector Require Import Model Spec Heap Ops.

Section Proofs.
Context {E : Type}.
Variable clone : E -> E.
Variable asan lens : bool.
Implicit Types (xs ys : list E).
Notation step := (step clone asan lens).

(** ** The list functions of [Vec] *)

Lemma dedup_from_spec same l : forall (x : E) k d, dedup_from same x l = (k, d) -> dedups same x l k d.
Proof.
  induction l as [|y l IH]; intros x k d H; cbn in H.
  - injection H as <- <-. constructor.
  - destruct (same y x) eqn:Q.
    + destruct (dedup_from same x l) as [k' d'] eqn:D. injection H as <- <-. constructor; auto.
    + destruct (dedup_from same y l) as [k' d'] eqn:D. injection H as <- <-. constructor; auto.
Qed.

Lemma keeps_spec (f : E -> bool) l : keeps f l (filter f l) (filter (fun x => negb (f x)) l).
Proof.
  induction l as [|x l IH]; cbn; [constructor|]. destruct (f x) eqn:Q; cbn; constructor; auto.
Qed.

Lemma set_nth_app (l : list E) y r x : set_nth (length l) x (l ++ y :: r) = l ++ x :: r.
Proof. induction l as [|z l IH]; cbn; [reflexivity | now rewrite IH]. Qed.

Lemma last_app (l r : list E) x d : last (l ++ r ++ [x]) d = x.
Proof. rewrite app_assoc. apply last_last. Qed.

Lemma list_eq_nil (l : list E) : l = [] \/ l <> [].
Proof. destruct l; [now left | right; discriminate]. Qed.

Lemma std_does m xs ys ds r :
  std_vec clone (method_call m) xs = Some (ys, ds, r) -> exists g, does clone m xs ys ds r g.
Proof.
  intros H. destruct m; cbn in H.
  - injection H as <- <- <-. eexists; constructor.
  - injection H as <- <- <-. eexists; constructor.
  - injection H as <- <- <-. eexists; constructor.
  - injection H as <- <- <-. eexists; constructor.
  - injection H as <- <- <-. eexists; constructor.
  - injection H as <- <- <-. eexists; constructor.
  - injection H as <- <- <-. eexists; constructor.
  - destruct (i <=? length xs) eqn:Q; [|discriminate]. apply Nat.leb_le in Q. injection H as <- <- <-.
    assert (L : length (firstn i xs) = i) by (rewrite firstn_length; lia).
    exists [x]. rewrite <- L at 1. rewrite <- (firstn_skipn i xs) at 2. constructor.
  - destruct (nth_error xs i) as [x|] eqn:N; [|discriminate]. injection H as <- <- <-.
    apply nth_error_split in N. destruct N as (l & t & -> & <-).
    rewrite set_nth_app. exists []. destruct (list_eq_nil t) as [->|TN].
    + rewrite last_last, removelast_last. constructor.
    + destruct (exists_last TN) as (t' & z & ->).
      replace (l ++ x :: t' ++ [z]) with (l ++ (x :: t') ++ [z]) at 2 by reflexivity.
      rewrite last_app.
      replace (l ++ z :: t' ++ [z]) with ((l ++ z :: t') ++ [z]) by (now rewrite <- app_assoc).
      rewrite removelast_last. constructor.
  - destruct (nth_error xs i) as [x|] eqn:N; [|discriminate]. injection H as <- <- <-.
    apply nth_error_split in N. destruct N as (l & t & -> & <-). exists [].
    assert (F : firstn (length l) (l ++ x :: t) = l) by (rewrite firstn_app, Nat.sub_diag, firstn_all; cbn; now rewrite app_nil_r).
    assert (K : skipn (S (length l)) (l ++ x :: t) = t).
    { rewrite skipn_app. replace (S (length l) - length l) with 1 by lia. rewrite skipn_all2 by lia. reflexivity. }
    assert (K' : match l ++ x :: t with [] => [] | _ :: l0 => skipn (length l) l0 end = t) by exact K.
    rewrite K', F. constructor.
  - destruct xs as [|x xs].
    + injection H as <- <- <-. eexists; constructor.
    + injection H as <- <- <-. assert (N : x :: xs <> []) by discriminate.
      destruct (exists_last N) as (l & z & Ht). exists [].
      change (does clone Pop (x :: xs) (removelast (x :: xs)) [] [last (x :: xs) x] []).
      rewrite Ht. rewrite removelast_last, last_last. constructor.
  - injection H as <- <- <-. eexists; constructor.
  - injection H as <- <- <-. exists []. destruct (le_lt_dec (length xs) n).
    + rewrite firstn_all2, skipn_all2 by lia. now constructor.
    + assert (L : length (firstn n xs) = n) by (rewrite firstn_length; lia).
      rewrite <- L at 1. rewrite <- (firstn_skipn n xs) at 2. constructor.
  - destruct xs as [|x l].
    + injection H as <- <- <-. eexists; constructor.
    + destruct (dedup_from same x l) as [k d] eqn:D. injection H as <- <- <-.
      eexists. constructor. now apply dedup_from_spec.
  - injection H as <- <- <-. eexists. constructor. apply keeps_spec.
  - injection H as <- <- <-. eexists; constructor.
  - injection H as <- <- <-. eexists; constructor.
  - destruct ((i <=? j) && (j <=? length xs)) eqn:Q; [|discriminate]. injection H as <- <- <-.
    apply andb_true_iff in Q. rewrite !Nat.leb_le in Q. destruct Q as [Q1 Q2].
    assert (L : length (firstn i xs) = i) by (rewrite firstn_length; lia).
    assert (M : length (firstn (j - i) (skipn i xs)) = j - i) by (rewrite firstn_length, skipn_length; lia).
    assert (X : xs = firstn i xs ++ firstn (j - i) (skipn i xs) ++ skipn (j - i) (skipn i xs)).
    { rewrite firstn_skipn. now rewrite firstn_skipn. }
    eexists.
    pose proof (d_extend_from_within clone (firstn i xs) (firstn (j - i) (skipn i xs)) (skipn (j - i) (skipn i xs))) as D.
    rewrite L, M in D. replace (i + (j - i)) with j in D by lia. rewrite <- X in D. exact D.
  - destruct (n <=? length xs) eqn:Q; injection H as <- <- <-.
    + apply Nat.leb_le in Q. assert (L : length (firstn n xs) = n) by (rewrite firstn_length; lia).
      exists [x]. rewrite <- L at 1. rewrite <- (firstn_skipn n xs) at 2. constructor.
    + apply Nat.leb_gt in Q. eexists.
      replace n with (length xs + S (n - length xs - 1)) at 1 by lia. constructor.
  - destruct (n <=? length xs) eqn:Q; injection H as <- <- <-.
    + apply Nat.leb_le in Q. assert (L : length (firstn n xs) = n) by (rewrite firstn_length; lia).
      exists []. rewrite <- L at 1. rewrite <- (firstn_skipn n xs) at 2. constructor.
    + apply Nat.leb_gt in Q. eexists.
      replace n with (length xs + (n - length xs)) at 1 by lia. constructor.
Qed.

Lemma std_rejects m xs : std_vec clone (method_call m) xs = None -> rejects m xs (moved_in (method_call m)).
Proof.
  intros H. destruct m; cbn in H |- *; try discriminate.
  - destruct (i <=? length xs) eqn:Q; [discriminate|]. apply Nat.leb_gt in Q. now constructor.
  - destruct (nth_error xs i) eqn:N; [discriminate|]. apply nth_error_None in N. now constructor.
  - destruct (nth_error xs i) eqn:N; [discriminate|]. apply nth_error_None in N. now constructor.
  - destruct xs; discriminate.
  - destruct xs; [discriminate|]. destruct (dedup_from same e xs); discriminate.
  - destruct ((i <=? j) && (j <=? length xs)) eqn:Q; [discriminate|].
    apply andb_false_iff in Q. rewrite !Nat.leb_gt in Q. constructor. lia.
  - destruct (n <=? length xs); discriminate.
  - destruct (n <=? length xs); discriminate.
Qed.

(** ** The simulation *)

Definition entry : Type := nat * (@object * list E).
Definition e_obj (e : entry) : nat * object := (fst e, fst (snd e)).
Definition kind_of (o : object) : kind := match o with OVector _ => KVector | OIter _ => KIter end.
Definition e_spec (e : entry) : nat * (kind * list E) := (fst e, (kind_of (fst (snd e)), snd (snd e))).
Definition shaped (o : object) xs : Prop :=
  match o with OVector s => shape lens s xs | OIter i => icount i = length xs end.
Definition own_of (o : object) xs : own := match o with OVector s => vown s xs | OIter i => iown i xs end.
Definition e_own (e : entry) : own := own_of (fst (snd e)) (snd (snd e)).
Definition e_shaped (e : entry) : Prop := shaped (fst (snd e)) (snd (snd e)).

Definition R (c : bool) (st : @state E) (ss : sstate) : Prop :=
  exists L : list entry,
    st_objs st = map e_obj L /\ Permutation (live ss) (map e_spec L) /\ NoDup (map fst L) /\ Forall e_shaped L /\
    good asan c (st_world st) (map e_own L) /\ destroyed ss = dropped (st_world st).

Lemma R_perm c st l l' d : Permutation l l' -> R c st (SState l d) -> R c st (SState l' d).
Proof.
  intros P (L & A & B & C). exists L. split; [exact A|]. split; [|exact C]. cbn in *. rewrite <- P. exact B.
Qed.

Lemma R_unclean c st ss : R c st ss -> R false st ss.
Proof.
  intros (L & A & B & C & D & G & H). exists L. repeat (split; [assumption|]). split; [|assumption].
  eapply good_unclean; eauto.
Qed.

Lemma R_init : R true init sinit.
Proof.
  exists []. cbn. split; [reflexivity|]. split; [constructor|]. split; [constructor|]. split; [constructor|].
  split; [|reflexivity]. split; [constructor|]. split; constructor.
Qed.

Lemma lookup_none (L : list entry) v : lookup (map e_obj L) v = None -> ~ In v (map fst L).
Proof.
  induction L as [|[k [o xs]] L IH]; cbn; [tauto|]. destruct (v =? k) eqn:Q; [discriminate|].
  apply Nat.eqb_neq in Q. intros H [K|K]; [congruence | now apply IH].
Qed.

Lemma lookup_some (L : list entry) v o :
  lookup (map e_obj L) v = Some o ->
  exists xs L', remove_key (map e_obj L) v = map e_obj L' /\ Permutation L ((v, (o, xs)) :: L').
Proof.
  induction L as [|[k [o' xs]] L IH]; cbn; [discriminate|]. destruct (v =? k) eqn:Q.
  - apply Nat.eqb_eq in Q. subst k. intros H. injection H as ->. exists xs, L. split; [reflexivity | reflexivity].
  - intros H. destruct (IH H) as (ys & L' & A & B). exists ys, ((k, (o', xs)) :: L'). cbn. split.
    + now rewrite A.
    + rewrite B. apply perm_swap.
Qed.

Lemma fst_e_spec (L : list entry) : map fst (map e_spec L) = map fst L.
Proof. rewrite map_map. reflexivity. Qed.

(** [R] with one variable singled out. *)
Lemma R_take c st ss v o :
  R c st ss -> lookup (st_objs st) v = Some o ->
  exists xs L', remove_key (st_objs st) v = map e_obj L' /\
    Permutation (live ss) ((v, (kind_of o, xs)) :: map e_spec L') /\ ~ In v (map fst L') /\ NoDup (map fst L') /\
    shaped o xs /\ Forall e_shaped L' /\ good asan c (st_world st) (own_of o xs :: map e_own L') /\
    destroyed ss = dropped (st_world st).
Proof.
  intros (L & A & B & C & D & G & H) K. rewrite A in K. destruct (lookup_some L v o K) as (xs & L' & M & P).
  exists xs, L'. rewrite A. split; [exact M|].
  split; [rewrite B; exact (Permutation_map e_spec P)|].
  pose proof (Permutation_NoDup (Permutation_map fst P) C) as N. cbn in N. inversion N; subst.
  split; [assumption|]. split; [assumption|].
  pose proof (Permutation_Forall P D) as F. inversion F; subst.
  split; [assumption|]. split; [assumption|]. split; [|assumption].
  eapply good_perm; [exact (Permutation_map e_own P) | exact G].
Qed.

Lemma R_put c w v o ys L r l d :
  NoDup (map fst L) -> Forall e_shaped L -> shaped o ys -> good asan c w (own_of o ys :: map e_own L) ->
  Permutation l ((v, (kind_of o, ys)) :: map e_spec L) -> d = dropped w ->
  safe (put w v o (map e_obj L) r) (fun '(st', r') => r' = r /\ ~ In v (map fst L) /\ R c st' (SState l d)).
Proof.
  intros N F S G P D. unfold put. destruct (lookup (map e_obj L) v) eqn:K; [exact Logic.I|]. cbn.
  apply lookup_none in K. split; [reflexivity|]. split; [exact K|].
  exists ((v, (o, ys)) :: L). cbn. split; [reflexivity|]. split; [exact P|].
  split; [constructor; assumption|]. split; [constructor; assumption|]. split; assumption.
Qed.

Lemma R_state c w L l d :
  NoDup (map fst L) -> Forall e_shaped L -> good asan c w (map e_own L) -> Permutation l (map e_spec L) -> d = dropped w ->
  R c (State w (map e_obj L)) (SState l d).
Proof. intros. exists L. cbn. auto 8. Qed.

Definition is_panic (r : @obs E) : bool := match r with Panic => true | _ => false end.

Definition steps (c : bool) (ss : sstate) (o : op) (x : @state E * obs) : Prop :=
  let '(st', r) := x in exists ss' g b, sstep clone ss o ss' r g b /\ R (c && negb (is_panic r)) st' ss'.

Lemma take_vector_inv (st : @state E) v s rest :
  take_vector st v = Ok (s, rest) -> lookup (st_objs st) v = Some (OVector s) /\ rest = remove_key (st_objs st) v.
Proof.
  unfold take_vector. destruct (lookup (st_objs st) v) as [[s'|i]|] eqn:K; try discriminate.
  intros H. injection H as -> <-. auto.
Qed.
Lemma take_vector_not_ub st v : @take_vector E st v <> Ub.
Proof. unfold take_vector. destruct (lookup (st_objs st) v) as [[s'|i]|]; discriminate. Qed.
Lemma take_iter_inv (st : @state E) v s rest :
  take_iter st v = Ok (s, rest) -> lookup (st_objs st) v = Some (OIter s) /\ rest = remove_key (st_objs st) v.
Proof.
  unfold take_iter. destruct (lookup (st_objs st) v) as [[s'|i]|] eqn:K; try discriminate.
  intros H. injection H as -> <-. auto.
Qed.
Lemma take_iter_not_ub st v : @take_iter E st v <> Ub.
Proof. unfold take_iter. destruct (lookup (st_objs st) v) as [[s'|i]|]; discriminate. Qed.

Lemma safe_take_vector {B} (st : @state E) v (k : vector * list (nat * object) -> res B) Q c ss :
  R c st ss ->
  (forall s xs L,
     Permutation (live ss) ((v, (KVector, xs)) :: map e_spec L) -> ~ In v (map fst L) -> NoDup (map fst L) ->
     shape lens s xs -> Forall e_shaped L -> good asan c (st_world st) (vown s xs :: map e_own L) ->
     destroyed ss = dropped (st_world st) -> safe (k (s, map e_obj L)) Q) ->
  safe (bind (take_vector st v) k) Q.
Proof.
  intros HR H. destruct (take_vector st v) as [[s rest]| |] eqn:T; cbn; auto.
  - apply take_vector_inv in T. destruct T as [K ->].
    destruct (R_take c st ss v _ HR K) as (xs & L & M & P & N & N' & S & F & G & D). rewrite M. eapply H; eauto.
  - now apply take_vector_not_ub in T.
Qed.

Lemma safe_take_iter {B} (st : @state E) v (k : into_iter * list (nat * object) -> res B) Q c ss :
  R c st ss ->
  (forall s xs L,
     Permutation (live ss) ((v, (KIter, xs)) :: map e_spec L) -> ~ In v (map fst L) -> NoDup (map fst L) ->
     icount s = length xs -> Forall e_shaped L -> good asan c (st_world st) (iown s xs :: map e_own L) ->
     destroyed ss = dropped (st_world st) -> safe (k (s, map e_obj L)) Q) ->
  safe (bind (take_iter st v) k) Q.
Proof.
  intros HR H. destruct (take_iter st v) as [[s rest]| |] eqn:T; cbn; auto.
  - apply take_iter_inv in T. destruct T as [K ->].
    destruct (R_take c st ss v _ HR K) as (xs & L & M & P & N & N' & S & F & G & D). rewrite M. eapply H; eauto.
  - now apply take_iter_not_ub in T.
Qed.

Lemma fresh_perm v l l' : Permutation l l' -> @fresh E v l' -> fresh v l.
Proof. unfold fresh. intros P H K. apply H. eapply Permutation_in; [exact (Permutation_map fst P) | exact K]. Qed.

Lemma fresh_spec v (L : list entry) : ~ In v (map fst L) -> fresh v (map e_spec L).
Proof. unfold fresh. now rewrite fst_e_spec. Qed.

(** Creating a variable from a world in which its buffer is in place. *)
Lemma finish_put c w v o ys L r l d (ss : sstate) (op0 : op) :
  NoDup (map fst L) -> Forall e_shaped L -> shaped o ys -> good asan c w (own_of o ys :: map e_own L) ->
  Permutation l ((v, (kind_of o, ys)) :: map e_spec L) -> d = dropped w -> is_panic r = false ->
  (~ In v (map fst L) -> exists g b, sstep clone ss op0 (SState l d) r g b) ->
  safe (put w v o (map e_obj L) r) (steps c ss op0).
Proof.
  intros N F S G P D IP H. eapply safe_imp; [eapply R_put; eauto|].
  intros [st' r'] (-> & NI & HR). destruct (H NI) as (g & b & ST). exists (SState l d), g, b. split; [exact ST|].
  rewrite IP, andb_true_r. exact HR.
Qed.

Lemma finish_panic c w v o ys L l d (ss : sstate) (op0 : op) :
  NoDup (map fst L) -> Forall e_shaped L -> shaped o ys -> good asan false w (own_of o ys :: map e_own L) ->
  Permutation l ((v, (kind_of o, ys)) :: map e_spec L) -> d = dropped w ->
  (~ In v (map fst L) -> exists g b, sstep clone ss op0 (SState l d) Panic g b) ->
  safe (put w v o (map e_obj L) Panic) (steps c ss op0).
Proof.
  intros N F S G P D H. eapply safe_imp; [eapply R_put; eauto|].
  intros [st' r'] (-> & NI & HR). destruct (H NI) as (g & b & ST). exists (SState l d), g, b. split; [exact ST|].
  cbn. rewrite andb_false_r. exact HR.
Qed.

Lemma step_ok c st ss o : R c st ss -> safe (step st o) (steps c ss o).
Proof.
  intros HR. destruct ss as [l d]. destruct o; cbn [Model.step].
  - (* new *)
    destruct HR as (L & A & B & N & F & G & D). cbn in B, D. rewrite A.
    eapply finish_put with (ys := []) (l := (v, (KVector, [])) :: l); eauto.
    + exact (proj1 (new_ok lens)).
    + apply good_new; exact G.
    + intros NI. do 2 eexists. constructor. eapply fresh_perm; [exact B | now apply fresh_spec].
  - (* with_capacity *)
    destruct HR as (L & A & B & N & F & G & D). cbn in B, D. rewrite A.
    unfold with_capacity. eapply safe_bind.
    { eapply call_ok; [exact (proj1 (new_ok lens)) | apply good_new; exact G]. }
    intros [[w1 s] out] H. cbn in H. destruct H as (-> & S1 & G1 & _ & D1).
    eapply finish_put with (ys := []) (l := (v, (KVector, [])) :: l) (d := d); eauto.
    + rewrite D1, app_nil_r. exact D.
    + intros NI. do 2 eexists. cbn. constructor. eapply fresh_perm; [exact B | now apply fresh_spec].
  - (* from Vec *)
    destruct HR as (L & A & B & N & F & G & D). cbn in B, D. rewrite A.
    unfold from_vec. eapply safe_bind.
    { eapply (from_elements_ok clone asan lens c _ xs _ (Extend xs)); [exact G | reflexivity]. }
    intros [w1 s] (S1 & G1 & D1).
    eapply finish_put with (ys := xs) (l := (v, (KVector, xs)) :: l) (d := d); eauto.
    + now rewrite D1.
    + intros NI. do 2 eexists. constructor. eapply fresh_perm; [exact B | now apply fresh_spec].
  - (* from slice *)
    destruct HR as (L & A & B & N & F & G & D). cbn in B, D. rewrite A.
    unfold from_slice. eapply safe_bind.
    { eapply (from_elements_ok clone asan lens c _ xs _ (ExtendFromSlice xs)); [exact G | reflexivity]. }
    intros [w1 s] (S1 & G1 & D1).
    eapply finish_put with (ys := map clone xs) (l := (v, (KVector, map clone xs)) :: l) (d := d); eauto.
    + now rewrite D1.
    + intros NI. do 2 eexists. constructor. eapply fresh_perm; [exact B | now apply fresh_spec].
  - (* from_iter *)
    destruct HR as (L & A & B & N & F & G & D). cbn in B, D. rewrite A.
    unfold from_iter. eapply safe_bind.
    { eapply call_ok; [exact (proj1 (new_ok lens)) | apply good_new; exact G]. }
    intros [[w1 s] out] H. cbn in H. destruct H as (-> & S1 & G1 & _ & D1).
    eapply finish_put with (ys := xs) (l := (v, (KVector, xs)) :: l) (d := d); eauto.
    + rewrite D1, app_nil_r. exact D.
    + intros NI. do 2 eexists. cbn. constructor. eapply fresh_perm; [exact B | now apply fresh_spec].
  - (* a method *)
    eapply safe_take_vector; [exact HR|]. cbn [live destroyed].
    intros s xs L P NI N S F G D. eapply safe_bind; [eapply call_ok; [exact S | exact G]|].
    intros [[w1 s1] out] H. destruct (std_vec clone (method_call m) xs) as [[[ys ds] r]|] eqn:SV.
    + destruct H as (-> & S1 & G1 & _ & D1). destruct (std_does m xs ys ds r SV) as [g DO].
      eapply finish_put with (ys := ys) (d := d ++ ds); eauto.
      * rewrite D1, D. reflexivity.
      * intros _. do 2 eexists. eapply s_call; eauto.
    + destruct H as (-> & -> & G1 & D1). pose proof (std_rejects m xs SV) as RJ.
      eapply finish_panic with (ys := xs) (l := l) (d := d ++ moved_in (method_call m)); eauto.
      * rewrite D1, D. reflexivity.
      * intros _. do 2 eexists. eapply s_call_panics; eauto.
  - (* append *)
    eapply safe_take_vector; [exact HR|]. cbn [live destroyed].
    intros s xs L P NI N S F G D.
    assert (HR2 : forall c' w', good asan c' w' (map e_own L) ->
                   R c' (State w' (map e_obj L)) (SState (map e_spec L) (dropped w'))).
    { intros. apply R_state; auto. }
    destruct (take_vector (State (st_world st) (map e_obj L)) other) as [[s2 rest2]| |] eqn:T; cbn [bind]; [| |exact Logic.I].
    2: { now apply take_vector_not_ub in T. }
    apply take_vector_inv in T. destruct T as [K ->]. cbn in K |- *.
    destruct (lookup_some L other _ K) as (ys & L2 & M & P2). rewrite M.
    pose proof (Permutation_NoDup (Permutation_map fst P2) N) as N2. cbn in N2. inversion N2 as [|? ? N3 N4]; subst.
    pose proof (Permutation_Forall P2 F) as F2. inversion F2 as [|? ? F3 F4]; subst.
    assert (G2 : good asan c (st_world st) (vown s xs :: vown s2 ys :: map e_own L2)).
    { eapply good_perm; [|exact G]. apply perm_skip. exact (Permutation_map e_own P2). }
    eapply safe_bind; [eapply append_ok; [exact S | exact F3 | exact G2]|].
    intros [[w1 s1] o1] (S1 & S2 & G3 & D3).
    change ((other, OVector o1) :: map e_obj L2) with (map e_obj ((other, (OVector o1, [])) :: L2)).
    eapply finish_put with (ys := xs ++ ys) (d := dropped (st_world st)).
    + cbn. constructor; assumption.
    + constructor; assumption.
    + exact S1.
    + exact G3.
    + reflexivity.
    + now rewrite D3.
    + reflexivity.
    + intros _. do 2 eexists. eapply s_append. rewrite P. rewrite (Permutation_map e_spec P2). cbn. reflexivity.
  - (* split_off *)
    eapply safe_take_vector; [exact HR|]. cbn [live destroyed].
    intros s xs L P NI N S F G D. eapply safe_bind; [eapply split_off_ok; [exact S | exact G]|].
    intros [[w1 s1] [s2|]].
    + intros (LE & S1 & S2 & G1 & D1).
      unfold put at 1. destruct (lookup (map e_obj L) v) eqn:K; [exact Logic.I|]. cbn [bind st_objs].
      change ((v, OVector s1) :: map e_obj L) with (map e_obj ((v, (OVector s1, firstn at_ xs)) :: L)).
      eapply finish_put with (ys := skipn at_ xs) (d := d).
      * cbn. constructor; [now apply lookup_none | assumption].
      * constructor; [exact S1 | assumption].
      * exact S2.
      * exact G1.
      * reflexivity.
      * now rewrite D1.
      * reflexivity.
      * intros NU. do 2 eexists.
        assert (LF : length (firstn at_ xs) = at_) by (rewrite firstn_length; lia).
        rewrite <- LF at 1. cbn. eapply (s_split_off clone l d v u ch (firstn at_ xs) (skipn at_ xs)).
        -- rewrite firstn_skipn. exact P.
        -- eapply fresh_perm; [exact P|]. unfold fresh. cbn in NU |- *. now rewrite fst_e_spec.
    + intros (LT & -> & G1 & D1).
      eapply finish_panic with (ys := xs) (l := l) (d := d); eauto.
      * now rewrite D1.
      * intros _. do 2 eexists. eapply s_split_off_panics; eauto.
  - (* assign *)
    eapply safe_take_vector; [exact HR|]. cbn [live destroyed].
    intros s xs L P NI N S F G D. eapply safe_bind; [eapply (assign_ok clone); [exact S | exact G]|].
    intros [w1 [u|]].
    + intros (l1 & y & l2 & -> & -> & S1 & G1 & D1).
      eapply finish_put with (ys := l1 ++ x :: l2) (d := d ++ [y]); eauto.
      * rewrite D1, D. reflexivity.
      * intros _. do 2 eexists. eapply s_assign. exact P.
    + intros (LE & G1 & D1).
      eapply finish_panic with (ys := xs) (l := l) (d := d ++ [x]); eauto.
      * eapply good_unclean; exact G1.
      * rewrite D1, D. reflexivity.
      * intros _. do 2 eexists. eapply s_assign_panics; eauto.
  - (* slice *)
    eapply safe_take_vector; [exact HR|]. cbn [live destroyed].
    intros s xs L P NI N S F G D. rewrite (as_slice_ok asan lens c _ s xs _ S G). cbn.
    do 3 eexists. split; [eapply s_slice; exact P|]. rewrite andb_true_r. exact HR.
  - (* deref *)
    eapply safe_take_vector; [exact HR|]. cbn [live destroyed].
    intros s xs L P NI N S F G D. rewrite (deref_ok asan lens c _ s xs _ S G). cbn.
    do 3 eexists. split; [eapply s_deref; exact P|]. rewrite andb_true_r. exact HR.
  - (* to_vec *)
    eapply safe_take_vector; [exact HR|]. cbn [live destroyed].
    intros s xs L P NI N S F G D. unfold to_vec. rewrite (deref_ok asan lens c _ s xs _ S G). cbn.
    do 3 eexists. split; [eapply s_to_vec; exact P|]. rewrite andb_true_r. exact HR.
  - (* sizes *)
    eapply safe_take_vector; [exact HR|]. cbn [live destroyed].
    intros s xs L P NI N S F G D. cbn [safe]. unfold steps.
    unfold is_empty. rewrite (shape_len lens s xs S).
    replace (length xs =? 0) with (match xs with [] => true | _ => false end) by (destruct xs; reflexivity).
    do 3 eexists. split; [eapply s_sizes; [exact P | exact (proj2 S)]|]. rewrite andb_true_r. exact HR.
  - (* clone *)
    unfold take_vector. pose proof HR as (L0 & A0 & B0 & N0 & F0 & G0 & D0). cbn in B0, D0. rewrite A0.
    destruct (lookup (map e_obj L0) v) as [[s|it]|] eqn:K0; cbn [bind]; auto; try exact Logic.I.
    destruct (lookup_some L0 v _ K0) as (xs & L & _ & PE).
    pose proof (Permutation_Forall PE F0) as F1. inversion F1 as [|? ? S F]; subst.
    assert (G : good asan c (st_world st) (vown s xs :: map e_own L)).
    { eapply good_perm; [exact (Permutation_map e_own PE) | exact G0]. }
    eapply safe_bind; [eapply clone_ok; [exact S | exact G]|].
    intros [w1 s1] (S1 & G1 & D1).
    eapply finish_put with (ys := map clone xs) (l := (u, (KVector, map clone xs)) :: l) (d := dropped (st_world st)); eauto.
    + eapply good_perm; [|exact G1]. apply perm_skip. exact (Permutation_map e_own (Permutation_sym PE)).
    + intros NI. do 2 eexists. eapply s_clone.
      * rewrite B0. exact (Permutation_map e_spec PE).
      * eapply fresh_perm; [exact B0 | now apply fresh_spec].
  - (* fill the tail *)
    eapply safe_take_vector; [exact HR|]. cbn [live destroyed].
    intros s xs L P NI N S F G D. destruct (len s + length ys <=? capacity s) eqn:Q; [|exact Logic.I].
    apply Nat.leb_le in Q. eapply safe_bind; [eapply fill_tail_ok; [exact S | exact Q | exact G]|].
    intros [w1 s1] (S1 & G1 & D1).
    eapply finish_put with (ys := xs ++ ys) (d := d); eauto.
    + now rewrite D1.
    + intros _. do 2 eexists. eapply s_fill_tail; exact P.
  - (* into Vec *)
    eapply safe_take_vector; [exact HR|]. cbn [live destroyed].
    intros s xs L P NI N S F G D. destruct (into_vec_ok asan lens c _ s xs _ S G) as (w1 & E1 & G1 & D1).
    rewrite E1. cbn. do 3 eexists. split; [eapply s_into_vec; exact P|]. rewrite andb_true_r.
    apply R_state; auto. now rewrite D1.
  - (* into_iter *)
    eapply safe_take_vector; [exact HR|]. cbn [live destroyed].
    intros s xs L P NI N S F G D. eapply safe_bind; [eapply into_iter_ok; [exact S | exact G]|].
    intros [w1 it] (C1 & G1 & D1).
    eapply finish_put with (ys := xs) (d := d); eauto.
    + now rewrite D1.
    + intros NJ. do 2 eexists. eapply s_into_iter; [exact P | now apply fresh_spec].
  - (* next *)
    eapply safe_take_iter; [exact HR|]. cbn [live destroyed].
    intros it xs L P NI N S F G D. pose proof (iter_next_ok asan c _ it xs _ S G) as H.
    destruct xs as [|x ys].
    + rewrite H. cbn [bind]. eapply finish_put with (ys := []) (l := l) (d := d); eauto.
      * intros _. do 2 eexists. eapply s_next_end; exact P.
    + destruct H as (it' & E1 & C1 & G1). rewrite E1. cbn [bind].
      eapply finish_put with (ys := ys) (d := d); eauto.
      * intros _. do 2 eexists. eapply s_next; exact P.
  - (* next_back *)
    eapply safe_take_iter; [exact HR|]. cbn [live destroyed].
    intros it xs L P NI N S F G D. destruct (iter_next_back_ok asan c _ it xs _ S G) as [[-> H] | (ys & x & it' & -> & E1 & C1 & G1)].
    + rewrite H. cbn [bind]. eapply finish_put with (ys := []) (l := l) (d := d); eauto.
      * intros _. do 2 eexists. eapply s_next_back_end; exact P.
    + rewrite E1. cbn [bind]. eapply finish_put with (ys := ys) (d := d); eauto.
      * intros _. do 2 eexists. eapply s_next_back; exact P.
  - (* count *)
    eapply safe_take_iter; [exact HR|]. cbn [live destroyed].
    intros it xs L P NI N S F G D. unfold iter_count. destruct (iter_drop_ok asan c _ it xs _ S G) as (w1 & E1 & G1 & D1).
    rewrite E1. cbn. rewrite S. do 3 eexists. split; [eapply s_count; exact P|]. rewrite andb_true_r.
    apply R_state; auto. now rewrite D1, D.
  - (* drop *)
    destruct (lookup (st_objs st) v) as [o|] eqn:K; [|exact Logic.I].
    destruct (R_take c st _ v _ HR K) as (xs & L & M & P & NI & N & S & F & G & D). cbn in P, D. rewrite M.
    destruct o as [s|it].
    + destruct (drop_ok asan lens c _ s xs _ S G) as (w1 & E1 & G1 & D1). rewrite E1. cbn.
      do 3 eexists. split; [eapply s_drop; exact P|]. rewrite andb_true_r. apply R_state; auto. now rewrite D1, D.
    + destruct (iter_drop_ok asan c _ it xs _ S G) as (w1 & E1 & G1 & D1). rewrite E1. cbn.
      do 3 eexists. split; [eapply s_drop; exact P|]. rewrite andb_true_r. apply R_state; auto. now rewrite D1, D.
  - (* C++ reads *)
    eapply safe_take_vector; [exact HR|]. cbn [live destroyed].
    intros s xs L P NI N S F G D. rewrite (cpp_read_ok asan lens c _ s xs _ S G). cbn.
    do 3 eexists. split; [eapply s_cpp_read; exact P|]. rewrite andb_true_r. exact HR.
  - (* C++ mutates *)
    eapply safe_take_vector; [exact HR|]. cbn [live destroyed].
    intros s xs L P NI N S F G D. eapply safe_bind; [eapply cpp_mutate_ok; [exact S | exact G]|].
    intros [w1 s1] (S1 & G1 & D1).
    eapply finish_put with (ys := ys) (d := d ++ ds); eauto.
    + now rewrite D1, D.
    + intros _. do 2 eexists. eapply s_cpp_mutate; exact P.
Qed.

End Proofs.
