From Coq Require Import List Arith Lia Bool Permutation.
Import ListNotations.
From Verif.CcVector Require Import Model Spec Heap Ops Proofs.

Section Run.
Context {E : Type}.
Variable clone : E -> E.
Variable asan lens : bool.
Implicit Types (xs ys : list E).

(** ** Whole programs *)

Definition panic_free (rs : list (@obs E)) : bool := negb (existsb is_panic rs).

Lemma run_ok ops : forall c st ss, R asan lens c st ss ->
  safe (run clone asan lens st ops)
    (fun '(st', rs) => exists ss' g b, sruns clone ss ops ss' rs g b /\ R asan lens (c && panic_free rs) st' ss').
Proof.
  induction ops as [|o ops IH]; intros c st ss HR; cbn [run].
  - cbn. exists ss, [], []. split; [constructor|]. now rewrite andb_true_r.
  - eapply safe_bind; [eapply step_ok; exact HR|].
    intros [st1 r] (ss1 & g & b & ST & HR1).
    eapply safe_bind; [eapply IH; exact HR1|].
    intros [st2 rs] (ss2 & gs & bs & RS & HR2). cbn.
    exists ss2, (g ++ gs), (b ++ bs). split; [econstructor; eauto|].
    unfold panic_free in *. cbn. rewrite negb_orb, andb_assoc. exact HR2.
Qed.

(** ** What [R] says about the objects *)

Lemma in_perm_spec c st ss v o :
  R asan lens c st ss -> In (v, o) (st_objs st) -> exists xs, In (v, (kind_of o, xs)) (live ss) /\ shaped lens o xs /\
    exists gs, good asan c (st_world st) (own_of o xs :: gs).
Proof.
  intros (L & A & B & N & F & G & D) H. rewrite A in H. apply in_map_iff in H. destruct H as ([v' [o' xs]] & Q & I).
  cbn in Q. injection Q as -> ->. exists xs. split; [|split].
  - eapply Permutation_in; [symmetry; exact B|]. apply in_map_iff. exists (v, (o, xs)). auto.
  - rewrite Forall_forall in F. exact (F _ I).
  - apply in_split in I. destruct I as (L1 & L2 & ->).
    exists (map e_own (L1 ++ L2)). eapply good_perm; [|exact G].
    rewrite map_app. cbn. rewrite map_app. symmetry. apply Permutation_middle.
Qed.

Lemma vown_cpp_vector c w s xs gs :
  shape lens s xs -> good asan c w (vown s xs :: gs) -> cpp_vector lens w s xs (begin_ s) (capacity s).
Proof.
  intros S G. pose proof G as (A & B & C). inversion C as [|? ? (H1 & H2 & H3 & H4) C2]; subst. cbn in H1, H2, H3, H4.
  pose proof S as [S1 S2]. split; [|split; [|split; [|split]]]; auto.
  - unfold describes. rewrite S1 at 1. unfold set_begin_len_capacity.
    destruct (capacity s =? 0) eqn:Z; [|destruct lens; reflexivity].
    apply Nat.eqb_eq in Z. rewrite Z.
    assert (begin_ s = 0).
    { rewrite S1. unfold set_begin_len_capacity. rewrite Z. cbn. destruct lens; reflexivity. }
    rewrite H. destruct lens; reflexivity.
  - intros Z. rewrite S1. unfold set_begin_len_capacity. rewrite Z. cbn. destruct lens; reflexivity.
  - intros Z. split; [exact (proj1 (H2 Z))|]. eapply Permutation_in; [symmetry; exact A|].
    cbn. unfold gblock; cbn. apply Nat.eqb_neq in Z. rewrite Z. now left.
Qed.

Lemma vown_tail c w s xs gs :
  asan = true -> c = true -> good asan c w (vown s xs :: gs) -> tail_poisoned w (begin_ s) (length xs) (capacity s).
Proof.
  intros HA HC (A & B & C). inversion C as [|? ? (H1 & H2 & H3 & H4) C2]. cbn in H4.
  destruct H4 as (_ & _ & H4). exact (H4 HA HC).
Qed.

Lemma own_block o xs : gblock (own_of o xs) = buffer o.
Proof. destruct o; reflexivity. Qed.

Lemma R_blocks c (st : @state E) ss : R asan lens c st ss -> Permutation (blocks (st_world st)) (flat_map (fun e => buffer (snd e)) (st_objs st)).
Proof.
  intros (L & A & B & N & F & G & D). destruct G as (P & _ & _). rewrite P, A.
  clear. induction L as [|[v [o xs]] L IH]; cbn; [constructor|].
  apply Permutation_app; [|exact IH]. unfold e_own; cbn. now rewrite own_block.
Qed.

(** ** Conservation *)

Definition contents (l : list (nat * (kind * list E))) : list E := flat_map (fun e => snd (snd e)) l.

Lemma contents_perm l l' : Permutation l l' -> Permutation (contents l) (contents l').
Proof. apply Permutation_flat_map. Qed.

Lemma dedups_perm same (x : E) l k d : dedups same x l k d -> Permutation l (k ++ d).
Proof.
  induction 1; cbn; [constructor | | now constructor].
  rewrite IHdedups. apply Permutation_middle.
Qed.
Lemma keeps_perm (f : E -> bool) l k d : keeps f l k d -> Permutation l (k ++ d).
Proof.
  induction 1; cbn; [constructor | now constructor |].
  rewrite IHkeeps. apply Permutation_middle.
Qed.

Lemma does_perm m xs ys ds back given :
  does clone m xs ys ds back given -> Permutation (given ++ xs) (back ++ ys ++ ds).
Proof.
  destruct 1; cbn; rewrite ?app_nil_r; try reflexivity.
  - apply Permutation_cons_append.
  - apply Permutation_middle.
  - symmetry. apply Permutation_middle.
  - symmetry. apply Permutation_cons_append.
  - rewrite <- Permutation_middle. constructor. apply Permutation_app_head. rewrite <- Permutation_cons_append. reflexivity.
  - symmetry. apply Permutation_cons_append.
  - constructor. now apply dedups_perm with (same := same) (x := x).
  - eapply keeps_perm; eauto.
  - apply Permutation_app_comm.
  - apply Permutation_app_comm.
  - rewrite (app_assoc l m r). apply Permutation_app_comm.
  - rewrite app_assoc. apply Permutation_cons_append.
  - apply Permutation_app_comm.
  - apply Permutation_app_comm.
Qed.

Lemma cons_app1 (x : E) l : x :: l = [x] ++ l.
Proof. reflexivity. Qed.

(** Permutations of an append. *)
Ltac rot := etransitivity; [|apply Permutation_app_comm]; rewrite <- ?app_assoc.
Ltac head := solve [reflexivity] || apply Permutation_app_head || (rot; head2)
with head2 := apply Permutation_app_head || (rot; head3)
with head3 := apply Permutation_app_head || (rot; head4)
with head4 := apply Permutation_app_head || (rot; head5)
with head5 := apply Permutation_app_head || (rot; apply Permutation_app_head).
Ltac psolve := rewrite <- ?app_assoc; rewrite ?app_nil_r; repeat (solve [reflexivity] || head).

Lemma contents_cons v k xs rest : contents ((v, (k, xs)) :: rest) = xs ++ contents rest.
Proof. reflexivity. Qed.

Lemma sstep_conserves ss o ss' r g b :
  sstep clone ss o ss' r g b ->
  Permutation (g ++ contents (live ss) ++ destroyed ss) (b ++ contents (live ss') ++ destroyed ss').
Proof.
  intros H; destruct H; cbn [live destroyed app];
    try (match goal with P : Permutation ?l0 _ |- _ => pose proof (contents_perm _ _ P) as Q; rewrite ?contents_cons in Q end);
    rewrite ?contents_cons; try rewrite Q; try reflexivity; try solve [psolve].
  - (* call *)
    apply does_perm in H0. rewrite !app_assoc. rewrite H0. psolve.
  - rewrite (cons_app1 x (((xs ++ _) ++ _) ++ _)), (cons_app1 y ys), (cons_app1 x ys). psolve.
  - rewrite (cons_app1 x (_ ++ _)). psolve.
  - rewrite (cons_app1 x (_ ++ _)). psolve.
Qed.

Lemma sruns_conserves ss ops ss' rs g b :
  sruns clone ss ops ss' rs g b ->
  Permutation (g ++ contents (live ss) ++ destroyed ss) (b ++ contents (live ss') ++ destroyed ss').
Proof.
  induction 1 as [|s o s1 r g b l s2 rs gs bs ST RS IH]; cbn; [reflexivity|].
  apply sstep_conserves in ST.
  transitivity (gs ++ g ++ contents (live s) ++ destroyed s); [psolve|].
  rewrite ST. transitivity (b ++ gs ++ contents (live s1) ++ destroyed s1); [psolve|].
  rewrite IH. psolve.
Qed.

(** ** The operation goes through: some place for the buffer is always available *)

Lemma fresh_address (bs : list (nat * nat)) : exists a, a <> 0 /\ forall b, In b bs -> fst b + snd b <= a.
Proof.
  induction bs as [|b bs (a & A & H)].
  - exists 1. split; [discriminate|]. intros b [].
  - exists (a + (fst b + snd b)). split; [lia|]. intros b' [<-|I]; [lia|]. specialize (H _ I). lia.
Qed.

Lemma alloc_goes (w : @world E) n : n <> 0 -> exists a w', alloc w a n = Ok w'.
Proof.
  intros N. destruct (fresh_address (blocks w)) as (a & A & H). exists a. unfold alloc.
  assert (X : existsb (overlaps (a, n)) (blocks w) = false).
  { destruct (existsb (overlaps (a, n)) (blocks w)) eqn:Q; [|reflexivity].
    apply existsb_exists in Q. destruct Q as (b & I & O). specialize (H b I).
    unfold overlaps in O. cbn [fst snd] in O. apply andb_true_iff in O. rewrite !Nat.ltb_lt in O. lia. }
  rewrite X. replace (0 <? n) with true by (symmetry; apply Nat.ltb_lt; lia).
  replace (a =? null) with false by (symmetry; apply Nat.eqb_neq; exact A). cbn. eexists; reflexivity.
Qed.

Definition goes {A} (r : res A) : Prop := r <> Impossible.

Lemma goes_bind {A B} (r : res A) (k : A -> res B) : goes r -> (forall a, goes (k a)) -> goes (bind r k).
Proof. unfold goes. destruct r; cbn; auto. discriminate. Qed.

Lemma read_goes (w : @world E) a : goes (read w a).
Proof. unfold goes, read. destruct (_ && _); [destruct (mem w a)|]; discriminate. Qed.
Lemma read_all_goes n : forall (w : @world E) a, goes (read_all w a n).
Proof.
  induction n as [|n IH]; intros w a; cbn; [discriminate|].
  apply goes_bind; [apply read_goes|]. intros x. apply goes_bind; [apply IH|]. intros l. discriminate.
Qed.
Lemma write_all_goes ys : forall (w : @world E) a, goes (write_all w a ys).
Proof.
  induction ys as [|y ys IH]; intros w a; cbn; [discriminate|].
  apply goes_bind; [unfold goes, write; destruct (_ && _); discriminate | intros; apply IH].
Qed.
Lemma free_goes (w : @world E) v : goes (free_buffer w v).
Proof. unfold goes, free_buffer, dealloc. destruct (_ =? _); [discriminate|]. destruct (existsb _ _); discriminate. Qed.
Lemma annotate_goes (w : @world E) a b c d : goes (annotate w a b c d).
Proof. unfold goes, annotate. destruct (_ && _); discriminate. Qed.
Lemma poison_goes (w : @world E) s : goes (asan_poison_tail asan w s).
Proof. unfold asan_poison_tail. destruct asan; [apply annotate_goes | discriminate]. Qed.
Lemma unpoison_goes (w : @world E) s : goes (asan_unpoison_tail asan w s).
Proof. unfold asan_unpoison_tail. destruct asan; [apply annotate_goes | discriminate]. Qed.

Lemma vec_store_goes (w : @world E) v ys need : exists ch, goes (vec_store w v ys need ch).
Proof.
  destruct (alloc_goes w (S (length ys + need)) (Nat.neq_succ_0 _)) as (a & w1 & AL).
  exists (Some (a, S (length ys + need))). unfold vec_store.
  replace (length ys <=? S (length ys + need)) with true by (symmetry; apply Nat.leb_le; lia).
  replace (need <=? S (length ys + need)) with true by (symmetry; apply Nat.leb_le; lia).
  cbn [andb Nat.eqb]. rewrite AL. cbn [bind].
  apply goes_bind; [apply write_all_goes|]. intros w2. apply goes_bind; [apply free_goes|]. intros w3. discriminate.
Qed.

Lemma call_goes (w : @world E) s m : exists ch, goes (call clone asan lens w s m ch).
Proof.
  unfold call, mutate_self_as_vec. destruct (asan_unpoison_tail asan w s) as [w1| |] eqn:U; cbn [bind].
  2: exists None; discriminate.
  2: exfalso; eapply unpoison_goes; exact U.
  set (v := create_vec_from_raw_parts _ _ _). unfold vec_call.
  destruct (read_all w1 (vptr v) (vlen v)) as [xs| |] eqn:RA; cbn [bind].
  2: exists None; discriminate.
  2: exfalso; eapply read_all_goes; exact RA.
  destruct (std_vec clone (method_call m) xs) as [[[ys ds] r]|]; [|exists None; discriminate].
  destruct (vec_store_goes w1 v ys (promised (method_call m) xs)) as (ch & G). exists ch.
  destruct (vec_store w1 v ys _ ch) as [[w2 v2]| |]; cbn [bind]; [|discriminate|congruence].
  apply goes_bind; [apply poison_goes|]. intros. discriminate.
Qed.

Lemma step_call_goes c st ss v m s :
  R asan lens c st ss -> In (v, OVector s) (st_objs st) ->
  exists ch st' r, step clone asan lens st (OCall v m ch) = Ok (st', r).
Proof.
  intros HR I. destruct (call_goes (st_world st) s m) as (ch & G). exists ch.
  pose proof (step_ok clone asan lens c st ss (OCall v m ch) HR) as SO.
  destruct (Model.step clone asan lens st (OCall v m ch)) as [[st' r]| |] eqn:S; [eauto | destruct SO |].
  exfalso. revert S. cbn. destruct HR as (L & A & B & N & F & GG & D).
  assert (K : lookup (st_objs st) v = Some (OVector s) /\ lookup (remove_key (st_objs st) v) v = None).
  { rewrite A in *. clear - N I. induction L as [|[k [o xs]] L IH]; [destruct I|].
    cbn in *. inversion N as [|? ? N1 N2]; subst. destruct (v =? k) eqn:Q.
    - apply Nat.eqb_eq in Q. subst k. destruct I as [I|I].
      + injection I as ->. split; [reflexivity|].
        destruct (lookup (map e_obj L) v) eqn:K; [|reflexivity].
        destruct (lookup_some L v _ K) as (ys & L' & _ & P).
        exfalso. apply N1. apply in_map_iff. eexists. split; [|eapply Permutation_in; [symmetry; exact P | now left]]. reflexivity.
      + exfalso. apply N1. apply in_map_iff in I. destruct I as (e & Q1 & Q2). apply in_map_iff. exists e. split; [|exact Q2].
        unfold e_obj in Q1. now injection Q1.
    - apply Nat.eqb_neq in Q. destruct I as [I|I]; [injection I; congruence|].
      destruct (IH N2 I) as [K1 K2]. split; [exact K1|]. cbn. apply Nat.eqb_neq in Q. now rewrite Q. }
  destruct K as [K1 K2]. unfold take_vector. rewrite K1. cbn [bind].
  destruct (call clone asan lens (st_world st) s m ch) as [[[w1 s1] out]| |]; cbn [bind]; [|discriminate|congruence].
  unfold put. rewrite K2. discriminate.
Qed.

(** ** Capacity *)

Lemma step_call_inv c st ss v m ch st' r :
  R asan lens c st ss -> step clone asan lens st (OCall v m ch) = Ok (st', r) ->
  exists s xs w1 s1 out, lookup (st_objs st) v = Some (OVector s) /\ shape lens s xs /\
    call clone asan lens (st_world st) s m ch = Ok (w1, s1, out) /\ lookup (st_objs st') v = Some (OVector s1) /\
    r = obs_of_outcome out /\ (exists gs, good asan c (st_world st) (vown s xs :: gs)).
Proof.
  intros HR S. cbn in S. destruct (take_vector st v) as [[s rest]| |] eqn:T; cbn [bind] in S; try discriminate.
  apply take_vector_inv in T. destruct T as [K ->].
  destruct (R_take asan lens c st ss v _ HR K) as (xs & L & M & P & NI & N & SH & F & G & D).
  destruct (call clone asan lens (st_world st) s m ch) as [[[w1 s1] out]| |] eqn:CA; cbn [bind] in S; try discriminate.
  unfold put in S. destruct (lookup (remove_key (st_objs st) v) v); [discriminate|].
  injection S as <- <-. exists s, xs, w1, s1, out.
  split; [exact K|]. split; [exact SH|]. split; [exact CA|]. split; [cbn; now rewrite Nat.eqb_refl|]. split; [reflexivity|].
  eexists. exact G.
Qed.

(** ** The caller's code panics, and the buffer did not move *)

Lemma good_shorter c w v xs ys gs : good asan c w (std v (xs ++ ys) :: gs) -> good asan c w (std v xs :: gs).
Proof.
  intros (A & B & C). split; [exact A|]. split; [exact B|].
  inversion C as [|? ? (H1 & H2 & H3 & H4) C2]; subst. constructor; [|exact C2]. cbn in *.
  rewrite app_length in H2.
  split; [|split; [|split]]; cbn; auto.
  - intros Z. specialize (H1 Z). now apply app_eq_nil in H1.
  - intros Z. specialize (H2 Z). lia.
  - intros i x Hi. apply H3. rewrite nth_error_app1; [exact Hi|]. apply nth_error_Some. rewrite Hi. discriminate.
Qed.

Lemma callback_panic_ok c w s xs gs ys :
  shape lens s xs -> good asan c w (vown s xs :: gs) ->
  safe (mutate_self_as_vec asan lens w s (vec_extend_then_panic ys None))
    (fun '(w', s', out) => out = Panicked /\ s' = s /\ good asan false w' (vown s xs :: gs) /\ dropped w' = dropped w).
Proof.
  intros S G. unfold mutate_self_as_vec.
  destruct (unpoison_ok asan lens c w s xs gs S G) as (w1 & E1 & G1 & D1 & L1 & L2 & _). rewrite E1. cbn [bind].
  fold (as_std s). unfold vec_extend_then_panic. rewrite L1.
  pose proof (read_all_ok asan c w1 _ _ G1) as RR. cbn in RR. rewrite RR. cbn [bind].
  destruct (vec_store w1 (as_std s) (xs ++ ys) 0 None) as [[w2 v2]| |] eqn:VS; cbn [bind]; [| |exact Logic.I].
  - pose proof (vec_store_ok asan c w1 (as_std s) xs gs (xs ++ ys) 0 None G1) as VO. rewrite VS in VO.
    destruct VO as (G2 & _ & _ & _ & D2). cbn.
    assert (V2 : std v2 xs = std (as_std s) xs).
    { unfold vec_store in VS. destruct (_ && _); [|discriminate]. destruct (write_all _ _ _); cbn in VS; try discriminate.
      injection VS as _ <-. reflexivity. }
    split; [reflexivity|]. split; [reflexivity|]. split; [|congruence].
    apply good_shorter in G2. rewrite V2 in G2.
    eapply std_to_vown; [exact S | intros Z; eapply vown_zero; [exact G | exact Z] | exact G2].
  - pose proof (vec_store_ok asan c w1 (as_std s) xs gs (xs ++ ys) 0 None G1) as VO. rewrite VS in VO. destruct VO.
Qed.

End Run.
