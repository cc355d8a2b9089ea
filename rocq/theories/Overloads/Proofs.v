From Coq Require Import List Bool Arith Lia Permutation.
From Verif Require Import Overloads.Model Overloads.Spec.
Import ListNotations.

Lemma fnid_eqb_spec a b : fnid_eqb a b = true <-> a = b.
Proof.
  destruct a, b; cbn; rewrite ?andb_true_iff, ?Nat.eqb_eq; split;
    try discriminate; try (intros [= ]; subst; auto); intros; intuition congruence.
Qed.

Lemma fnid_eqb_refl a : fnid_eqb a a = true.
Proof. now apply fnid_eqb_spec. Qed.

Lemma ptype_eqb_spec a b : ptype_eqb a b = true <-> a = b.
Proof.
  destruct a, b; cbn; rewrite ?andb_true_iff, ?Nat.eqb_eq, ?eqb_true_iff; split;
    try discriminate; intros; intuition congruence.
Qed.

(** One entry of the map is the fold of [merge] over the functions with its key. *)
Definition join (o : option cand) (f : cfunc) : option cand :=
  match o with None => Some (new_cand f) | Some v => Some (merge v (new_cand f)) end.

Definition keyed (F : list cfunc) (k : fnid) (f : cfunc) : bool :=
  match generate F f with GSome k' _ _ => fnid_eqb k k' | _ => false end.

Lemma keyed_wants F k f : keyed F k f = true <-> wants F f k.
Proof.
  unfold keyed, wants. destruct (generate F f).
  1,2: split; [discriminate|intros (n & o & H); discriminate].
  split.
  - intros H. apply fnid_eqb_spec in H. subst. eauto.
  - intros (n & o & [= -> _ _]). apply fnid_eqb_refl.
Qed.

Lemma lookup_upsert_same m k f :
  lookup k (upsert m k (new_cand f)) = join (lookup k m) f.
Proof.
  induction m as [|[k' v] m IH]; cbn [upsert lookup].
  - now rewrite fnid_eqb_refl.
  - destruct (fnid_eqb k k') eqn:E; cbn [lookup]; rewrite E; auto.
Qed.

Lemma lookup_upsert_other m k k' n :
  fnid_eqb k k' = false -> lookup k (upsert m k' n) = lookup k m.
Proof.
  intros N. induction m as [|[k2 v] m IH]; cbn [upsert lookup].
  - now rewrite N.
  - destruct (fnid_eqb k' k2) eqn:E; cbn [lookup].
    + apply fnid_eqb_spec in E. subst k2. now rewrite N.
    + destruct (fnid_eqb k k2); auto.
Qed.

Lemma loop_lookup F k l : forall m,
  lookup k (fold_left (overload_step F) l m)
  = fold_left join (filter (keyed F k) l) (lookup k m).
Proof.
  induction l as [|f l IH]; intros m; cbn [fold_left filter]; auto.
  rewrite IH. unfold overload_step, keyed.
  destruct (generate F f) as [| |k' neg ok] eqn:E; auto.
  destruct (fnid_eqb k k') eqn:E2; cbn [fold_left].
  - apply fnid_eqb_spec in E2. subst k'. now rewrite lookup_upsert_same.
  - now rewrite lookup_upsert_other.
Qed.

Lemma lookup_map {A B} (h : A -> B) k m :
  lookup k (List.map (fun kv => (fst kv, h (snd kv))) m) = option_map h (lookup k m).
Proof.
  induction m as [|[k' v] m IH]; cbn [List.map lookup fst snd option_map]; auto.
  destruct (fnid_eqb k k'); auto.
Qed.

(** What the fold computes. *)
Definition best_in (l : list cfunc) (c : cand) : Prop :=
  (exists f, In f l /\ f_id f = c_id c /\ rank f = c_rank c) /\
  (forall g, In g l -> rank g <= c_rank c) /\
  (c_amb c = false -> forall g, In g l -> f_id g <> c_id c -> rank g < c_rank c) /\
  (c_amb c = true ->
     exists f g, In f l /\ In g l /\ f_id f <> f_id g /\ rank f = c_rank c /\ rank g = c_rank c).

Lemma nodup_ids_app_cons (l : list cfunc) f :
  NoDup (List.map f_id (l ++ [f])) -> forall g, In g l -> f_id g <> f_id f.
Proof.
  rewrite map_app. cbn. intros N g Hg E.
  apply NoDup_remove_2 in N. rewrite app_nil_r in N. apply N.
  rewrite <- E. now apply in_map.
Qed.

Lemma best_step l f c :
  NoDup (List.map f_id (l ++ [f])) -> best_in l c -> best_in (l ++ [f]) (merge c (new_cand f)).
Proof.
  intros N ((w & Iw & Ew & Rw) & Hmax & Hun & Hamb).
  pose proof (nodup_ids_app_cons _ _ N) as Hd.
  assert (Ne : c_id c <> f_id f) by (rewrite <- Ew; auto).
  unfold merge. cbn [c_id c_rank c_amb new_cand].
  destruct (Nat.eqb_spec (c_id c) (f_id f)) as [?|_]; [contradiction|].
  destruct (Nat.ltb_spec (c_rank c) (rank f)) as [L|L].
  - unfold best_in; cbn [c_id c_rank c_amb new_cand]. split; [|split; [|split]].
    + exists f. rewrite in_app_iff. cbn. auto.
    + intros g Hg. apply in_app_iff in Hg as [Hg|[<-|[]]]; auto.
      specialize (Hmax g Hg). lia.
    + intros _ g Hg Hne. apply in_app_iff in Hg as [Hg|[<-|[]]]; [|contradiction].
      specialize (Hmax g Hg). lia.
    + discriminate.
  - destruct (Nat.eqb_spec (rank f) (c_rank c)) as [E|E];
      unfold best_in; cbn [c_id c_rank c_amb]; (split; [|split; [|split]]).
    + exists w. rewrite in_app_iff. auto.
    + intros g Hg. apply in_app_iff in Hg as [Hg|[<-|[]]]; auto; lia.
    + discriminate.
    + intros _. exists w, f. rewrite !in_app_iff. cbn. auto 8.
    + exists w. rewrite in_app_iff. auto.
    + intros g Hg. apply in_app_iff in Hg as [Hg|[<-|[]]]; auto.
    + intros A g Hg Hne. apply in_app_iff in Hg as [Hg|[<-|[]]]; auto; lia.
    + intros A. destruct (Hamb A) as (x & y & Ix & Iy & H).
      exists x, y. rewrite !in_app_iff. auto.
Qed.

Lemma nodup_map_prefix (l : list cfunc) f :
  NoDup (List.map f_id (l ++ [f])) -> NoDup (List.map f_id l).
Proof.
  rewrite map_app. cbn. intros N. apply NoDup_remove_1 in N. now rewrite app_nil_r in N.
Qed.

Lemma fold_best l :
  NoDup (List.map f_id l) ->
  match fold_left join l None with
  | None => l = []
  | Some c => best_in l c
  end.
Proof.
  induction l as [|f l IH] using rev_ind; intros N; cbn [fold_left]; auto.
  rewrite fold_left_app. cbn [fold_left].
  specialize (IH (nodup_map_prefix _ _ N)).
  destruct (fold_left join l None) as [c|]; cbn [join].
  - now apply best_step.
  - subst l. cbn. unfold best_in. cbn. split; [|split; [|split]].
    + exists f. auto.
    + intros g [<-|[]]. auto.
    + intros _ g [<-|[]] H. congruence.
    + discriminate.
Qed.

Lemma nodup_map_filter {A} (p : A -> bool) (h : A -> nat) l :
  NoDup (List.map h l) -> NoDup (List.map h (filter p l)).
Proof.
  induction l as [|a l IH]; cbn; auto. intros N. inversion N as [|x xs Hx Hn]; subst.
  destruct (p a); cbn; auto. constructor; auto.
  rewrite in_map_iff in *. intros (b & E & Hb). apply Hx. exists b.
  apply filter_In in Hb. tauto.
Qed.

Lemma nodup_id_inj (F : list cfunc) f g :
  NoDup (List.map f_id F) -> In f F -> In g F -> f_id f = f_id g -> f = g.
Proof.
  induction F as [|a F IH]; cbn; [contradiction|].
  intros N. inversion N as [|x xs Hx Hn]; subst.
  intros [<-|If] [<-|Ig] E; auto.
  - exfalso. apply Hx. rewrite E. now apply in_map.
  - exfalso. apply Hx. rewrite <- E. now apply in_map.
Qed.

Lemma rank_outranks f g : rank g < rank f <-> outranks f g.
Proof.
  unfold rank, outranks. destruct (f_depr f), (f_depr g); split; intros; try lia; intuition discriminate.
Qed.

Lemma not_ambiguous_iff F f k :
  ids_distinct F -> In f F -> wants F f k ->
  (is_ambiguous F k (f_id f) = false <-> unique_choice F f k).
Proof.
  intros N If W. unfold is_ambiguous, overload_sets.
  rewrite (lookup_map (fun c => if c_amb c then None else Some (c_id c))).
  unfold overload_loop. rewrite loop_lookup. cbn [lookup].
  pose proof (fold_best (filter (keyed F k) F) (nodup_map_filter _ _ _ N)) as B.
  assert (Kf : In f (filter (keyed F k) F)) by (apply filter_In; split; auto; now apply keyed_wants).
  destruct (fold_left join (filter (keyed F k) F) None) as [c|]; cbn [option_map].
  2: { rewrite B in Kf. contradiction. }
  destruct B as ((w & Iw & Ew & Rw) & Hmax & Hun & Hamb).
  destruct (c_amb c) eqn:A.
  - split; [discriminate|]. intros (_ & _ & U). exfalso.
    destruct (Hamb eq_refl) as (x & y & Ix & Iy & Ne & Rx & Ry).
    apply filter_In in Ix as [Fx Kx]. apply filter_In in Iy as [Fy Ky].
    apply keyed_wants in Kx. apply keyed_wants in Ky.
    specialize (Hmax f Kf).
    destruct (Nat.eq_dec (f_id x) (f_id f)) as [Ex|Ex].
    + assert (O : outranks f y) by (apply U; auto; congruence).
      apply rank_outranks in O. lia.
    + assert (O : outranks f x) by (apply U; auto).
      apply rank_outranks in O. lia.
  - rewrite negb_false_iff, Nat.eqb_eq. split.
    + intros E. split; [|split]; auto.
      intros g Ig Wg Hne. apply rank_outranks.
      assert (Kg : In g (filter (keyed F k) F)) by (apply filter_In; split; auto; now apply keyed_wants).
      assert (f = w).
      { apply (nodup_id_inj F); auto. apply filter_In in Iw; tauto. congruence. }
      subst w. rewrite Rw. apply Hun; auto. congruence.
    + intros (_ & _ & U). destruct (Nat.eq_dec (c_id c) (f_id f)) as [|Ne]; auto. exfalso.
      apply filter_In in Iw as [Fw Kw]. apply keyed_wants in Kw.
      assert (O : outranks f w) by (apply U; auto; congruence).
      apply rank_outranks in O. specialize (Hmax f Kf). lia.
Qed.

Lemma emit_all_in F l i :
  In i (emit_all F l) <-> exists f, In f l /\ emit F f = Some i.
Proof.
  induction l as [|f l IH]; cbn [emit_all].
  - split; [intros []|intros (f & [] & _)].
  - destruct (emit F f) as [j|] eqn:E; cbn [In]; rewrite IH; split.
    + intros [<-|(g & Ig & Eg)]; eauto.
    + intros (g & [<-|Ig] & Eg); [left; congruence|right; eauto].
    + intros (g & Ig & Eg); eauto.
    + intros (g & [<-|Ig] & Eg); [congruence|eauto].
Qed.

Lemma emitted_iff F i :
  ids_distinct F ->
  In i (emitted F) <->
  exists f, unique_choice F f (i_key i) /\ i_fn i = f_id f /\
            generate F f = GSome (i_key i) (i_neg i) (i_ok i).
Proof.
  intros N. unfold emitted. rewrite emit_all_in. split.
  - intros (f & If & E). exists f. unfold emit in E.
    destruct (generate F f) as [| |k neg ok] eqn:G; try discriminate.
    destruct (is_ambiguous F k (f_id f)) eqn:A; [discriminate|].
    injection E as <-. cbn. split; [|auto].
    apply not_ambiguous_iff; auto. eexists; eexists; eauto.
  - intros (f & U & En & G). exists f. pose proof U as (If & W & _). split; auto.
    unfold emit. rewrite G.
    rewrite (proj2 (not_ambiguous_iff F f (i_key i) N If W) U).
    rewrite <- En. destruct i; reflexivity.
Qed.

(** Declaration order. *)
Lemma get_eq_binding_perm F F' l r :
  Permutation F F' ->
  (get_eq_binding F l r = None <-> get_eq_binding F' l r = None).
Proof.
  intros P. unfold get_eq_binding.
  assert (K : forall A B, Permutation A B ->
    find (binds_eq l r) A = None -> find (binds_eq l r) B = None).
  { intros A B PAB H. destruct (find (binds_eq l r) B) as [x|] eqn:E; auto.
    apply find_some in E as [Ix Bx].
    apply (Permutation_in x (Permutation_sym PAB)) in Ix.
    rewrite (find_none _ _ H x Ix) in Bx. discriminate. }
  split; apply K; auto using Permutation_sym.
Qed.

Lemma generate_perm F F' f : Permutation F F' -> generate F f = generate F' f.
Proof.
  intros P. unfold generate. destruct (negb (f_ok f)); auto.
  pose proof (get_eq_binding_perm F F' (f_l f) (f_r f) P) as H.
  destruct (f_op f); auto;
    destruct (get_eq_binding F (f_l f) (f_r f)), (get_eq_binding F' (f_l f) (f_r f)); auto;
    try (destruct H as [H1 H2]; try (discriminate (H1 eq_refl)); discriminate (H2 eq_refl)).
Qed.

Lemma unique_choice_perm F F' f k :
  Permutation F F' -> unique_choice F f k -> unique_choice F' f k.
Proof.
  intros P (If & (n & o & W) & U). split; [|split].
  - eapply Permutation_in; eauto.
  - exists n, o. rewrite <- (generate_perm F F'); auto.
  - intros g Ig (n' & o' & Wg) Hne. apply U; auto.
    + apply Permutation_in with (l := F'); auto using Permutation_sym.
    + exists n', o'. rewrite (generate_perm F F'); auto.
Qed.
