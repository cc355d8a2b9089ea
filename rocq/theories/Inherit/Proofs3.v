From Coq Require Import List Bool Arith ZArith Lia.
From Verif Require Import Inherit.Model Inherit.Spec Inherit.Proofs Inherit.Proofs2.
Import ListNotations.

(** * Counting subobjects *)

Lemma key_decomp p : exists pre, p = pre ++ snd (subobject_of p) /\
  match fst (subobject_of p) with
  | None => pre = []
  | Some v => is_virtual_visit v pre = true
  end.
Proof.
  induction p as [|[y b] p IH] using rev_ind.
  - exists []. split; reflexivity.
  - rewrite subobject_snoc. unfold extend. cbn [snd]. destruct (b_virt b) eqn:V.
    + exists (p ++ [(y, b)]). cbn [fst snd]. rewrite app_nil_r. split; auto.
      rewrite virtual_visit_snoc, V, Nat.eqb_refl. reflexivity.
    + destruct IH as (pre & E & M). exists pre. cbn [fst snd]. split; auto.
      rewrite app_assoc, <- E. reflexivity.
Qed.

Lemma nonvirtual_visit_inv v p :
  is_nonvirtual_visit v p = true -> exists q y b, p = q ++ [(y, b)] /\ b_virt b = false /\ b_cls b = v.
Proof.
  unfold is_nonvirtual_visit. destruct (snoc_inv p) as [->|(q & y & b & ->)]; [discriminate|].
  rewrite last_spec_snoc, andb_true_iff, negb_true_iff, Nat.eqb_eq. intros [A B]. eauto 8.
Qed.

Lemma nonvirtual_visit_key v p : is_nonvirtual_visit v p = true -> snd (subobject_of p) <> [].
Proof.
  intros N. apply nonvirtual_visit_inv in N as (q & y & b & -> & V & _).
  rewrite subobject_snoc. unfold extend. cbn [snd]. rewrite V. cbn [snd].
  destruct (snd (subobject_of q)); discriminate.
Qed.

Lemma visit_kind p x : cls p = Some x ->
  is_virtual_visit x p = true \/ is_nonvirtual_visit x p = true.
Proof.
  destruct (snoc_inv p) as [->|(q & y & b & ->)]; [discriminate|].
  rewrite cls_snoc, virtual_visit_snoc, nonvirtual_visit_snoc. intros [= <-].
  rewrite Nat.eqb_refl. destruct (b_virt b); auto.
Qed.

Lemma pick_some H s ps x o :
  pick H s x ps = Some o ->
  exists p, In (p, APublic) ps /\ is_ambiguous s x = false /\ imported H x = true /\
            o = (x, path_offset H p).
Proof.
  induction ps as [|[p a] ps IH]; cbn [pick]; [discriminate|].
  destruct a; cbn [is_public negb].
  2-4: intros E; destruct (IH E) as (q & I & R); exists q; cbn; auto.
  destruct (is_ambiguous s x) eqn:A; [intros E; destruct (IH E) as (q & I & R & _); discriminate|].
  destruct (imported H x) eqn:M; cbn [negb].
  - intros [= <-]. exists p. cbn. auto.
  - intros E. destruct (IH E) as (q & I & _ & R & _). discriminate.
Qed.

Lemma pick_none H s ps x p :
  In (p, APublic) ps -> is_ambiguous s x = false -> imported H x = true ->
  exists o, pick H s x ps = Some (x, o).
Proof.
  intros I A M. induction ps as [|[q a] ps IH]; [destruct I|]. cbn [pick]. rewrite A, M. cbn [negb].
  destruct a; cbn [is_public negb]; eauto; (destruct I as [E|I]; [discriminate|auto]).
Qed.
Section Count.
Variables (H : hier) (D X : nat).
Hypothesis W : wf H.
Hypothesis N : D <> X.
Variable seen : list nat.
Let s := round H D X seen.

Lemma round_inv : inv H D X [] s.
Proof using W N. exact (proj1 (round_post H D X W seen N)). Qed.

Lemma log_base_path p : In p (s_log s) -> cls p = Some X -> base_path H D X p.
Proof using W N.
  intros I C. destruct (inv_leads _ _ _ _ _ round_inv p I) as (Np & x & L).
  pose proof (leads_cls _ _ _ _ L Np). assert (x = X) by congruence. subst. split; auto.
Qed.

Lemma not_ambiguous_same p q :
  is_ambiguous s X = false ->
  In p (s_log s) -> In q (s_log s) -> cls p = Some X -> cls q = Some X ->
  subobject_of p = subobject_of q.
Proof.
  unfold is_ambiguous. rewrite Nat.ltb_ge. intros A Ip Iq Cp Cq.
  assert (V : forall p, In p (s_log s) -> is_virtual_visit X p = true ->
              virtual_seen (s_log s) X = true).
  { intros r Ir Vr. apply existsb_exists. eauto. }
  assert (K : forall p, In p (s_log s) -> is_nonvirtual_visit X p = true ->
              In p (filter (is_nonvirtual_visit X) (s_log s))).
  { intros r Ir Nr. apply filter_In. auto. }
  unfold nonvirtual_count in A.
  destruct (visit_kind _ _ Cp) as [Vp|Np], (visit_kind _ _ Cq) as [Vq|Nq].
  - rewrite (virtual_key _ _ Vp), (virtual_key _ _ Vq). reflexivity.
  - rewrite (V p) in A by auto. specialize (K q Iq Nq).
    destruct (filter (is_nonvirtual_visit X) (s_log s)); [destruct K|cbn in A; lia].
  - rewrite (V q) in A by auto. specialize (K p Ip Np).
    destruct (filter (is_nonvirtual_visit X) (s_log s)); [destruct K|cbn in A; lia].
  - pose proof (K p Ip Np) as K1. pose proof (K q Iq Nq) as K2.
    destruct (filter (is_nonvirtual_visit X) (s_log s)) as [|a [|a' l]]; [destruct K1| |cbn in A; lia].
    destruct K1 as [->|[]], K2 as [->|[]]. reflexivity.
Qed.

Lemma not_ambiguous_unambiguous : is_ambiguous s X = false -> unambiguous H D X.
Proof using W N.
  intros A p q [Lp Np] [Lq Nq].
  destruct (visited H D X W seen p X N Lp Np ltac:(lia)) as (p' & Ip & Kp & Cp).
  destruct (visited H D X W seen q X N Lq Nq ltac:(lia)) as (q' & Iq & Kq & Cq).
  rewrite <- Kp, <- Kq. apply not_ambiguous_same; auto.
Qed.

Lemma unambiguous_not_ambiguous : unambiguous H D X -> is_ambiguous s X = false.
Proof using W N.
  intros U. destruct (is_ambiguous s X) eqn:A; auto. exfalso.
  unfold is_ambiguous in A. rewrite Nat.ltb_lt in A. unfold nonvirtual_count in A.
  assert (K : forall p, In p (filter (is_nonvirtual_visit X) (s_log s)) ->
     In p (s_log s) /\ is_nonvirtual_visit X p = true /\ base_path H D X p).
  { intros p I. apply filter_In in I as [I V]. split; [auto|split; [auto|]].
    apply log_base_path; auto.
    apply nonvirtual_visit_inv in V as (q & y & b & -> & _ & <-). apply cls_snoc. }
  pose proof (NoDup_filter (is_nonvirtual_visit X) (inv_nodup _ _ _ _ _ round_inv)) as Nd.
  destruct (virtual_seen (s_log s) X) eqn:V.
  - apply existsb_exists in V as (p & Ip & Vp).
    destruct (filter (is_nonvirtual_visit X) (s_log s)) as [|q l]; [cbn in A; lia|].
    destruct (K q (or_introl eq_refl)) as (Iq & Nq & Bq).
    assert (Bp : base_path H D X p) by (apply log_base_path; auto using virtual_cls).
    pose proof (U _ _ Bp Bq) as E. rewrite (virtual_key _ _ Vp) in E.
    apply (nonvirtual_visit_key _ _ Nq). rewrite <- E. reflexivity.
  - destruct (filter (is_nonvirtual_visit X) (s_log s)) as [|p [|q l]]; [cbn in A; lia|cbn in A; lia|].
    destruct (K p (or_introl eq_refl)) as (Ip & Np & Bp).
    destruct (K q (or_intror (or_introl eq_refl))) as (Iq & Nq & Bq).
    assert (Ne : p <> q).
    { inversion Nd as [|a l' Na Nl]; subst. intros ->. apply Na. left. reflexivity. }
    apply Ne. pose proof (U _ _ Bp Bq) as E.
    destruct (key_decomp p) as (p1 & E1 & M1), (key_decomp q) as (q1 & E2 & M2).
    rewrite <- E in E2, M2.
    destruct (fst (subobject_of p)) as [v|].
    + pose proof (nonvirtual_visit_key _ _ Np) as Ns.
      assert (F1 : find (is_virtual_visit v) (s_log s) = Some p1).
      { eapply (inv_first _ _ _ _ _ round_inv); eauto. now rewrite <- E1. }
      assert (F2 : find (is_virtual_visit v) (s_log s) = Some q1).
      { eapply (inv_first _ _ _ _ _ round_inv); eauto. now rewrite <- E2. }
      congruence.
    + congruence.
Qed.

End Count.

(** * The rounds *)

Lemma lookup_found_lt H D fuel : wf H -> forall c pre acc s,
  c <= D -> (forall x, s_found s = Some x -> x < D) ->
  forall x, s_found (lookup_in_bases H fuel c pre acc s) = Some x -> x < D.
Proof.
  intros W. induction fuel as [|n IH]; intros c pre acc s Lc F; cbn [lookup_in_bases]; auto.
  refine (fold_inv (fun _ s' => forall x, s_found s' = Some x -> x < D) _ _ _ F _).
  intros done b todo s1 Eb F1.
  assert (Lb : b_cls b < c) by (apply (proj1 W); rewrite Eb, in_app_iff; cbn; auto).
  unfold visit, is_new_class. cbn [s_found s_seen s_log s_paths].
  destruct (s_found s1) as [y|] eqn:Fy.
  - destruct (b_cls b =? y); cbn [s_found]; auto.
    destruct (negb (b_virt b) || negb (virtual_seen (s_log s1) (b_cls b))); auto.
    apply IH; [lia|]. cbn [s_found]. auto.
  - destruct (mem (b_cls b) (s_seen s1)).
    + destruct (negb (b_virt b) || negb (virtual_seen (s_log s1) (b_cls b))).
      * apply IH; [lia|]. cbn [s_found]. discriminate.
      * cbn [s_found]. discriminate.
    + cbn [s_found]. intros x [= <-]. lia.
Qed.

Lemma next_class_found H c seen x :
  wf H -> s_found (next_class H c seen) = Some x ->
  x < c /\ ~ In x seen /\ s_seen (next_class H c seen) = x :: seen /\
  next_class H c seen = round H c x (x :: seen).
Proof.
  intros W F. split.
  - eapply (lookup_found_lt H c (S c) W c [] None); eauto. cbn. discriminate.
  - pose proof (lookup_follows H (S c) c [] None (mkS seen None [] []) eq_refl) as K.
    unfold follows in K. fold (next_class H c seen) in K.
    change (lookup_in_bases H (S c) c [] None (mkS seen None [] [])) with (next_class H c seen) in K.
    rewrite F in K. destruct K as (A & B & C). split; [exact A|split; [exact B|]].
    symmetry. exact C.
Qed.

Lemma next_class_none H c seen :
  wf H -> (forall y, In y seen -> y < c) -> s_found (next_class H c seen) = None ->
  forall x p, base_path H c x p -> In x seen.
Proof.
  intros W Hs F x p [L Np].
  pose proof (lookup_follows H (S c) c [] None (mkS seen None [] []) eq_refl) as K.
  unfold follows in K.
  change (lookup_in_bases H (S c) c [] None (mkS seen None [] [])) with (next_class H c seen) in K.
  rewrite F in K. destruct K as (_ & _ & (Lg & EL & IL) & T).
  cbn [s_seen s_log app] in *.
  assert (Ns : ~ In (S c) seen) by (intros I; specialize (Hs _ I); lia).
  specialize (T _ Ns). unfold targeted in T. cbn [s_seen s_found s_log s_paths] in T.
  destruct (visited H c (S c) W (S c :: seen) p x ltac:(lia) L Np ltac:(lia)) as (q & Iq & _ & Cq).
  unfold round in Iq. rewrite T in Iq. cbn [s_log] in Iq. rewrite EL in Iq.
  destruct (IL q Iq) as (y & Cy & Iy). congruence.
Qed.

Lemma rounds_sound H c n : wf H -> forall seen x o,
  In (x, o) (base_rounds H c n seen) ->
  x < c /\ ~ In x seen /\
  exists seen', pick H (round H c x seen') x (s_paths (round H c x seen')) = Some (x, o).
Proof.
  intros W. induction n as [|n IH]; intros seen x o I; cbn [base_rounds] in I; [destruct I|].
  destruct (s_found (next_class H c seen)) as [y|] eqn:F; [|destruct I].
  destruct (next_class_found H c seen y W F) as (Ly & Ny & Sy & Ry).
  rewrite Sy in I.
  assert (K : In (x, o) (base_rounds H c n (y :: seen)) ->
    x < c /\ ~ In x seen /\
    exists seen', pick H (round H c x seen') x (s_paths (round H c x seen')) = Some (x, o)).
  { intros I'. destruct (IH _ _ _ I') as (A & B & C). split; [auto|split; [|auto]].
    intros E. apply B. now right. }
  destruct (pick H (next_class H c seen) y (s_paths (next_class H c seen))) as [e|] eqn:P.
  - destruct I as [->|I]; [|auto].
    assert (x = y).
    { apply pick_some in P as (q & _ & _ & _ & E). congruence. }
    subst y. split; [auto|split; [auto|]]. exists (x :: seen). rewrite <- Ry. exact P.
  - auto.
Qed.

Lemma rounds_nodup H c n : wf H -> forall seen, NoDup (List.map fst (base_rounds H c n seen)).
Proof.
  intros W. induction n as [|n IH]; intros seen; cbn [base_rounds]; [constructor|].
  destruct (s_found (next_class H c seen)) as [y|] eqn:F; [|constructor].
  destruct (next_class_found H c seen y W F) as (Ly & Ny & Sy & Ry). rewrite Sy.
  destruct (pick H (next_class H c seen) y (s_paths (next_class H c seen))) as [e|] eqn:P; auto.
  cbn [List.map]. constructor; auto.
  apply pick_some in P as (q & _ & _ & _ & ->). cbn [fst].
  rewrite in_map_iff. intros ([x o] & E & I). cbn in E. subst x.
  destruct (rounds_sound H c n W _ _ _ I) as (_ & B & _). apply B. now left.
Qed.

Lemma rounds_complete H c n : wf H -> forall seen x p,
  NoDup seen -> (forall y, In y seen -> y < c) -> c < n + length seen ->
  base_path H c x p -> ~ In x seen ->
  (forall seen', exists o, pick H (round H c x seen') x (s_paths (round H c x seen')) = Some (x, o)) ->
  exists o', In (x, o') (base_rounds H c n seen).
Proof.
  intros W. induction n as [|n IH]; intros seen x p Nd Lt Hn B Nx P; cbn [base_rounds].
  - exfalso. assert (Hl : length seen <= length (seq 0 c)).
    { apply NoDup_incl_length; auto. intros y I. apply in_seq. specialize (Lt y I). lia. }
    rewrite seq_length in Hl. cbn in Hn. lia.
  - destruct (s_found (next_class H c seen)) as [y|] eqn:F.
    2: { exfalso. apply Nx. eapply next_class_none; eauto. }
    destruct (next_class_found H c seen y W F) as (Ly & Ny & Sy & Ry). rewrite Sy.
    destruct (Nat.eq_dec y x) as [->|Ne].
    + destruct (P (x :: seen)) as (o' & E). rewrite <- Ry in E. rewrite E.
      exists o'. now left.
    + assert (K : exists o', In (x, o') (base_rounds H c n (y :: seen))).
      { apply (IH (y :: seen) x p); auto.
        - constructor; auto.
        - intros z [<-|I]; auto.
        - cbn [length]. lia.
        - cbn. intuition. }
      destruct K as (o' & K). exists o'.
      destruct (pick H (next_class H c seen) y (s_paths (next_class H c seen))); [right|]; auto.
Qed.

(** * Offsets *)
Lemma path_offset_some H p z :
  path_offset H p = Some z <-> nonvirtual p /\ offset_sum H p = z.
Proof.
  revert z. induction p as [|[c b] p IH]; intros z; cbn [path_offset offset_sum].
  - split; [intros [= <-]; split; auto; constructor|intros [_ ->]; auto].
  - destruct (b_virt b) eqn:V.
    + split; [discriminate|]. intros [F _]. inversion F; subst. cbn in *. congruence.
    + destruct (path_offset H p) as [o|] eqn:E.
      * destruct (proj1 (IH o) eq_refl) as [Nv <-].
        split.
        -- intros [= <-]. split; auto. constructor; auto.
        -- intros [_ <-]. reflexivity.
      * split; [discriminate|]. intros [F _]. inversion F; subst.
        assert (K : None = Some (offset_sum H p)) by (apply IH; auto). discriminate.
Qed.
