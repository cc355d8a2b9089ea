(** What a merged partial contains. *)
From Coq Require Import List Arith NArith Bool Lia String Sorting.Permutation Sorting.Sorted.
From Verif.NullInfer Require Import Model Spec.
Import ListNotations.
Local Open Scope N_scope.

(** * Maps *)
Fixpoint assoc {V} (k : kind) (m : list (kind * V)) : option V :=
  match m with [] => None | (k', v) :: m' => if k =? k' then Some v else assoc k m' end.
Definition get {V} (d : V) (k : kind) (m : list (kind * V)) : V := match assoc k m with Some v => v | None => d end.
Definition keys {V} (m : list (kind * V)) : list kind := map fst m.
Lemma assoc_upd {V} (d : V) f k m k' : assoc k' (upd d f k m) = if k' =? k then Some (f (get d k m)) else assoc k' m.
Proof.
  unfold get. induction m as [|[k0 v] m IH]; [cbn; reflexivity|]. cbn [upd assoc].
  destruct (N.eqb_spec k k0) as [<-|Hne].
  - cbn [assoc]. destruct (N.eqb_spec k' k); reflexivity.
  - cbn [assoc]. rewrite IH. destruct (N.eqb_spec k' k0) as [->|]; [|reflexivity]. destruct (N.eqb_spec k0 k); [congruence|reflexivity].
Qed.
Lemma get_upd {V} (d : V) f k m k' : get d k' (upd d f k m) = if k' =? k then f (get d k m) else get d k' m.
Proof. unfold get at 1. rewrite assoc_upd. destruct (k' =? k); reflexivity. Qed.
Lemma keys_upd {V} (d : V) f k m x : In x (keys (upd d f k m)) <-> x = k \/ In x (keys m).
Proof.
  induction m as [|[k0 v] m IH]; [cbn; intuition|]. cbn [upd]. unfold keys in *. destruct (N.eqb_spec k k0) as [->|Hne]; cbn [map In]; cbn [fst]; [intuition|]. rewrite IH. intuition.
Qed.
Lemma nodup_upd {V} (d : V) f k m : NoDup (keys m) -> NoDup (keys (upd d f k m)).
Proof.
  induction m as [|[k0 v] m IH]; intro H; [repeat constructor; auto|]. inversion H as [|? ? H1 H2]; subst. cbn [upd]. destruct (N.eqb_spec k k0) as [->|Hne]; [exact H|].
  constructor; [|now apply IH]. intro Hi. apply keys_upd in Hi as [E|Hi]; [cbn in E; congruence|contradiction].
Qed.
Lemma assoc_in {V} k (v : V) m : assoc k m = Some v -> In (k, v) m.
Proof. induction m as [|[k0 v0] m IH]; [discriminate|]. cbn. destruct (N.eqb_spec k k0) as [->|]; [intro E; injection E as ->; now left|right; auto]. Qed.
Lemma in_assoc {V} k (v : V) m : NoDup (keys m) -> In (k, v) m -> assoc k m = Some v.
Proof.
  induction m as [|[k0 v0] m IH]; [contradiction|]. intros N [E|Hi]; inversion N as [|? ? N1 N2]; subst; cbn.
  - injection E as -> ->. now rewrite N.eqb_refl.
  - destruct (N.eqb_spec k k0) as [->|]; [|auto]. exfalso. apply N1. apply in_map_iff. now exists (k0, v).
Qed.
Lemma assoc_none {V} k (m : list (kind * V)) : assoc k m = None <-> ~ In k (keys m).
Proof.
  induction m as [|[k0 v0] m IH]; [cbn; intuition|]. cbn. destruct (N.eqb_spec k k0) as [->|Hne]; [split; [discriminate|intro H; exfalso; auto]|]. rewrite IH. unfold keys. intuition.
Qed.
Lemma assoc_perm {V} (m m' : list (kind * V)) k : Permutation m m' -> NoDup (keys m) -> assoc k m = assoc k m'.
Proof.
  intros P N. assert (N' : NoDup (keys m')) by (eapply Permutation_NoDup; [apply Permutation_map; exact P|exact N]).
  destruct (assoc k m) as [v|] eqn:E.
  - symmetry. apply in_assoc; [exact N'|]. eapply Permutation_in; [exact P|]. now apply assoc_in.
  - symmetry. apply assoc_none. apply assoc_none in E. intro H. apply E. eapply Permutation_in; [symmetry; apply Permutation_map; exact P|exact H].
Qed.
Lemma fold_upd {V W} (d : V) (g : V -> W -> V) entries : forall m, NoDup (keys entries) -> NoDup (keys m) ->
  let out := fold_left (fun m kv => upd d (fun x => g x (snd kv)) (fst kv) m) entries m in
  NoDup (keys out) /\ (forall k, assoc k out = match assoc k entries with Some w => Some (g (get d k m) w) | None => assoc k m end) /\
  (forall k, In k (keys out) <-> In k (keys entries) \/ In k (keys m)).
Proof.
  induction entries as [|[k0 w] entries IH]; intros m N Nm; cbn [fold_left fst snd].
  - split; [exact Nm|]. split; [reflexivity|]. cbn. tauto.
  - inversion N as [|? ? N1 N2]; subst. destruct (IH (upd d (fun x => g x w) k0 m) N2 (nodup_upd _ _ _ _ Nm)) as (H1 & H2 & H3). split; [exact H1|]. split.
    + intro k. rewrite H2. cbn [assoc]. rewrite assoc_upd, get_upd. destruct (N.eqb_spec k k0) as [->|Hne]; [|reflexivity].
      assert (E : assoc k0 entries = None) by (now apply assoc_none). now rewrite E.
    + intro k. rewrite H3, keys_upd. cbn. intuition.
Qed.
Lemma kind_counts_get entries : NoDup (keys entries) -> forall k, kind_counts entries k = get 0 k entries.
Proof.
  unfold kind_counts. intros ND k. assert (G : forall (l : list (kind * N)) (f : kind -> N), NoDup (keys l) -> fold_left (fun f kc k => if k =? fst kc then snd kc else f k) l f k = match assoc k l with Some v => v | None => f k end).
  { induction l as [|[k0 v] l IH]; intros f Nl; [reflexivity|]. inversion Nl as [|? ? N1 N2]; subst. cbn [fold_left]. rewrite IH by assumption. cbn [assoc fst snd]. destruct (N.eqb_spec k k0) as [->|]; [|reflexivity].
    apply assoc_none in N1. now rewrite N1. }
  rewrite G by assumption. reflexivity.
Qed.

(** * Samples *)
Lemma add_samples_spec locs : forall rhs lhs,
  add_samples locs lhs rhs = lhs ++ firstn (3 - List.length lhs) (filter (fun e => negb (is_contained (loc e) locs)) rhs).
Proof.
  induction rhs as [|e rhs IH]; intro lhs; cbn [add_samples filter].
  - now rewrite firstn_nil, app_nil_r.
  - destruct (Nat.leb_spec 3 (List.length lhs)) as [Hle|Hlt].
    + replace (3 - List.length lhs)%nat with 0%nat by lia. cbn [firstn]. now rewrite app_nil_r.
    + destruct (is_contained (loc e) locs); cbn [negb]; rewrite IH; [reflexivity|]. rewrite app_length. cbn [List.length].
      replace (3 - List.length lhs)%nat with (S (3 - (List.length lhs + 1)))%nat by lia. cbn [firstn]. now rewrite <- app_assoc.
Qed.
Lemma is_contained_spec s l : is_contained s l = true <-> In s l.
Proof. unfold is_contained. rewrite existsb_exists. split; [intros (x & Hx & E); apply String.eqb_eq in E; now subst|intro H; exists s; split; [exact H|apply String.eqb_refl]]. Qed.
(** A stored sample is a usable piece of evidence with a location, without its symbol and slot. *)
Definition cleared (e : evidence) : evidence := Evidence None None (ekind e) (location e) (propagated_from e) (crosses e).
Definition sample_from (k : kind) (es : list evidence) (s : evidence) : Prop :=
  exists e, In e es /\ crosses e = false /\ ekind e = k /\ location e <> None /\ s = cleared e.
Record good (k : kind) (es : list evidence) (S : list evidence) : Prop := Good {
  g_len : List.length S = Nat.min 3 (List.length (places k es));
  g_nodup : NoDup (map loc S);
  g_from : Forall (sample_from k es) S }.
Lemma in_places k es s : In s (places k es) <-> exists e, In e es /\ crosses e = false /\ ekind e = k /\ location e = Some s.
Proof.
  unfold places. rewrite nodup_In, in_flat_map. unfold of_kind, usable. split.
  - intros (e & He & Hs). apply filter_In in He as [He Hk]. apply filter_In in He as [He Hc]. apply N.eqb_eq in Hk. apply negb_true_iff in Hc. exists e. repeat (split; [assumption|]). destruct (location e); [|contradiction]. destruct Hs as [->|[]]. reflexivity.
  - intros (e & He & Hc & Hk & Hl). exists e. split; [|rewrite Hl; now left]. apply filter_In. split; [|now apply N.eqb_eq]. apply filter_In. split; [exact He|]. now rewrite Hc.
Qed.
Lemma places_nodup k es : NoDup (places k es).
Proof. apply NoDup_nodup. Qed.
Lemma places_app k es es' s : In s (places k (es ++ es')) <-> In s (places k es) \/ In s (places k es').
Proof.
  rewrite !in_places. split.
  - intros (e & He & H). apply in_app_or in He as [He|He]; [left|right]; exists e; auto.
  - intros [(e & He & H)|(e & He & H)]; exists e; (split; [apply in_or_app; auto|exact H]).
Qed.
Lemma sample_loc k es s : sample_from k es s -> In (loc s) (places k es).
Proof.
  intros (e & He & Hc & Hk & Hl & ->). rewrite in_places. exists e. repeat (split; [assumption|]). unfold loc, cleared. cbn. destruct (location e); [reflexivity|contradiction].
Qed.
Lemma good_incl k es S : good k es S -> incl (map loc S) (places k es).
Proof. intros G x Hx. apply in_map_iff in Hx as (s & <- & Hs). apply sample_loc. pose proof (g_from _ _ _ G) as F. rewrite Forall_forall in F. now apply F. Qed.
Lemma good_small k es S : good k es S -> (List.length S < 3)%nat -> incl (places k es) (map loc S).
Proof.
  intros G L. apply NoDup_length_incl; [apply g_nodup with k es; exact G| |now apply good_incl]. rewrite map_length. pose proof (g_len _ _ _ G). lia.
Qed.
Lemma nodup_app_filter (A B : list evidence) : NoDup (map loc A) -> NoDup (map loc B) ->
  NoDup (map loc (A ++ filter (fun e => negb (is_contained (loc e) (map loc A))) B)).
Proof.
  intros NA NB. rewrite map_app. assert (Nf : NoDup (map loc (filter (fun e => negb (is_contained (loc e) (map loc A))) B))).
  { induction B as [|b B IH]; [constructor|]. inversion NB as [|? ? N1 N2]; subst. cbn [filter]. destruct (negb _); [|auto]. constructor; [|auto]. intro H. apply N1. apply in_map_iff in H as (x & Ex & Hx). apply filter_In in Hx as [Hx _]. apply in_map_iff. now exists x. }
  assert (D : forall x, In x (map loc A) -> ~ In x (map loc (filter (fun e => negb (is_contained (loc e) (map loc A))) B))).
  { intros x Hx H. apply in_map_iff in H as (e & <- & He). apply filter_In in He as [_ He]. apply negb_true_iff in He. apply is_contained_spec in Hx. congruence. }
  revert D Nf. generalize (map loc (filter (fun e => negb (is_contained (loc e) (map loc A))) B)). intros L D NL. clear NB B. induction (map loc A) as [|a l IH]; [exact NL|]. inversion NA as [|? ? Na Nl]; subst. cbn. constructor.
  - intro H. apply in_app_or in H as [H|H]; [contradiction|]. apply (D a); [now left|exact H].
  - apply IH; [exact Nl|]. intros x Hx. apply D. now right.
Qed.
Lemma sample_weaken k es es' s : incl es es' -> sample_from k es s -> sample_from k es' s.
Proof. intros I (e & He & H). exists e. split; [now apply I|exact H]. Qed.
Lemma nodup_firstn {A} n (l : list A) : NoDup l -> NoDup (firstn n l).
Proof. revert l. induction n; intros [|a l] H; cbn; try constructor; inversion H; subst; auto. intro Hi. apply H2. rewrite <- (firstn_skipn n l). apply in_or_app. now left. Qed.
Lemma good_merge k es es' S S' : good k es S -> good k es' S' -> good k (es ++ es') (merge_samples S S').
Proof.
  intros G G'. unfold merge_samples. rewrite add_samples_spec. set (F := filter _ S').
  pose proof (nodup_app_filter S S' (g_nodup _ _ _ G) (g_nodup _ _ _ G')) as NU. fold F in NU.
  assert (L3 : (List.length S <= 3)%nat) by (rewrite (g_len _ _ _ G); lia).
  assert (E : S ++ firstn (3 - List.length S) F = firstn 3 (S ++ F)).
  { rewrite firstn_app. rewrite (firstn_all2 S) by lia. reflexivity. }
  rewrite E. assert (IU : incl (map loc (S ++ F)) (places k (es ++ es'))).
  { rewrite map_app. intros x Hx. apply places_app. apply in_app_or in Hx as [Hx|Hx]; [left; now apply (good_incl _ _ _ G)|right]. apply (good_incl _ _ _ G'). apply in_map_iff in Hx as (y & <- & Hy). apply filter_In in Hy as [Hy _]. apply in_map_iff. now exists y. }
  constructor.
  - rewrite firstn_length. pose proof (NoDup_incl_length NU IU) as Hle. rewrite map_length in Hle.
    destruct (le_lt_dec 3 (List.length (S ++ F))) as [Hge|Hlt]; [lia|]. f_equal.
    assert (IS' : incl (map loc S') (map loc (S ++ F))).
    { intros x Hx. apply in_map_iff in Hx as (y & <- & Hy). rewrite map_app. apply in_or_app. destruct (is_contained (loc y) (map loc S)) eqn:C; [left; now apply is_contained_spec|right].
      apply in_map_iff. exists y. split; [reflexivity|]. apply filter_In. now rewrite C. }
    assert (L1 : (List.length S < 3)%nat) by (rewrite app_length in Hlt; lia).
    assert (L2 : (List.length S' < 3)%nat).
    { pose proof (NoDup_incl_length (g_nodup _ _ _ G') IS') as H. rewrite !map_length in H. lia. }
    assert (IP : incl (places k (es ++ es')) (map loc (S ++ F))).
    { intros x Hx. apply places_app in Hx as [Hx|Hx]; [rewrite map_app; apply in_or_app; left; now apply (good_small _ _ _ G)|apply IS'; now apply (good_small _ _ _ G')]. }
    pose proof (NoDup_incl_length (places_nodup k (es ++ es')) IP) as H. rewrite map_length in H. lia.
  - rewrite <- firstn_map. now apply nodup_firstn.
  - apply Forall_forall. intros s Hs. assert (Hs' : In s (S ++ F)) by (rewrite <- (firstn_skipn 3 (S ++ F)); apply in_or_app; now left).
    pose proof (g_from _ _ _ G) as F1. pose proof (g_from _ _ _ G') as F2. rewrite Forall_forall in F1, F2. apply in_app_or in Hs' as [H|H].
    + apply (sample_weaken k es); [intros x Hx; apply in_or_app; now left|]. now apply F1.
    + apply filter_In in H as [H _]. apply (sample_weaken k es'); [intros x Hx; apply in_or_app; now right|]. now apply F2.
Qed.

(** * Partials *)
Record rep (p : partial) (es : list evidence) : Prop := Rep {
  r_counts : NoDup (keys (kind_count p));
  r_samples : NoDup (keys (kind_samples p));
  r_count : forall k, get 0 k (kind_count p) = u32 (count k es);
  r_keys : forall k, In k (keys (kind_count p)) <-> of_kind k (usable es) <> [];
  r_good : forall k, good k es (get [] k (kind_samples p)) }.
Lemma usable_app es es' : usable (es ++ es') = usable es ++ usable es'.
Proof. apply filter_app. Qed.
Lemma of_kind_app k es es' : of_kind k (es ++ es') = of_kind k es ++ of_kind k es'.
Proof. apply filter_app. Qed.
Lemma count_app k es es' : count k (es ++ es') = count k es + count k es'.
Proof. unfold count. rewrite usable_app, of_kind_app, app_length. lia. Qed.
Lemma u32_add a b : u32 (u32 a + u32 b) = u32 (a + b).
Proof. unfold u32. now rewrite <- N.add_mod by discriminate. Qed.
Lemma u32_u32 a : u32 (u32 a) = u32 a.
Proof. unfold u32. now rewrite N.mod_mod by discriminate. Qed.
Lemma rep_leaf e p : partial_from_evidence e = Some p -> rep p [e].
Proof.
  unfold partial_from_evidence. destruct (crosses e) eqn:Ec; [discriminate|]. intro E. injection E as <-.
  assert (Hu : usable [e] = [e]) by (unfold usable; cbn [filter]; now rewrite Ec).
  assert (Hk : forall k, of_kind k (usable [e]) = if ekind e =? k then [e] else []) by (intro k; rewrite Hu; unfold of_kind; cbn [filter]; now destruct (ekind e =? k)).
  constructor; cbn [kind_count kind_samples upd].
  - repeat constructor. auto.
  - destruct (location e); cbn; repeat constructor; auto.
  - intro k. unfold count. rewrite Hk. unfold get. cbn [assoc]. rewrite N.eqb_sym. destruct (ekind e =? k); reflexivity.
  - intro k. rewrite Hk. cbn. destruct (N.eqb_spec (ekind e) k); split; intro H; [discriminate|now left|destruct H as [H|[]]; contradiction|contradiction].
  - intro k. assert (Hp : places k [e] = match location e with Some s => if ekind e =? k then [s] else [] | None => [] end).
    { unfold places. rewrite Hk. destruct (ekind e =? k); cbn; destruct (location e); reflexivity. }
    destruct (location e) as [s|] eqn:El; rewrite ?El in Hp; unfold get; cbn [assoc upd]; [|constructor; [rewrite Hp; reflexivity|constructor|constructor]].
    rewrite (N.eqb_sym k). destruct (N.eqb_spec (ekind e) k) as [<-|]; (constructor; [rewrite Hp; cbn; rewrite ?N.eqb_refl; try reflexivity| |]).
    + repeat constructor. auto.
    + constructor; [|constructor]. exists e. split; [now left|]. split; [exact Ec|]. split; [reflexivity|]. split; [congruence|]. unfold cleared. now rewrite El, ?Ec.
    + constructor.
    + constructor.
Qed.
Lemma good_none k es es' S : good k es S -> of_kind k (usable es') = [] -> good k (es ++ es') S.
Proof.
  intros G H. constructor; [|apply G|].
  - rewrite (g_len _ _ _ G). f_equal. unfold places. now rewrite usable_app, of_kind_app, H, app_nil_r.
  - eapply Forall_impl; [|apply (g_from _ _ _ G)]. intros s. apply sample_weaken. intros x Hx. apply in_or_app. now left.
Qed.
Lemma merge_samples_nil S : merge_samples S [] = S.
Proof. reflexivity. Qed.
Lemma rep_merge p q out es es' : rep p es -> rep q es' -> merges p q out -> rep out (es ++ es').
Proof.
  intros R R' (cs & ss & Pc & Ps & ->).
  assert (Nc : NoDup (keys cs)) by (eapply Permutation_NoDup; [apply Permutation_map; symmetry; exact Pc|apply R']).
  assert (Ns : NoDup (keys ss)) by (eapply Permutation_NoDup; [apply Permutation_map; symmetry; exact Ps|apply R']).
  destruct (fold_upd 0 (fun c w => u32 (c + w)) cs (kind_count p) Nc (r_counts _ _ R)) as (C1 & C2 & C3).
  destruct (fold_upd [] merge_samples ss (kind_samples p) Ns (r_samples _ _ R)) as (S1 & S2 & S3).
  constructor; cbn [merge_in_order kind_count kind_samples]; [exact C1|exact S1| | |].
  - intro k. unfold get. rewrite C2. rewrite (assoc_perm _ _ k Pc Nc). pose proof (r_count _ _ R k) as H. pose proof (r_count _ _ R' k) as H'. rewrite count_app, <- u32_add, <- H, <- H'. unfold get at 3.
    destruct (assoc k (kind_count q)) as [w|]; [reflexivity|]. rewrite N.add_0_r, H. rewrite u32_u32. unfold get in H. exact H.
  - intro k. rewrite C3, (r_keys _ _ R k). assert (Hk : In k (keys cs) <-> In k (keys (kind_count q))) by (split; apply Permutation_in; apply Permutation_map; [exact Pc|symmetry; exact Pc]).
    rewrite Hk, (r_keys _ _ R' k), usable_app, of_kind_app. destruct (of_kind k (usable es)), (of_kind k (usable es')); cbn; intuition congruence.
  - intro k. unfold get. rewrite S2, (assoc_perm _ _ k Ps Ns). pose proof (r_good _ _ R k) as G. pose proof (r_good _ _ R' k) as G'. unfold get in G' at 1.
    destruct (assoc k (kind_samples q)) as [w|]; [apply good_merge; assumption|]. rewrite <- (merge_samples_nil (match assoc k (kind_samples p) with Some v => v | None => [] end)). apply good_merge; assumption.
Qed.
Lemma rep_weaken_l p es es' : rep p es -> usable es' = [] -> rep p (es ++ es').
Proof.
  intros R H. assert (Hk : forall k, of_kind k (usable (es ++ es')) = of_kind k (usable es)) by (intro k; now rewrite usable_app, H, app_nil_r). constructor; try apply R.
  - intro k. rewrite (r_count _ _ R). unfold count. now rewrite Hk.
  - intro k. rewrite Hk. apply R.
  - intro k. apply good_none; [apply R|]. now rewrite H.
Qed.
Lemma rep_weaken_r p es es' : rep p es' -> usable es = [] -> rep p (es ++ es').
Proof.
  intros R H. assert (Hk : forall k, of_kind k (usable (es ++ es')) = of_kind k (usable es')) by (intro k; now rewrite usable_app, H). constructor; try apply R.
  - intro k. rewrite (r_count _ _ R). unfold count. now rewrite Hk.
  - intro k. rewrite Hk. apply R.
  - intro k. pose proof (r_good _ _ R k) as G. constructor; [|apply G|].
    + rewrite (g_len _ _ _ G). unfold places. now rewrite Hk.
    + eapply Forall_impl; [|apply (g_from _ _ _ G)]. intros s. apply sample_weaken. intros x Hx. apply in_or_app. now right.
Qed.
Theorem rep_tree t op : partial_of t op -> match op with Some p => rep p (leaves t) /\ usable (leaves t) <> [] | None => usable (leaves t) = [] end.
Proof.
  induction 1 as [e|l r op Hl IHl Hr IHr|l r op Hl IHl Hr IHr|l r p q out Hl IHl Hr IHr M]; cbn [leaves].
  - destruct (partial_from_evidence e) as [p|] eqn:E; [split; [now apply rep_leaf|]|]; unfold partial_from_evidence in E; unfold usable; cbn; destruct (crosses e); cbn; congruence.
  - destruct op as [p|]; rewrite usable_app, IHr, app_nil_r; [destruct IHl; split; [now apply rep_weaken_l|assumption]|assumption].
  - destruct op as [p|]; rewrite usable_app, IHl; cbn [app]; [destruct IHr; split; [now apply rep_weaken_r|assumption]|assumption].
  - destruct IHl as [R1 U1], IHr as [R2 U2]. split; [eapply rep_merge; eassumption|]. rewrite usable_app. destruct (usable (leaves l)); [contradiction|discriminate].
Qed.
