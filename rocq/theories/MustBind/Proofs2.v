(** The generator, and the run as a whole. *)
From Coq Require Import List Bool Arith Lia.
From Verif.MustBind Require Import Model Spec Proofs.
Import ListNotations.

Section Item_ind.
  Variable P : item -> Prop.
  Hypothesis H : forall i k m g cs, Forall P cs -> P (Item i k m g cs).
  Fixpoint item_ind' (x : item) : P x :=
    match x with
    | Item i k m g cs =>
        H i k m g cs ((fix go (l : list item) : Forall P l :=
                   match l with
                   | [] => Forall_nil _
                   | y :: l' => Forall_cons _ (item_ind' y) (go l')
                   end) cs)
    end.
End Item_ind.

Lemma generate_item_eq i k m g cs :
  generate_item (Item i k m g cs) =
  if has_target k && negb (g_owned g) then ([], Some [])
  else recover i k m g (generate_item_impl i k m g (generate_items cs)).
Proof.
  cbn [generate_item]. destruct (has_target k && negb (g_owned g)); [reflexivity|].
  do 2 f_equal. 
Qed.

Lemma build_eq c d cs :
  build c (Decl d cs) =
  match lookup c (d_id d) with
  | Some (Done (Some (k, m))) =>
      if is_unsupported k && negb (g_owned (d_gen d)) then []
      else [Item (d_id d) k m (d_gen d) (if keeps_children k then flat_map (build c) cs else [])]
  | _ => []
  end.
Proof.
  cbn [build]. destruct (lookup c (d_id d)) as [[|[[k m]|]]|]; reflexivity.
Qed.

(** Items within an item. *)
Fixpoint sub_items (x : item) : list (nat * bool) :=
  match x with
  | Item i k m g cs =>
      (i, m) :: (fix go (l : list item) : list (nat * bool) :=
                   match l with [] => [] | y :: l' => sub_items y ++ go l' end) cs
  end.

Lemma sub_items_eq i k m g cs : sub_items (Item i k m g cs) = (i, m) :: flat_map sub_items cs.
Proof. reflexivity. Qed.

Definition ids_of (r : outcome) (i : nat) : Prop :=
  In i (fst r) \/ exists e out, snd r = Some out /\ In (i, e) out.

Definition covered (r : outcome) (l : list (nat * bool)) : Prop :=
  (forall i, In i (fst r) -> In (i, true) l) /\
  (forall out i e, snd r = Some out -> In (i, e) out -> exists m, In (i, m) l).

Lemma covered_nil l : covered ([], Some []) l.
Proof. split; [intros i []|]. intros out i e E. injection E as <-. intros []. Qed.

Lemma covered_none l : covered ([], None) l.
Proof. split; [intros i []|]. discriminate. Qed.

Lemma covered_one i e m l : In (i, m) l -> covered ([], Some [(i, e)]) l.
Proof.
  intros H. split; [intros j []|]. intros out j e' E. injection E as <-.
  intros [E|[]]. injection E as <- _. now exists m.
Qed.

Lemma covered_mono r l l' : (forall p, In p l -> In p l') -> covered r l -> covered r l'.
Proof.
  intros H [A B]. split.
  - intros i Hi. apply H. now apply A.
  - intros out i e E Hi. destruct (B out i e E Hi) as [m Hm]. exists m. now apply H.
Qed.

Lemma covered_seq a b l : covered a l -> covered b l -> covered (seq_outcome a b) l.
Proof.
  intros [A1 A2] [B1 B2]. unfold seq_outcome. destruct a as [fa [ea|]]; cbn [fst snd] in *.
  - split; cbn [fst snd].
    + intros i Hi. apply in_app_iff in Hi. destruct Hi; auto.
    + destruct b as [fb [eb|]]; cbn [fst snd] in *; [|discriminate].
      intros out i e E. injection E as <-. intros Hi. apply in_app_iff in Hi.
      destruct Hi as [Hi|Hi]; [exact (A2 ea i e eq_refl Hi)|exact (B2 eb i e eq_refl Hi)].
  - split; cbn [fst snd]; [assumption|discriminate].
Qed.

Lemma covered_items l :
  Forall (fun x => covered (generate_item x) (sub_items x)) l ->
  covered (generate_items l) (flat_map sub_items l).
Proof.
  induction 1 as [|x l Hx Hl IH]; cbn [generate_items flat_map]; [apply covered_nil|].
  apply covered_seq.
  - apply (covered_mono _ (sub_items x)); [|assumption]. intros p Hp. apply in_app_iff. now left.
  - apply (covered_mono _ (flat_map sub_items l)); [|assumption]. intros p Hp. apply in_app_iff. now right.
Qed.

Lemma covered_unsupported i m g l : In (i, m) l -> covered (generate_unsupported i m g) l.
Proof.
  intros H. unfold generate_unsupported. destruct (negb m && g_libcxx g); [apply covered_nil|].
  split; cbn [fst snd].
  - destruct m; [|intros j []]. intros j [<-|[]]. assumption.
  - intros out j e E. injection E as <-. intros [E|[]]. injection E as <- _. now exists m.
Qed.

Lemma covered_impl i k m g sub l :
  In (i, m) l -> covered sub l -> covered (generate_item_impl i k m g sub) l.
Proof.
  intros H Hs. unfold generate_item_impl.
  set (r := match k with KFunc => _ | _ => _ end).
  assert (Hr : covered r l).
  { subst r. destruct k; try (now apply covered_one with m).
    - destruct (g_type_ok g); [now apply covered_one with m|apply covered_none].
    - destruct (negb (g_type_ok g)); [apply covered_none|].
      destruct (g_bridge g); [apply covered_nil|].
      destruct (negb (g_pre_ok g)); [apply covered_none|].
      apply covered_seq; [assumption|].
      destruct (g_post_ok g); [now apply covered_one with m|apply covered_none].
    - destruct (g_fn g) as [| |c a]; [apply covered_none|apply covered_nil|].
      destruct a; [apply covered_none|now apply covered_one with m].
    - destruct (g_type_ok g); [now apply covered_one with m|apply covered_none].
    - destruct (negb (g_type_ok g)); [apply covered_none|].
      destruct (g_value_ok g); now apply covered_one with m.
    - destruct (g_type_ok g); [now apply covered_one with m|apply covered_none].
    - destruct (g_type_ok g); [now apply covered_one with m|apply covered_none].
    - now apply covered_unsupported.
    - apply covered_seq; [assumption|now apply covered_one with m].
    - destruct (g_type_ok g); [now apply covered_one with m|apply covered_none]. }
  clearbody r. destruct r as [fr [er|]]; cbn [fst snd].
  - destruct (g_has_bindings g); [assumption|]. split; [apply Hr|discriminate].
  - assumption.
Qed.

Lemma covered_item x : covered (generate_item x) (sub_items x).
Proof.
  induction x as [i k m g cs IH] using item_ind'.
  rewrite generate_item_eq, sub_items_eq.
  destruct (has_target k && negb (g_owned g)); [apply covered_nil|].
  assert (Hi : covered (generate_item_impl i k m g (generate_items cs)) ((i, m) :: flat_map sub_items cs)).
  { apply covered_impl; [now left|].
    apply (covered_mono _ (flat_map sub_items cs)); [intros p Hp; now right|now apply covered_items]. }
  unfold recover. destruct (generate_item_impl i k m g (generate_items cs)) as [fr [er|]]; cbn [fst snd].
  - assumption.
  - destruct (g_has_bindings g && negb (is_func_kind k)); [assumption|].
    assert (Hu : covered (generate_unsupported i m g) ((i, m) :: flat_map sub_items cs))
      by (apply covered_unsupported; now left).
    split; cbn [fst snd].
    + intros j Hj. apply in_app_iff in Hj. destruct Hj as [Hj|Hj]; [now apply Hi|now apply Hu].
    + apply Hu.
Qed.

Lemma covered_all l : covered (generate_items l) (flat_map sub_items l).
Proof. apply covered_items. apply Forall_forall. intros x _. apply covered_item. Qed.

(** Items come from cached results. *)
Lemma build_sub c x i m :
  In (i, m) (flat_map sub_items (build c x)) ->
  (exists y, In y (flatten x) /\ root_id y = i) /\
  exists k, lookup c i = Some (Done (Some (k, m))).
Proof.
  revert i m. induction x as [d cs IH] using decl_ind'. intros i m. rewrite build_eq.
  destruct (lookup c (d_id d)) as [[|[[k m']|]]|] eqn:El; try (intros []).
  destruct (is_unsupported k && negb (g_owned (d_gen d))); [intros []|].
  cbn [flat_map]. rewrite app_nil_r, sub_items_eq. intros [E|Hi].
  - injection E as <- <-. split.
    + exists (Decl d cs). split; [apply flatten_self|reflexivity].
    + now exists k.
  - destruct (keeps_children k); [|destruct Hi].
    apply in_flat_map in Hi. destruct Hi as (it & Hit & Hi).
    apply in_flat_map in Hit. destruct Hit as (y & Hy & Hit).
    rewrite Forall_forall in IH. destruct (IH y Hy i m) as [(z & Hz & Ez) Hl].
    + apply in_flat_map. now exists it.
    + split; [|assumption]. exists z. split; [|assumption].
      rewrite flatten_eq. right. apply in_flat_map. now exists y.
Qed.

Lemma generate_items_app a b :
  generate_items (a ++ b) = seq_outcome (generate_items a) (generate_items b).
Proof.
  induction a as [|x a IH]; cbn [app generate_items].
  - unfold seq_outcome. cbn [fst snd app]. destruct (generate_items b) as [f [e|]]; reflexivity.
  - rewrite IH. unfold seq_outcome.
    destruct (generate_item x) as [f1 [e1|]]; cbn [fst snd]; [|reflexivity].
    destruct (generate_items a) as [f2 [e2|]]; cbn [fst snd].
    + rewrite app_assoc. destruct (generate_items b) as [f3 [e3|]]; cbn [fst snd]; [|reflexivity].
      now rewrite app_assoc.
    + reflexivity.
Qed.

Lemma seq_ok a b out :
  seq_outcome a b = ([], Some out) ->
  exists ea eb, a = ([], Some ea) /\ b = ([], Some eb) /\ out = ea ++ eb.
Proof.
  unfold seq_outcome. destruct a as [fa [ea|]]; cbn [fst snd]; [|discriminate].
  destruct b as [fb [eb|]]; cbn [fst snd]; [|discriminate]. intros E.
  injection E as E <-. apply app_eq_nil in E. destruct E as [-> ->]. now exists ea, eb.
Qed.

(** One declaration of a list. *)
Lemma split_decl c l x out :
  In x l -> generate_items (flat_map (build c) l) = ([], Some out) ->
  exists l1 l2 e1 ex e2, l = l1 ++ x :: l2 /\
    generate_items (flat_map (build c) l1) = ([], Some e1) /\
    generate_items (build c x) = ([], Some ex) /\
    generate_items (flat_map (build c) l2) = ([], Some e2) /\
    out = e1 ++ ex ++ e2.
Proof.
  intros Hx E. apply in_split in Hx. destruct Hx as (l1 & l2 & ->).
  rewrite flat_map_app in E. cbn [flat_map] in E. rewrite generate_items_app in E.
  apply seq_ok in E. destruct E as (e1 & e2 & E1 & E2 & ->).
  rewrite generate_items_app in E2. apply seq_ok in E2. destruct E2 as (ex & e3 & Ex & E3 & ->).
  exists l1, l2, e1, ex, e3. auto.
Qed.

Lemma emitted_in c l out i e :
  generate_items (flat_map (build c) l) = ([], Some out) -> In (i, e) out ->
  In i (map root_id (flat_map flatten l)).
Proof.
  intros E Hi. destruct (covered_all (flat_map (build c) l)) as [_ H].
  rewrite E in H. destruct (H out i e eq_refl Hi) as [m Hm].
  apply in_flat_map in Hm. destruct Hm as (it & Hit & Hm).
  apply in_flat_map in Hit. destruct Hit as (y & Hy & Hit).
  destruct (build_sub c y i m) as [(z & Hz & <-) _].
  - apply in_flat_map. now exists it.
  - apply in_map. apply in_flat_map. now exists y.
Qed.

Lemma at_path_in l p x : at_path l p x ->
  forall a, In a p -> In a (map root_id (flat_map flatten l)).
Proof.
  induction 1 as [l x Hx|l y p x Hy Hp IH]; intros a Ha; [destruct Ha|].
  destruct Ha as [<-|Ha].
  - apply in_map. apply in_flat_map. exists y. split; [assumption|apply flatten_self].
  - apply IH in Ha. apply in_map_iff in Ha. destruct Ha as (z & <- & Hz).
    apply in_map. apply in_flat_map. exists y. split; [assumption|]. rewrite flatten_eq. now right.
Qed.

Lemma at_path_all l p x : at_path l p x -> In x (flat_map flatten l).
Proof.
  induction 1 as [l x Hx|l y p x Hy Hp IH].
  - apply in_flat_map. exists x. split; [assumption|apply flatten_self].
  - apply in_flat_map. exists y. split; [assumption|]. rewrite flatten_eq. now right.
Qed.

Lemma nodup_app_l {A} (a b : list A) : NoDup (a ++ b) -> NoDup a.
Proof.
  induction a as [|x a IH]; cbn [app]; intros H; [constructor|].
  apply NoDup_cons_iff in H. destruct H as [H1 H2]. constructor; [|now apply IH].
  intros Hx. apply H1. apply in_app_iff. now left.
Qed.

Lemma nodup_app_r {A} (a b : list A) : NoDup (a ++ b) -> NoDup b.
Proof.
  induction a as [|x a IH]; cbn [app]; intros H; [assumption|].
  apply NoDup_cons_iff in H. now apply IH.
Qed.

Lemma nodup_app_disj {A} (a b : list A) x : NoDup (a ++ b) -> In x a -> In x b -> False.
Proof.
  induction a as [|y a IH]; cbn [app]; intros H Ha Hb; [destruct Ha|].
  apply NoDup_cons_iff in H. destruct H as [H1 H2]. destruct Ha as [->|Ha].
  - apply H1. apply in_app_iff. now right.
  - now apply IH.
Qed.

(** What is emitted for the ids of [y] comes from [y]. *)
Lemma emitted_local c l1 y l2 e1 ey e2 i e :
  NoDup (map root_id (flat_map flatten (l1 ++ y :: l2))) ->
  generate_items (flat_map (build c) l1) = ([], Some e1) ->
  generate_items (flat_map (build c) l2) = ([], Some e2) ->
  In i (map root_id (flatten y)) -> In (i, e) (e1 ++ ey ++ e2) -> In (i, e) ey.
Proof.
  intros Hn E1 E2 Hi He. rewrite flat_map_app in Hn. cbn [flat_map] in Hn.
  rewrite !map_app in Hn. apply in_app_iff in He. destruct He as [He|He].
  - exfalso. apply (nodup_app_disj _ _ i Hn); [now apply (emitted_in c l1 e1 i e)|].
    apply in_app_iff. now left.
  - apply in_app_iff in He. destruct He as [He|He]; [assumption|].
    exfalso. apply nodup_app_r in Hn. apply (nodup_app_disj _ _ i Hn); [assumption|].
    now apply (emitted_in c l2 e2 i e).
Qed.

Section Run.
Variables (o : options) (tu : list decl) (c : list (nat * entry)).

(** What the import guarantees of the cache. *)
Record cache_ok : Prop := {
  c_done : forall x, In x (all_decls tu) -> lookup c (root_id x) <> None ->
    exists r, lookup c (root_id x) = Some (Done r) /\ good o tu x r /\
      (kept_children r -> forall y, In y (kids x) -> lookup c (root_id y) <> None);
  c_find : forall i r, lookup c i = Some (Done r) ->
    exists x, find_decl tu i = Some x /\ good o tu x r;
  c_roots : forall x, In x tu -> lookup c (root_id x) <> None
}.

Hypothesis Hc : cache_ok.
Hypothesis Hscope : well_scoped tu.

Lemma single x ex :
  In x (all_decls tu) -> lookup c (root_id x) <> None ->
  d_must (info x) = ASet -> g_owned (d_gen (info x)) = true -> kept x ->
  generate_items (build c x) = ([], Some ex) -> In (root_id x, EBound) ex.
Proof.
  intros Hx Hl Hm Ho Hk E.
  destruct (c_done Hc x Hx Hl) as (r & Hr & Hg & _).
  destruct (annotated_result o tu x r Hg Hm) as (k & m & -> & Hkind & Htr).
  destruct x as [d cs]. unfold root_id in *. cbn [info kids] in *. rewrite build_eq, Hr in E.
  rewrite Ho in E. cbn [negb] in E. rewrite andb_false_r in E.
  cbn [generate_items] in E. apply seq_ok in E. destruct E as (ea & eb & E & Eb & ->).
  injection Eb as <-. rewrite app_nil_r. rewrite generate_item_eq in E.
  rewrite Ho in E. cbn [negb] in E. rewrite andb_false_r in E.
  assert (Hmt : m = true).
  { apply Htr. unfold kind_ok, kept in *. cbn [info] in Hk. destruct Hkind as [->|Hkind]; [reflexivity|].
    destruct (d_class d) as [f|[[]|]|q|[[]|]]; cbn [tracked] in *; subst; try reflexivity; try tauto;
      intuition congruence. }
  subst m. clear Htr.
  assert (Hu : generate_unsupported (d_id d) true (d_gen d) = ([d_id d], Some [(d_id d, EComment)])) by reflexivity.
  (* an error is never swallowed *)
  assert (Herr : forall fr, recover (d_id d) k true (d_gen d) (fr, None) <> ([], Some ea)).
  { intros fr. unfold recover. cbn [fst snd].
    destruct (g_has_bindings (d_gen d) && negb (is_func_kind k)); [discriminate|].
    rewrite Hu. cbn [fst snd]. intros E'. injection E' as E' _. now apply app_eq_nil in E'. }
  remember (generate_item_impl (d_id d) k true (d_gen d) (generate_items
     (if keeps_children k then flat_map (build c) cs else []))) as res eqn:Eres.
  destruct res as [fr [er|]]; [|now apply Herr in E].
  unfold recover in E. cbn [snd] in E. injection E as -> ->. clear Herr.
  unfold generate_item_impl in Eres.
  set (g := d_gen d) in *.
  assert (Hfin : forall r1 : outcome,
    ([], Some ea) = (match snd r1 with None => r1
                      | Some e => (fst r1, if g_has_bindings g then Some e else None) end : outcome) ->
    r1 = ([], Some ea)).
  { intros [f1 [e1|]]; cbn [fst snd]; [|discriminate].
    destruct (g_has_bindings g); [|discriminate]. intros E'. now injection E' as <- <-. }
  apply Hfin in Eres. clear Hfin.
  unfold kind_ok, kept in *. cbn [info] in Hk.
  destruct Hkind as [->|Hkind].
  { rewrite Hu in Eres. discriminate. }
  destruct (d_class d) as [f|[[]|]|q|[[]|]]; try tauto; subst k;
    try (exfalso; intuition congruence).
  - destruct Hk as [Hk1 Hk2]. fold g in Hk1, Hk2.
    destruct (g_fn g) as [| |cl a]; [discriminate|congruence|].
    destruct a; [discriminate|]. destruct cl; [|now specialize (Hk2 false)].
    injection Eres as <-. now left.
  - destruct Hk as (_ & _ & Hb). fold g in Hb. rewrite Hb in Eres.
    destruct (negb (g_type_ok g)); [discriminate|].
    destruct (negb (g_pre_ok g)); [discriminate|].
    apply seq_ok in Eres. destruct Eres as (e1 & e2 & _ & E2 & ->).
    destruct (g_post_ok g); [|discriminate]. injection E2 as <-.
    apply in_app_iff. right. now left.
  - apply seq_ok in Eres. destruct Eres as (e1 & e2 & _ & E2 & ->). injection E2 as <-.
    apply in_app_iff. right. now left.
  - destruct (g_type_ok g); [|discriminate]. injection Eres as <-. now left.
  - destruct (g_type_ok g); [|discriminate]. injection Eres as <-. now left.
  - injection Eres as <-. now left.
Qed.

(** A scope that got bindings had its members generated. *)
Lemma scope y ey :
  In y (all_decls tu) -> kids y <> [] ->
  ~ In (root_id y) (map root_id (flat_map flatten (kids y))) ->
  generate_items (build c y) = ([], Some ey) -> In (root_id y, EBound) ey ->
  (forall z, In z (kids y) -> lookup c (root_id z) <> None) /\
  exists es, generate_items (flat_map (build c) (kids y)) = ([], Some es) /\
    ey = es ++ [(root_id y, EBound)].
Proof.
  intros Hy Hkids Hnot E Hb. pose proof (Hscope y Hy Hkids) as Hsc.
  destruct y as [d cs]. unfold root_id in *. cbn [info kids] in *.
  rewrite build_eq in E.
  destruct (lookup c (d_id d)) as [[|[[k m]|]]|] eqn:El;
    try (injection E as <-; destruct Hb).
  destruct (c_done Hc (Decl d cs) Hy) as (r & Hr & Hg & Hkc).
  { unfold root_id. cbn [info]. congruence. }
  unfold root_id in Hr. cbn [info] in Hr. rewrite El in Hr. injection Hr as <-.
  pose proof (kind_result o tu (Decl d cs) _ k m Hg eq_refl) as Hkind. cbn [info] in Hkind.
  destruct (is_unsupported k && negb (g_owned (d_gen d))); [injection E as <-; destruct Hb|].
  cbn [generate_items] in E. apply seq_ok in E. destruct E as (ea & eb & E & Eb & ->).
  injection Eb as <-. rewrite app_nil_r in *. rewrite generate_item_eq in E.
  destruct (has_target k && negb (g_owned (d_gen d))); [injection E as <-; destruct Hb|].
  remember (generate_item_impl (d_id d) k m (d_gen d) (generate_items
     (if keeps_children k then flat_map (build c) cs else []))) as res eqn:Eres.
  destruct res as [fr [er|]].
  2:{ exfalso. unfold recover in E. cbn [fst snd] in E.
      destruct (g_has_bindings (d_gen d) && negb (is_func_kind k)); [discriminate|].
      unfold generate_unsupported in E. destruct (negb m && g_libcxx (d_gen d)); cbn [fst snd] in E;
        injection E as _ <-; [destruct Hb|]. destruct Hb as [Hb|[]]. discriminate. }
  unfold recover in E. cbn [snd] in E. injection E as -> ->.
  unfold generate_item_impl in Eres. set (g := d_gen d) in *.
  assert (Hfin : forall r1 : outcome,
    ([], Some ea) = (match snd r1 with None => r1
                      | Some e => (fst r1, if g_has_bindings g then Some e else None) end : outcome) ->
    r1 = ([], Some ea)).
  { intros [f1 [e1|]]; cbn [fst snd]; [|discriminate].
    destruct (g_has_bindings g); [|discriminate]. intros E'. now injection E' as <- <-. }
  apply Hfin in Eres. clear Hfin.
  assert (Hk2 : k = KRecord \/ k = KNamespace \/ k = KUnsupported \/ k = KExistingRustType).
  { unfold kind_ok in Hkind. destruct Hkind as [->|Hkind]; [auto|].
    destruct Hsc as [(q & Hq & Hne)|(q & Hq)]; rewrite Hq in Hkind.
    - destruct q as [[]|]; try tauto; congruence.
    - auto. }
  destruct Hk2 as [->|[->|[->| ->]]].
  - cbn [keeps_children] in *. split; [apply Hkc; now exists KRecord, m|].
    destruct (negb (g_type_ok g)); [discriminate|].
    destruct (g_bridge g); [injection Eres as <-; destruct Hb|].
    destruct (negb (g_pre_ok g)); [discriminate|].
    apply seq_ok in Eres. destruct Eres as (e1 & e2 & E1 & E2 & ->).
    destruct (g_post_ok g); [|discriminate]. injection E2 as <-. exists e1. now split.
  - cbn [keeps_children] in *. split; [apply Hkc; now exists KNamespace, m|].
    apply seq_ok in Eres. destruct Eres as (e1 & e2 & E1 & E2 & ->). injection E2 as <-.
    exists e1. now split.
  - exfalso. unfold generate_unsupported in Eres.
    destruct (negb m && g_libcxx g); [injection Eres as <-; destruct Hb|].
    injection Eres as _ <-. destruct Hb as [Hb|[]]. discriminate.
  - exfalso. destruct (g_type_ok g); [|discriminate]. injection Eres as <-.
    destruct Hb as [Hb|[]]. discriminate.
Qed.

(** A declaration whose enclosing scopes all got bindings was generated. *)
Lemma path_visited l p x :
  at_path l p x ->
  forall out,
  (forall y, In y (flat_map flatten l) -> In y (all_decls tu)) ->
  (forall y, In y l -> lookup c (root_id y) <> None) ->
  NoDup (map root_id (flat_map flatten l)) ->
  generate_items (flat_map (build c) l) = ([], Some out) ->
  (forall a, In a p -> In (a, EBound) out) ->
  lookup c (root_id x) <> None /\
  exists ex, generate_items (build c x) = ([], Some ex) /\ incl ex out.
Proof.
  induction 1 as [l x Hx|l y p x Hy Hp IH]; intros out Hall Hl Hn E Hanc.
  - destruct (split_decl c l x out Hx E) as (l1 & l2 & e1 & ex & e2 & -> & _ & Ex & _ & ->).
    split; [now apply Hl|]. exists ex. split; [assumption|].
    intros e He. apply in_app_iff. right. apply in_app_iff. now left.
  - destruct (split_decl c l y out Hy E) as (l1 & l2 & e1 & ey & e2 & -> & E1 & Ey & E2 & ->).
    assert (Hn' : NoDup (map root_id (flatten y))).
    { rewrite flat_map_app in Hn. cbn [flat_map] in Hn. rewrite !map_app in Hn.
      now apply nodup_app_r, nodup_app_l in Hn. }
    rewrite flatten_eq in Hn'. cbn [map] in Hn'. apply NoDup_cons_iff in Hn'. destruct Hn' as [Hny Hnk].
    assert (Hyall : In y (all_decls tu)).
    { apply Hall. apply in_flat_map. exists y. split; [assumption|apply flatten_self]. }
    assert (Hyb : In (root_id y, EBound) ey).
    { apply (emitted_local c l1 y l2 e1 ey e2); try assumption.
      - apply in_map, flatten_self.
      - apply Hanc. now left. }
    assert (Hkids : kids y <> []).
    { intros E0. rewrite E0 in Hp. inversion Hp as [? ? H1|? ? ? ? H1]; subst; destruct H1. }
    destruct (scope y ey Hyall Hkids Hny Ey Hyb) as (Hck & es & Es & ->).
    destruct (IH es) as (Hlx & ex & Ex & Hincl); try assumption.
    + intros z Hz. apply Hall. apply in_flat_map. exists y. split; [assumption|].
      rewrite flatten_eq. now right.
    + intros a Ha.
      assert (Ha2 : In a (map root_id (flat_map flatten (kids y)))) by now apply (at_path_in _ _ _ Hp).
      assert (Ha1 : In (a, EBound) (es ++ [(root_id y, EBound)])).
      { apply (emitted_local c l1 y l2 e1 _ e2); try assumption.
        - rewrite flatten_eq. cbn [map]. now right.
        - apply Hanc. now right. }
      apply in_app_iff in Ha1. destruct Ha1 as [Ha1|[Ha1|[]]]; [assumption|].
      injection Ha1 as <-. contradiction.
    + split; [assumption|]. exists ex. split; [assumption|]. intros e He.
      apply in_app_iff. right. apply in_app_iff. left. apply in_app_iff. left. now apply Hincl.
Qed.

(** An item that stands for a hard error fails the run. *)
Lemma hard_error_fails x ex :
  lookup c (root_id x) = Some (Done (Some (KUnsupported, true))) ->
  g_owned (d_gen (info x)) = true ->
  generate_items (build c x) <> ([], Some ex).
Proof.
  intros Hl Ho E. destruct x as [d cs]. unfold root_id in Hl. cbn [info] in *.
  rewrite build_eq, Hl, Ho in E. cbn [is_unsupported negb andb generate_items] in E.
  apply seq_ok in E. destruct E as (ea & eb & E & _). rewrite generate_item_eq in E.
  cbn [has_target andb] in E. unfold generate_item_impl, generate_unsupported in E.
  cbn [negb andb fst snd] in E. unfold recover in E.
  destruct (g_has_bindings (d_gen d)); cbn [fst snd andb negb is_func_kind] in E; [discriminate|].
  unfold generate_unsupported in E. cbn [negb andb fst snd app] in E. discriminate.
Qed.

End Run.

(** ** More fuel does not change the answer. *)
Lemma import_decl_mono o get get' d ch s r :
  (forall l s s', get l s = Some s' -> get' l s = Some s') ->
  import_decl o get d ch s = Some r -> import_decl o get' d ch s = Some r.
Proof.
  intros Hg. unfold import_decl.
  assert (Hr : forall b r', run_importers o get d ch b s = Some r' -> run_importers o get' d ch b s = Some r').
  { intros b r'. unfold run_importers, import_function.
    destruct (d_class d) as [f|q|q|q].
    - repeat match goal with |- (if ?c then _ else _) = _ -> _ => destruct c; [tauto|] end.
      destruct (get (d_nested d) (set_flag b s)) as [t|] eqn:E; [|discriminate].
      now rewrite (Hg _ _ _ E).
    - destruct (get (d_nested d) s) as [t|] eqn:E; [|discriminate]. now rewrite (Hg _ _ _ E).
    - destruct q; try tauto; (destruct (get ch s) as [t|] eqn:E; [|discriminate]; now rewrite (Hg _ _ _ E)).
    - destruct (get (d_nested d) s) as [t|] eqn:E; [|discriminate]. now rewrite (Hg _ _ _ E). }
  destruct (d_must d); [tauto| |];
    (destruct (transitively_private (d_chain d)); [tauto|];
     destruct (d_dnb d); [tauto|tauto|];
     destruct (d_unavailable d); [tauto|];
     match goal with |- match ?e with _ => _ end = _ -> _ => destruct e as [r'|] eqn:E; [|discriminate] end;
     now rewrite (Hr _ _ E)).
Qed.

Lemma get_all_mono get get' :
  (forall i s s', get i s = Some s' -> get' i s = Some s') ->
  forall l s s', get_all get l s = Some s' -> get_all get' l s = Some s'.
Proof.
  intros Hg. induction l as [|i l IH]; cbn [get_all]; intros s s'; [tauto|].
  destruct (get i s) as [t|] eqn:E; [|discriminate]. rewrite (Hg _ _ _ E). apply IH.
Qed.

Lemma get_item_mono o tu fuel : forall i s s',
  get_item o tu fuel i s = Some s' -> get_item o tu (S fuel) i s = Some s'.
Proof.
  induction fuel as [|fuel IH]; intros i s s'; [discriminate|].
  change (get_item o tu (S (S fuel)) i s) with
    (match lookup (st_cache s) i with
     | Some _ => Some s
     | None => match find_decl tu i with
       | None => Some s
       | Some x => match import_decl o (get_all (get_item o tu (S fuel))) (info x) (map root_id (kids x)) (start i s) with
         | None => None
         | Some (r, st') => let st'' := set_entry i (Done r) st' in
            if is_record (d_class (info x))
            then get_all (get_item o tu (S fuel)) (map root_id (kids x)) st'' else Some st''
         end end end).
  cbn [get_item]. destruct (lookup (st_cache s) i); [tauto|].
  destruct (find_decl tu i) as [x|]; [|tauto].
  destruct (import_decl o (get_all (get_item o tu fuel)) (info x) (map root_id (kids x)) (start i s))
    as [[r t]|] eqn:E; [|discriminate].
  apply (import_decl_mono _ _ (get_all (get_item o tu (S fuel)))) in E; [|apply get_all_mono, IH].
  cbn [get_item] in E. rewrite E. destruct (is_record (d_class (info x))); [|tauto].
  intros H. apply (get_all_mono _ (get_item o tu (S fuel)) IH) in H. exact H.
Qed.

Lemma import_tu_mono o tu n m s :
  n <= m -> import_tu o tu n = Some s -> import_tu o tu m = Some s.
Proof.
  intros H E. induction H as [|m H IH]; [assumption|].
  unfold import_tu in *. revert IH. apply get_all_mono. apply get_item_mono.
Qed.

Lemma import_cache_ok o tu fuel s :
  distinct_ids tu -> import_tu o tu fuel = Some s -> cache_ok o tu (st_cache s).
Proof.
  intros Hn E. pose proof (import_tu_step o tu fuel s E) as Hst. constructor.
  - intros x Hx Hl. destruct (lookup (st_cache s) (root_id x)) as [[|r]|] eqn:El; [| |congruence].
    + apply (s_prog _ _ _ _ _ Hst) in El. discriminate.
    + exists r. split; [reflexivity|].
      destruct (s_new _ _ _ _ _ Hst (root_id x) r eq_refl El) as (y & Hy & Hg & Hk).
      rewrite (find_decl_root tu x Hn Hx) in Hy. injection Hy as <-. split; assumption.
  - intros i r El. destruct (s_new _ _ _ _ _ Hst i r eq_refl El) as (y & Hy & Hg & _). eauto.
  - intros x Hx. apply (s_want _ _ _ _ _ Hst); [now apply in_map|].
    rewrite (find_decl_root tu x Hn); [discriminate|].
    apply in_flat_map. exists x. split; [assumption|apply flatten_self].
Qed.
