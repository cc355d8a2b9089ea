(** The import: what the cache holds in the end. *)
From Coq Require Import List Bool Arith Lia.
From Verif.MustBind Require Import Model Spec.
Import ListNotations.

Section Decl_ind.
  Variable P : decl -> Prop.
  Hypothesis H : forall d cs, Forall P cs -> P (Decl d cs).
  Fixpoint decl_ind' (x : decl) : P x :=
    match x with
    | Decl d cs =>
        H d cs ((fix go (l : list decl) : Forall P l :=
                   match l with
                   | [] => Forall_nil _
                   | y :: l' => Forall_cons _ (decl_ind' y) (go l')
                   end) cs)
    end.
End Decl_ind.

Lemma flatten_eq x : flatten x = x :: flat_map flatten (kids x).
Proof.
  destruct x as [d cs]. reflexivity.
Qed.

Lemma flatten_self x : In x (flatten x).
Proof. rewrite flatten_eq. now left. Qed.

Lemma kid_in_flatten x y z : In y (kids z) -> In z (flatten x) -> In y (flatten x).
Proof.
  revert y z. induction x as [d cs IH] using decl_ind'. intros y z Hy Hz.
  rewrite flatten_eq in *. cbn [kids] in *. destruct Hz as [<-|Hz].
  - right. apply in_flat_map. exists y. split; [assumption|apply flatten_self].
  - right. apply in_flat_map in Hz. destruct Hz as (w & Hw & Hz).
    apply in_flat_map. exists w. split; [assumption|].
    rewrite Forall_forall in IH. exact (IH w Hw y z Hy Hz).
Qed.

Lemma kid_in_all tu x y : In x (all_decls tu) -> In y (kids x) -> In y (all_decls tu).
Proof.
  unfold all_decls. rewrite !in_flat_map. intros (w & Hw & Hx) Hy.
  exists w. split; [assumption|]. now apply (kid_in_flatten w y x).
Qed.

Lemma find_some tu i x : find_decl tu i = Some x -> In x (all_decls tu) /\ root_id x = i.
Proof.
  unfold find_decl. intros E. apply find_some in E. destruct E as [A B].
  now apply Nat.eqb_eq in B.
Qed.

Lemma find_none tu i x : find_decl tu i = None -> In x (all_decls tu) -> root_id x <> i.
Proof.
  unfold find_decl. intros E Hx Heq. apply (find_none _ _ E) in Hx.
  apply Nat.eqb_neq in Hx. congruence.
Qed.

Lemma nodup_map_inj {A B} (f : A -> B) l x y :
  NoDup (map f l) -> In x l -> In y l -> f x = f y -> x = y.
Proof.
  induction l as [|z l IH]; cbn [map]; intros Hn Hx Hy E; [destruct Hx|].
  apply NoDup_cons_iff in Hn. destruct Hn as [Hz Hn].
  destruct Hx as [->|Hx]; destruct Hy as [->|Hy].
  - reflexivity.
  - exfalso. apply Hz. rewrite E. now apply in_map.
  - exfalso. apply Hz. rewrite <- E. now apply in_map.
  - now apply IH.
Qed.

Lemma find_decl_root tu x :
  distinct_ids tu -> In x (all_decls tu) -> find_decl tu (root_id x) = Some x.
Proof.
  intros Hn Hx. destruct (find_decl tu (root_id x)) as [y|] eqn:E.
  - apply find_some in E. destruct E as [Hy E]. f_equal.
    now apply (nodup_map_inj root_id (all_decls tu)).
  - exfalso. apply (find_none _ _ x E Hx eq_refl).
Qed.

Section Import.
Variables (o : options) (tu : list decl).

(** The flag after a list of requests. *)
Definition flagrel (l : list nat) (s s' : state) : Prop :=
  st_flag s' = st_flag s \/
  exists i y f, In i l /\ In y (all_decls tu) /\ reaches tu i (root_id y) /\
    d_class (info y) = DFunction f /\ st_flag s' = is_set (d_must (info y)).

Lemma flagrel_refl l s s' : st_flag s' = st_flag s -> flagrel l s s'.
Proof. now left. Qed.

Lemma flagrel_trans l1 l2 a b c :
  flagrel l1 a b -> flagrel l2 b c -> flagrel (l1 ++ l2) a c.
Proof.
  intros H1 [H2|(i & y & f & Hi & H2)].
  - destruct H1 as [H1|(i & y & f & Hi & Hy & Hr & Hc & E)].
    + left. congruence.
    + right. exists i, y, f. repeat split; try assumption.
      * apply in_or_app. now left.
      * congruence.
  - right. exists i, y, f. split; [apply in_or_app; now right|assumption].
Qed.

Definition good (x : decl) (r : option shell) : Prop :=
  exists get s0 s1,
    (forall l s s', get l s = Some s' -> flagrel l s s') /\
    import_decl o get (info x) (map root_id (kids x)) s0 = Some (r, s1).

Definition kept_children (r : option shell) : Prop :=
  exists k m, r = Some (k, m) /\ keeps_children k = true.

Definition cached (s : state) (i : nat) : Prop := lookup (st_cache s) i <> None.

Record step (l : list nat) (s s' : state) : Prop := {
  s_mono : forall i, cached s i -> cached s' i;
  s_done : forall i r, lookup (st_cache s) i = Some (Done r) ->
                       lookup (st_cache s') i = Some (Done r);
  s_prog : forall i, lookup (st_cache s') i = Some InProgress <->
                     lookup (st_cache s) i = Some InProgress;
  s_new : forall i r, lookup (st_cache s) i = None ->
            lookup (st_cache s') i = Some (Done r) ->
            exists x, find_decl tu i = Some x /\ good x r /\
              (kept_children r -> forall y, In y (kids x) -> cached s' (root_id y));
  s_flag : flagrel l s s';
  s_want : forall i, In i l -> find_decl tu i <> None -> cached s' i;
  s_log : (NoDup (st_log s) /\ forall i, In i (st_log s) <-> cached s i) ->
          NoDup (st_log s') /\ forall i, In i (st_log s') <-> cached s' i
}.

Lemma step_refl s : step [] s s.
Proof.
  constructor; try tauto.
  - intros i r H1 H2. rewrite H1 in H2. discriminate.
  - now left.
  - intros i [].
Qed.

Lemma step_trans l1 l2 a b c : step l1 a b -> step l2 b c -> step (l1 ++ l2) a c.
Proof.
  intros H1 H2. constructor.
  - intros i Hi. now apply (s_mono _ _ _ H2), (s_mono _ _ _ H1).
  - intros i r Hi. now apply (s_done _ _ _ H2), (s_done _ _ _ H1).
  - intros i. rewrite (s_prog _ _ _ H2). apply (s_prog _ _ _ H1).
  - intros i r Hn Hd. destruct (lookup (st_cache b) i) as [[|r']|] eqn:E.
    + apply (s_prog _ _ _ H1) in E. congruence.
    + pose proof (s_done _ _ _ H2 i r' E) as E'. rewrite Hd in E'. injection E' as <-.
      destruct (s_new _ _ _ H1 i r Hn E) as (x & Hx & Hg & Hk).
      exists x. split; [assumption|]. split; [assumption|].
      intros Hc y Hy. apply (s_mono _ _ _ H2). now apply Hk.
    + exact (s_new _ _ _ H2 i r E Hd).
  - apply (flagrel_trans _ _ a b c); [apply (s_flag _ _ _ H1)|apply (s_flag _ _ _ H2)].
  - intros i Hi Hf. apply in_app_iff in Hi. destruct Hi as [Hi|Hi].
    + apply (s_mono _ _ _ H2). now apply (s_want _ _ _ H1).
    + now apply (s_want _ _ _ H2).
  - intros Hl. now apply (s_log _ _ _ H2), (s_log _ _ _ H1).
Qed.

Lemma get_all_step get :
  (forall i s s', get i s = Some s' -> step [i] s s') ->
  forall l s s', get_all get l s = Some s' -> step l s s'.
Proof.
  intros Hg. induction l as [|i l IH]; cbn [get_all]; intros s s' E.
  - injection E as <-. apply step_refl.
  - destruct (get i s) as [s1|] eqn:E1; [|discriminate].
    apply (step_trans [i] l s s1 s'); [now apply Hg|now apply IH].
Qed.

(** How the state changes during [import_decl]. *)
Lemma import_state get d ch s r s' :
  import_decl o get d ch s = Some (r, s') ->
  exists s0, (s0 = s \/ (is_function (d_class d) = true /\ s0 = set_flag (is_set (d_must d)) s)) /\
    (s' = s0 \/
     get (d_nested d) s0 = Some s' \/
     (exists q, d_class d = DNamespace q /\ get ch s0 = Some s')).
Proof.
  unfold import_decl. intros E.
  assert (Hbase : s' = s -> exists s0, (s0 = s \/ (is_function (d_class d) = true /\ s0 = set_flag (is_set (d_must d)) s)) /\
    (s' = s0 \/ get (d_nested d) s0 = Some s' \/
     (exists q, d_class d = DNamespace q /\ get ch s0 = Some s'))).
  { intros ->. exists s. split; now left. }
  assert (Hrun : forall r0 s'', run_importers o get d ch (is_set (d_must d)) s = Some (r0, s'') ->
    exists s0, (s0 = s \/ (is_function (d_class d) = true /\ s0 = set_flag (is_set (d_must d)) s)) /\
    (s'' = s0 \/ get (d_nested d) s0 = Some s'' \/
     (exists q, d_class d = DNamespace q /\ get ch s0 = Some s''))).
  { intros r0 s''. unfold run_importers.
    destruct (d_class d) as [f|q|q|q] eqn:Ec.
    - unfold import_function. intros E'.
      exists (set_flag (is_set (d_must d)) s). split; [right; split; reflexivity|].
      repeat match type of E' with
             | (if ?b then _ else _) = _ => destruct b; [injection E' as _ <-; now left|]
             end.
      destruct (get (d_nested d) (set_flag (is_set (d_must d)) s)) as [t|] eqn:Eg; [|discriminate].
      destruct (ff_late f); injection E' as _ <-; right; left; (assumption || reflexivity).
    - destruct (get (d_nested d) s) as [t|] eqn:Eg; [|discriminate]. intros E'.
      exists s. split; [now left|]. injection E' as _ <-. right; left; (assumption || reflexivity).
    - intros E'. exists s. split; [now left|]. destruct q.
      + destruct (get ch s) as [t|] eqn:Eg; [|discriminate]. injection E' as _ <-.
        right; right. now exists NOk.
      + injection E' as _ <-. now left.
      + destruct (get ch s) as [t|] eqn:Eg; [|discriminate]. injection E' as _ <-.
        right; right. now exists NLate.
    - destruct (get (d_nested d) s) as [t|] eqn:Eg; [|discriminate]. intros E'.
      exists s. split; [now left|]. injection E' as _ <-. right; left; (assumption || reflexivity). }
  destruct (d_must d) eqn:Em.
  - injection E as _ <-. now apply Hbase.
  - cbn [is_set] in *.
    destruct (transitively_private (d_chain d)); [injection E as _ <-; now apply Hbase|].
    destruct (d_dnb d); [injection E as _ <-; now apply Hbase|injection E as _ <-; now apply Hbase|].
    destruct (d_unavailable d); [injection E as _ <-; now apply Hbase|].
    destruct (run_importers o get d ch true s) as [[[sh|] t]|] eqn:Er; [| |discriminate];
      injection E as _ <-; now apply (Hrun _ _ eq_refl).
  - cbn [is_set] in *.
    destruct (transitively_private (d_chain d)); [injection E as _ <-; now apply Hbase|].
    destruct (d_dnb d); [injection E as _ <-; now apply Hbase| |].
    { destruct (d_named d && negb (is_function (d_class d)) && negb (d_allowlisted d));
        injection E as _ <-; now apply Hbase. }
    destruct (d_unavailable d); [injection E as _ <-; now apply Hbase|].
    destruct (run_importers o get d ch false s) as [[[sh|] t]|] eqn:Er; [| |discriminate];
      injection E as _ <-; now apply (Hrun _ _ eq_refl).
Qed.

Lemma set_must_kind s : fst (set_must_bind s) = fst s.
Proof. destruct s as [[] m]; reflexivity. Qed.

(** Which declarations get a record or a namespace item. *)
Lemma import_keeps get d ch s r s' :
  import_decl o get d ch s = Some (r, s') -> kept_children r ->
  is_record (d_class d) = true \/ get ch s = Some s'.
Proof.
  unfold import_decl, kept_children. intros E (k & m & -> & Hk).
  assert (Hrun : forall b sh t, run_importers o get d ch b s = Some (Some sh, t) ->
     keeps_children (fst sh) = true -> is_record (d_class d) = true \/ get ch s = Some t).
  { intros b sh t. unfold run_importers.
    destruct (d_class d) as [f|q|q|q].
    - unfold import_function. intros E' Hk'. exfalso.
      repeat match type of E' with
             | (if ?b then _ else _) = _ =>
                 destruct b; [try discriminate; injection E' as <- _; cbn in Hk'; discriminate|]
             end.
      destruct (get (d_nested d) (set_flag b s)) as [t'|]; [|discriminate].
      destruct (ff_late f); injection E' as <- _; discriminate.
    - now left.
    - intros E' Hk'. right. destruct q.
      + destruct (get ch s); [|discriminate]. now injection E' as _ <-.
      + injection E' as <- _. discriminate.
      + destruct (get ch s); [|discriminate]. injection E' as <- _. discriminate.
    - intros E' Hk'. exfalso. destruct (get (d_nested d) s); [|discriminate].
      destruct q as [[]|]; try discriminate; injection E' as <- _; discriminate. }
  destruct (d_must d).
  - injection E as <- _ _. discriminate.
  - cbn [is_set] in E.
    destruct (transitively_private (d_chain d)); [injection E as <- _ _; discriminate|].
    destruct (d_dnb d); [injection E as <- _ _; discriminate|injection E as <- _ _; discriminate|].
    destruct (d_unavailable d); [injection E as <- _ _; discriminate|].
    destruct (run_importers o get d ch true s) as [[[sh|] t]|] eqn:Er; [| |discriminate].
    + injection E as E ->. apply (Hrun true sh s' Er).
      rewrite <- (set_must_kind sh), E. exact Hk.
    + injection E as <- _ _. discriminate.
  - cbn [is_set] in E.
    destruct (transitively_private (d_chain d)); [discriminate|].
    destruct (d_dnb d); [injection E as <- _ _; discriminate| |].
    { destruct (d_named d && negb (is_function (d_class d)) && negb (d_allowlisted d));
        [injection E as <- _ _; discriminate|discriminate]. }
    destruct (d_unavailable d); [injection E as <- _ _; discriminate|].
    destruct (run_importers o get d ch false s) as [[[sh|] t]|] eqn:Er; [| |discriminate].
    + injection E as -> ->. now apply (Hrun false (k, m) s' Er).
    + discriminate.
Qed.

Lemma lookup_cons i j e c : lookup ((j, e) :: c) i = if i =? j then Some e else lookup c i.
Proof. reflexivity. Qed.

Lemma get_item_step fuel : forall i s s', get_item o tu fuel i s = Some s' -> step [i] s s'.
Proof.
  induction fuel as [|fuel IH]; cbn [get_item]; intros i s s' E; [discriminate|].
  destruct (lookup (st_cache s) i) as [e|] eqn:El.
  { injection E as <-. pose proof (step_refl s) as H. constructor; try apply H.
    - now left.
    - intros j [<-|[]] _. unfold cached. congruence. }
  destruct (find_decl tu i) as [x|] eqn:Ef.
  2:{ injection E as <-. pose proof (step_refl s) as H. constructor; try apply H.
      - now left.
      - intros j [<-|[]] Hf. congruence. }
  destruct (import_decl o (get_all (get_item o tu fuel)) (info x) (map root_id (kids x)) (start i s))
    as [[r s1]|] eqn:Ei; [|discriminate].
  assert (Hx := find_some _ _ _ Ef). destruct Hx as [Hx Hroot].
  pose proof (get_all_step (get_item o tu fuel) IH) as Hall.
  assert (Hgood : good x r).
  { exists (get_all (get_item o tu fuel)), (start i s), s1. split; [|exact Ei].
    intros l t t' Et. apply (s_flag _ _ _ (Hall l t t' Et)). }
  (* from the started state to the state after import_decl *)
  assert (Hs1 : exists l s0, step l s0 s1 /\ st_cache s0 = st_cache (start i s) /\
             st_log s0 = st_log (start i s) /\
             flagrel [i] s s1 /\
             (kept_children r -> is_record (d_class (info x)) = false ->
              forall y, In y (kids x) -> cached s1 (root_id y))).
  { pose proof (import_state _ _ _ _ _ _ Ei) as (s0 & H0 & H1).
    assert (Hf0 : flagrel [i] s s0).
    { destruct H0 as [->|[Hfun ->]]; [now left|]. right.
      destruct (d_class (info x)) as [f| | |] eqn:Ec; try discriminate.
      exists i, x, f. split; [now left|]. split; [assumption|].
      split; [rewrite <- Hroot; now apply rc_self|]. now split. }
    assert (Hc0 : st_cache s0 = st_cache (start i s) /\ st_log s0 = st_log (start i s)).
    { destruct H0 as [->|[_ ->]]; now split. }
    assert (Hk : kept_children r -> is_record (d_class (info x)) = false ->
              forall y, In y (kids x) -> cached s1 (root_id y)).
    { intros Hkr Hnr y Hy. destruct (import_keeps _ _ _ _ _ _ Ei Hkr) as [Hr|Hg]; [congruence|].
      apply (s_want _ _ _ (Hall _ _ _ Hg)); [now apply in_map|].
      intros Hnone. apply (find_none _ _ y Hnone); [now apply (kid_in_all tu x)|reflexivity]. }
    assert (Hlift : forall l, (forall j, In j l -> forall z, reaches tu j z -> reaches tu i z) ->
               flagrel l s0 s1 -> flagrel [i] s s1).
    { intros l Hl [E1|(j & y & f & Hj & Hy & Hr & Hc & E1)].
      - destruct Hf0 as [E0|(j & y & f & Hj & Hy & Hr & Hc & E0)].
        + left. congruence.
        + right. exists j, y, f. repeat split; try assumption. congruence.
      - right. exists i, y, f. split; [now left|]. split; [assumption|].
        split; [now apply (Hl j Hj)|]. now split. }
    destruct H1 as [->|[H1|(q & Hq & H1)]].
    - exists [], s0. split; [apply step_refl|]. tauto.
    - exists (d_nested (info x)), s0. pose proof (Hall _ _ _ H1) as Hst.
      split; [assumption|]. split; [tauto|]. split; [tauto|]. split; [|assumption].
      apply (Hlift (d_nested (info x))); [|apply (s_flag _ _ _ Hst)].
      intros j Hj z Hz. rewrite <- Hroot. now apply (rc_mention tu x j z).
    - exists (map root_id (kids x)), s0. pose proof (Hall _ _ _ H1) as Hst.
      split; [assumption|]. split; [tauto|]. split; [tauto|]. split; [|assumption].
      apply (Hlift (map root_id (kids x))); [|apply (s_flag _ _ _ Hst)].
      intros j Hj z Hz. apply in_map_iff in Hj. destruct Hj as (y & <- & Hy).
      rewrite <- Hroot. now apply (rc_member tu x y z). }
  destruct Hs1 as (l & s0 & Hst & Hc0 & Hl0 & Hf1 & Hk1).
  set (s2 := set_entry i (Done r) s1) in *.
  assert (Hi1 : lookup (st_cache s1) i = Some InProgress).
  { apply (s_prog _ _ _ Hst). rewrite Hc0. cbn [start st_cache]. rewrite lookup_cons.
    now rewrite Nat.eqb_refl. }
  (* the step to s2, except for the children of a record *)
  assert (Hcl : forall j, j <> i -> lookup (st_cache s0) j = lookup (st_cache s) j).
  { intros j Hj. rewrite Hc0. cbn [start st_cache]. rewrite lookup_cons.
    now apply Nat.eqb_neq in Hj as ->. }
  assert (Hc2 : forall j, lookup (st_cache s2) j = if j =? i then Some (Done r) else lookup (st_cache s1) j)
    by reflexivity.
  assert (M2 : forall j, cached s1 j -> cached s2 j).
  { intros j Hj. unfold cached in *. rewrite Hc2. now destruct (j =? i). }
  assert (Hlog2 : (NoDup (st_log s) /\ forall j, In j (st_log s) <-> cached s j) ->
          NoDup (st_log s2) /\ forall j, In j (st_log s2) <-> cached s2 j).
  { intros [Hn Hlog]. destruct (s_log _ _ _ Hst) as [Hn1 Hlog1].
    - rewrite Hl0. cbn [start st_log]. split.
      + apply NoDup_cons; [|assumption]. rewrite Hlog. unfold cached. congruence.
      + intros j. unfold cached. destruct (Nat.eq_dec j i) as [->|Hj].
        * split; [|now left]. intros _. rewrite Hc0. cbn [start st_cache].
          rewrite lookup_cons, Nat.eqb_refl. discriminate.
        * rewrite (Hcl j Hj). specialize (Hlog j). unfold cached in Hlog. rewrite <- Hlog.
          cbn [In]. split; [intros [->|]; [congruence|assumption]|now right].
    - split; [exact Hn1|]. intros j.
      change (In j (st_log s2)) with (In j (st_log s1)). rewrite (Hlog1 j).
      unfold cached. rewrite Hc2. destruct (j =? i) eqn:Ej; [|tauto].
      apply Nat.eqb_eq in Ej. subst j. rewrite Hi1. split; discriminate. }
  assert (Hmid : forall s3, step (map root_id (kids x)) s2 s3 \/ (s3 = s2 /\ is_record (d_class (info x)) = false) ->
            step [i] s s3).
  { intros s3 H3.
    assert (R : exists lx, step lx s2 s3 /\ (lx = map root_id (kids x) \/ lx = [])).
    { destruct H3 as [H3|[-> _]]; eexists; (split; [eassumption || apply step_refl|tauto]). }
    destruct R as (lx & Hst3 & Hlx).
    assert (Hk3 : kept_children r -> forall y, In y (kids x) -> cached s3 (root_id y)).
    { intros Hkr y Hy. destruct H3 as [H3|[-> Hnr]].
      - apply (s_want _ _ _ H3); [now apply in_map|].
        intros Hnone. apply (find_none _ _ y Hnone); [now apply (kid_in_all tu x)|reflexivity].
      - apply M2. now apply Hk1. }
    constructor.
    - intros j Hj. apply (s_mono _ _ _ Hst3), M2, (s_mono _ _ _ Hst).
      unfold cached in *. rewrite Hc0. cbn [start st_cache]. rewrite lookup_cons.
      now destruct (j =? i).
    - intros j rj Hj. apply (s_done _ _ _ Hst3). rewrite Hc2.
      destruct (j =? i) eqn:Ej; [apply Nat.eqb_eq in Ej; congruence|].
      apply (s_done _ _ _ Hst). rewrite Hcl; [assumption|now apply Nat.eqb_neq].
    - intros j. rewrite (s_prog _ _ _ Hst3). rewrite Hc2. destruct (j =? i) eqn:Ej.
      + apply Nat.eqb_eq in Ej. subst j. rewrite El. split; discriminate.
      + rewrite (s_prog _ _ _ Hst). rewrite Hcl; [tauto|now apply Nat.eqb_neq].
    - intros j rj Hj Hd. destruct (Nat.eq_dec j i) as [->|Hji].
      + assert (E2 : lookup (st_cache s2) i = Some (Done r)) by (rewrite Hc2, Nat.eqb_refl; reflexivity).
        pose proof (s_done _ _ _ Hst3 i r E2) as E3. rewrite Hd in E3. injection E3 as ->.
        exists x. split; [assumption|]. split; assumption.
      + destruct (lookup (st_cache s1) j) as [[|rj']|] eqn:Ej1.
        * apply (s_prog _ _ _ Hst) in Ej1. rewrite (Hcl j Hji) in Ej1. congruence.
        * assert (E2 : lookup (st_cache s2) j = Some (Done rj')).
          { rewrite Hc2. apply Nat.eqb_neq in Hji as ->. exact Ej1. }
          pose proof (s_done _ _ _ Hst3 j rj' E2) as E3. rewrite Hd in E3. injection E3 as ->.
          destruct (s_new _ _ _ Hst j rj') as (y & Hy & Hgy & Hky).
          { now rewrite Hcl. }
          { assumption. }
          exists y. split; [assumption|]. split; [assumption|]. intros Hkr z Hz.
          apply (s_mono _ _ _ Hst3), M2. now apply Hky.
        * apply (s_new _ _ _ Hst3 j rj); [|assumption]. rewrite Hc2.
          now apply Nat.eqb_neq in Hji as ->.
    - assert (F2 : flagrel [i] s s2).
      { destruct Hf1 as [E1|E1]; [now left|now right]. }
      assert (F3 := s_flag _ _ _ Hst3).
      destruct F3 as [E3|(j & y & f & Hj & Hy & Hr & Hc & E3)].
      + destruct F2 as [E2|(j & y & f & Hj & Hy & Hr & Hc & E2)].
        * left. congruence.
        * right. exists j, y, f. repeat split; try assumption. congruence.
      + right. exists i, y, f. split; [now left|]. split; [assumption|].
        split; [|now split]. destruct Hlx as [-> | ->]; [|destruct Hj].
        apply in_map_iff in Hj. destruct Hj as (z & <- & Hz). rewrite <- Hroot.
        now apply (rc_member tu x z).
    - intros j [<-|[]] _. apply (s_mono _ _ _ Hst3). unfold cached. rewrite Hc2, Nat.eqb_refl.
      discriminate.
    - intros Hlog. apply (s_log _ _ _ Hst3). now apply Hlog2. }
  destruct (is_record (d_class (info x))) eqn:Erec.
  - apply Hmid. left. now apply Hall.
  - injection E as <-. apply Hmid. right. now split.
Qed.

Lemma import_tu_step fuel s :
  import_tu o tu fuel = Some s -> step (map root_id tu) init s.
Proof. intros E. apply (get_all_step (get_item o tu fuel)); [apply get_item_step|exact E]. Qed.

(** ** Termination. *)
Definition uncached (s : state) : nat :=
  length (filter (fun x => match lookup (st_cache s) (root_id x) with None => true | _ => false end)
            (all_decls tu)).

Lemma filter_le {A} (p q : A -> bool) l :
  (forall x, In x l -> p x = true -> q x = true) -> length (filter p l) <= length (filter q l).
Proof.
  induction l as [|a l IH]; intros H; [apply Nat.le_refl|].
  assert (IH' : length (filter p l) <= length (filter q l)) by (apply IH; intros; apply H; [now right|assumption]).
  cbn [filter]. destruct (p a) eqn:Ep.
  - rewrite (H a (or_introl eq_refl) Ep). cbn [length]. lia.
  - destruct (q a); cbn [length]; lia.
Qed.

Lemma filter_lt {A} (p q : A -> bool) l a :
  (forall x, In x l -> p x = true -> q x = true) -> In a l -> p a = false -> q a = true ->
  length (filter p l) < length (filter q l).
Proof.
  induction l as [|b l IH]; intros H Ha Hp Hq; [destruct Ha|].
  cbn [filter]. destruct Ha as [->|Ha].
  - rewrite Hp, Hq. cbn [length].
    assert (length (filter p l) <= length (filter q l)) by (apply filter_le; intros; apply H; [now right|assumption]).
    lia.
  - assert (IH' : length (filter p l) < length (filter q l))
      by (apply IH; try assumption; intros; apply H; [now right|assumption]).
    destruct (p b) eqn:Ep.
    + rewrite (H b (or_introl eq_refl) Ep). cbn [length]. lia.
    + destruct (q b); cbn [length]; lia.
Qed.

Lemma uncached_mono s s' : (forall i, cached s i -> cached s' i) -> uncached s' <= uncached s.
Proof.
  intros H. apply filter_le. intros x _. intros E.
  destruct (lookup (st_cache s) (root_id x)) eqn:E0; [|reflexivity].
  exfalso. assert (Hc : cached s' (root_id x)) by (apply H; unfold cached; congruence).
  unfold cached in Hc. now destruct (lookup (st_cache s') (root_id x)).
Qed.

Lemma get_all_total get n :
  (forall i s, uncached s < n -> exists s', get i s = Some s') ->
  (forall i s s', get i s = Some s' -> step [i] s s') ->
  forall l s, uncached s < n -> exists s', get_all get l s = Some s'.
Proof.
  intros Ht Hs. induction l as [|i l IH]; intros s Hn; cbn [get_all].
  - now exists s.
  - destruct (Ht i s Hn) as (s1 & E1). rewrite E1. apply IH.
    pose proof (uncached_mono s s1 (s_mono _ _ _ (Hs i s s1 E1))). lia.
Qed.

Lemma import_total get d ch s n :
  (forall l s, uncached s < n -> exists s', get l s = Some s') ->
  uncached s < n -> exists r s', import_decl o get d ch s = Some (r, s').
Proof.
  intros Hg Hn. unfold import_decl.
  assert (Hr : forall b, exists r s', run_importers o get d ch b s = Some (r, s')).
  { intros b. unfold run_importers.
    destruct (Hg (d_nested d) s Hn) as (s1 & E1). destruct (Hg ch s Hn) as (s2 & E2).
    assert (Hn' : uncached (set_flag b s) < n) by exact Hn.
    destruct (Hg (d_nested d) _ Hn') as (s3 & E3).
    destruct (d_class d) as [f|q|q|q].
    - unfold import_function. rewrite E3.
      repeat match goal with |- context [if ?c then _ else _] => destruct c end; eauto.
    - rewrite E1. eauto.
    - rewrite E2. destruct q; eauto.
    - rewrite E1. eauto. }
  destruct (d_must d).
  - eauto.
  - destruct (transitively_private (d_chain d)); [eauto|]. destruct (d_dnb d); eauto.
    + cbn [is_set]. eauto.
    + destruct (d_unavailable d); [eauto|]. destruct (Hr (is_set ASet)) as (r & s' & E). rewrite E.
      destruct r; eauto.
  - destruct (transitively_private (d_chain d)); [eauto|]. destruct (d_dnb d); eauto.
    + cbn [is_set]. destruct (d_named d && negb (is_function (d_class d)) && negb (d_allowlisted d)); eauto.
    + destruct (d_unavailable d); [eauto|]. destruct (Hr (is_set AUnset)) as (r & s' & E). rewrite E.
      destruct r; eauto.
Qed.

Lemma get_item_total fuel : forall i s, uncached s < fuel -> exists s', get_item o tu fuel i s = Some s'.
Proof.
  induction fuel as [|fuel IH]; intros i s Hn; [lia|]. cbn [get_item].
  destruct (lookup (st_cache s) i) as [e|] eqn:El; [eauto|].
  destruct (find_decl tu i) as [x|] eqn:Ef; [|eauto].
  assert (Hx := find_some _ _ _ Ef). destruct Hx as [Hx Hroot].
  assert (Hlt : uncached (start i s) < fuel).
  { assert (uncached (start i s) < uncached s); [|lia].
    apply (filter_lt _ _ _ x).
    - intros z _. cbn [start st_cache]. rewrite lookup_cons.
      destruct (root_id z =? i); [discriminate|tauto].
    - assumption.
    - cbn [start st_cache]. rewrite lookup_cons, Hroot, Nat.eqb_refl. reflexivity.
    - now rewrite Hroot, El. }
  pose proof (get_all_total (get_item o tu fuel) fuel IH (get_item_step fuel)) as Hall.
  destruct (import_total (get_all (get_item o tu fuel)) (info x) (map root_id (kids x)) (start i s) fuel Hall Hlt)
    as (r & s1 & Ei). rewrite Ei.
  destruct (is_record (d_class (info x))); [|eauto].
  apply Hall. apply (Nat.le_lt_trans _ (uncached (start i s))); [|exact Hlt].
  apply uncached_mono. intros j Hj.
  assert (Hs1 : cached s1 j).
  { destruct (import_state _ _ _ _ _ _ Ei) as (s0 & H0 & H1).
    assert (Hj0 : cached s0 j) by (destruct H0 as [->|[_ ->]]; exact Hj).
    destruct H1 as [->|[H1|(q & _ & H1)]]; [assumption| |];
      apply (s_mono _ _ _ (get_all_step _ (get_item_step fuel) _ _ _ H1)); exact Hj0. }
  unfold cached in *. cbn [set_entry st_cache]. rewrite lookup_cons. now destruct (j =? i).
Qed.

Lemma import_tu_total : exists s, import_tu o tu (S (length (all_decls tu))) = Some s.
Proof.
  apply (get_all_total (get_item o tu (S (length (all_decls tu)))) (S (length (all_decls tu)))).
  - intros i s Hn. now apply get_item_total.
  - intros i s s' E. now apply (get_item_step (S (length (all_decls tu)))).
  - apply Nat.lt_succ_r. unfold uncached.
    transitivity (length (filter (fun _ => true) (all_decls tu))).
    + apply filter_le. reflexivity.
    + clear. induction (all_decls tu) as [|a l IH]; [apply Nat.le_refl|cbn [filter length]; lia].
Qed.

(** ** What the results look like. *)
Definition tracked (k : kind) : bool :=
  match k with
  | KRecord | KFunc | KEnum | KTypeAlias | KComment | KUnsupported | KNamespace | KUseMod => true
  | _ => false
  end.

(** Which item kinds a declaration may get. *)
Definition kind_ok (d : dinfo) (k : kind) : Prop :=
  k = KUnsupported \/
  match d_class d with
  | DFunction _ => k = KFunc
  | DRecord (Some RRecord) => k = KRecord
  | DRecord (Some RIncomplete) => k = KIncompleteRecord
  | DRecord (Some RExisting) => k = KExistingRustType
  | DRecord _ => False
  | DNamespace _ => k = KNamespace
  | DOther (Some OEnum) => k = KEnum
  | DOther (Some OConstant) => k = KConstant
  | DOther (Some OGlobalVar) => k = KGlobalVar
  | DOther (Some OAlias) => k = KTypeAlias
  | DOther (Some OUseMod) => k = KUseMod
  | DOther (Some OExisting) => k = KExistingRustType
  | DOther _ => False
  end.

Lemma run_importers_kind get d ch b s k m s' :
  run_importers o get d ch b s = Some (Some (k, m), s') -> kind_ok d k.
Proof.
  unfold run_importers, kind_ok. destruct (d_class d) as [f|q|q|q].
  - unfold import_function, unsupported. intros E.
    repeat match type of E with
           | (if ?b then _ else _) = _ => destruct b; [try discriminate; injection E as <- _ _; now left|]
           end.
    destruct (get (d_nested d) (set_flag b s)); [|discriminate].
    destruct (ff_late f); injection E as <- _ _; [now left|now right].
  - destruct (get (d_nested d) s); [|discriminate].
    destruct q as [[]|]; try discriminate; intros E; injection E as <- _ _; auto.
  - destruct q; try (destruct (get ch s); [|discriminate]); intros E; injection E as <- _ _; auto.
  - destruct (get (d_nested d) s); [|discriminate].
    destruct q as [[]|]; try discriminate; intros E; injection E as <- _ _; auto.
Qed.

Lemma set_must_bind_ok k m k' m' :
  set_must_bind (k, m) = (k', m') -> k' = k /\ (tracked k = true -> m' = true).
Proof. destruct k; cbn; intros E; injection E as <- <-; split; auto; discriminate. Qed.

Lemma annotated_result x r :
  good x r -> d_must (info x) = ASet ->
  exists k m, r = Some (k, m) /\ kind_ok (info x) k /\ (tracked k = true -> m = true).
Proof.
  intros (get & s0 & s1 & _ & E) Hm. unfold import_decl in E. rewrite Hm in E. cbn [is_set] in E.
  assert (HU : r = Some (hard_error o) ->
    exists k m, r = Some (k, m) /\ kind_ok (info x) k /\ (tracked k = true -> m = true)).
  { intros ->. exists KUnsupported, true. split; [reflexivity|]. split; [now left|reflexivity]. }
  destruct (transitively_private (d_chain (info x))); [injection E as <- _; now apply HU|].
  destruct (d_dnb (info x)); [injection E as <- _; now apply HU|injection E as <- _; now apply HU|].
  destruct (d_unavailable (info x)); [injection E as <- _; now apply HU|].
  destruct (run_importers o get (info x) (map root_id (kids x)) true s0) as [[[[k m]|] t]|] eqn:Er;
    [| |discriminate].
  - injection E as <- _. pose proof (run_importers_kind _ _ _ _ _ _ _ _ Er) as Hk.
    destruct (set_must_bind (k, m)) as [k' m'] eqn:Es.
    destruct (set_must_bind_ok _ _ _ _ Es) as [-> Hm']. exists k, m'.
    split; [change (Some (set_must_bind (k, m)) = Some (k, m')); now rewrite Es|].
    split; assumption.
  - injection E as <- _. now apply HU.
Qed.

Lemma kind_result x r k m :
  good x r -> r = Some (k, m) -> kind_ok (info x) k.
Proof.
  intros (get & s0 & s1 & _ & E) ->. unfold import_decl in E.
  assert (HU : forall b t, Some (unsupported o b) = Some (k, m) -> @eq state t t -> kind_ok (info x) k).
  { intros b t Eu _. injection Eu as <- _. now left. }
  assert (Hrun : forall b t, run_importers o get (info x) (map root_id (kids x)) b s0 = Some (Some (k, m), t)
                 -> kind_ok (info x) k).
  { intros b t. apply run_importers_kind. }
  assert (HH : hard_error o = (k, m) -> kind_ok (info x) k).
  { intros Eh. injection Eh as <- _. now left. }
  assert (HH2 : forall b, unsupported o b = (k, m) -> kind_ok (info x) k).
  { intros b Eh. injection Eh as <- _. now left. }
  destruct (d_must (info x)).
  - injection E as <- _ _. now left.
  - cbn [is_set] in E.
    destruct (transitively_private (d_chain (info x))); [injection E as <- _ _; now left|].
    destruct (d_dnb (info x)); [injection E as <- _ _; now left|injection E as <- _ _; now left|].
    destruct (d_unavailable (info x)); [injection E as <- _ _; now left|].
    destruct (run_importers o get (info x) (map root_id (kids x)) true s0) as [[[[k' m']|] t]|] eqn:Er;
      [| |discriminate].
    + injection E as E _. destruct (set_must_bind_ok _ _ _ _ E) as [-> _].
      now apply (run_importers_kind _ _ _ _ _ _ _ _ Er).
    + injection E as <- _ _. now left.
  - cbn [is_set] in E.
    destruct (transitively_private (d_chain (info x))); [discriminate|].
    destruct (d_dnb (info x)); [injection E as <- _ _; now left| |].
    { destruct (d_named (info x) && negb (is_function (d_class (info x))) && negb (d_allowlisted (info x)));
        [injection E as <- _ _; now left|discriminate]. }
    destruct (d_unavailable (info x)); [injection E as <- _ _; now left|].
    destruct (run_importers o get (info x) (map root_id (kids x)) false s0) as [[[[k' m']|] t]|] eqn:Er;
      [| |discriminate].
    + injection E as -> -> _. now apply (Hrun false t).
    + discriminate.
Qed.

(** Without an annotation, must_bind is set only through the flag. *)
Lemma unannotated_result x k m :
  good x (Some (k, m)) -> In x (all_decls tu) -> o_strict o = false ->
  d_must (info x) = AUnset -> d_dnb (info x) = AUnset -> m = true ->
  is_function (d_class (info x)) = true /\ runs_into_annotated_function tu x.
Proof.
  intros (get & s0 & s1 & Hget & E) Hx Ho Hm Hd ->. unfold import_decl in E.
  rewrite Hm, Hd in E. cbn [is_set] in E.
  destruct (transitively_private (d_chain (info x))); [discriminate|].
  destruct (d_unavailable (info x)).
  { injection E as _ E _. rewrite Ho in E. discriminate. }
  destruct (run_importers o get (info x) (map root_id (kids x)) false s0) as [[[[k' m']|] t]|] eqn:Er;
    [| |discriminate]; [|discriminate].
  injection E as <- -> _. unfold run_importers, unsupported in Er. rewrite Ho in Er.
  destruct (d_class (info x)) as [f|q|q|q] eqn:Ec.
  - split; [reflexivity|]. unfold import_function, unsupported in Er. rewrite Ho in Er.
    cbn [set_flag st_flag orb negb andb] in Er.
    destruct (negb (ff_target f)); [discriminate|].
    destruct (ff_deleted f); [discriminate|].
    destruct (o_only_types o && ff_ident f); [discriminate|].
    destruct (ff_reserved f); [discriminate|].
    destruct (ff_hidden f); [discriminate|].
    destruct (ff_early f); [discriminate|].
    destruct (get (d_nested (info x)) (set_flag false s0)) as [t'|] eqn:Eg; [|discriminate].
    destruct (ff_late f); [|discriminate].
    injection Er as _ Efl _. rewrite orb_false_r in Efl.
    destruct (Hget _ _ _ Eg) as [E'|(i & y & g & Hi & Hy & Hr & Hc & E')].
    + rewrite E' in Efl. discriminate.
    + exists i, y, g. repeat split; try assumption. unfold annotated. rewrite Efl in E'.
      destruct (d_must (info y)); cbn in E'; congruence.
  - exfalso. destruct (get (d_nested (info x)) s0); [|discriminate].
    destruct q as [[]|]; discriminate.
  - exfalso. destruct q; try discriminate; destruct (get (map root_id (kids x)) s0); discriminate.
  - exfalso. destruct (get (d_nested (info x)) s0); [|discriminate].
    destruct q as [[]|]; discriminate.
Qed.

End Import.
