(** C100: the module of a record; C101: no crash; C102: no two items of one name. *)
From Coq Require Import List Bool Arith Strings.String Lia Permutation.
From Verif Require Import ModNames.Model ModNames.Spec ModNames.Proofs.
Import ListNotations.
Local Open Scope string_scope.
Local Open Scope list_scope.

(** * C100 *)
(** In every scope, whatever the spelling rules: the module of a record that has nested items, as found when the record is generated or
    named in a path, is the one that has_bindings.rs finds for it, it is found exactly once and for this record alone, and no item of
    the scope has its name. *)
Theorem C100_module_of_nested_items snake items m x : NoDup (map iid items) -> resolve_names snake items = Some m ->
  In x items -> (exists methods, ikind x = KRecord true methods) ->
  exists n, module_name snake m x = Some n /\ parent_modules m (iid x) = [(n, [iid x])]
            /\ (forall y, In y items -> ikind y <> KOther -> iname y <> n)
            /\ (forall y, In y items -> (exists methods, ikind y = KRecord true methods) -> iid y <> iid x -> module_name snake m y <> Some n).
Proof.
  unfold resolve_names. intros NI R I (b & K). destruct (pass1 items []) as [m1|] eqn:P1; [|discriminate].
  destruct (pass1_props items [] m1) as (ND1 & A1 & K1); [constructor|now intros ? ? []|exact P1|].
  assert (NI2 : NoDup (map iid (nested_records items))).
  { clear -NI. induction items as [|y l IH]; cbn [nested_records filter map]; [constructor|]. cbn [map] in NI. inversion NI; subst.
    destruct (ikind y) as [|[] ?| | | | | | | | |]; auto. cbn [map]. constructor; auto.
    intros J. apply H1. apply in_map_iff in J as (z & E & Iz). apply filter_In in Iz. rewrite <- E. apply in_map. tauto. }
  assert (FR : forall n l, In (n, RNested l) m1 -> forall z, In z (nested_records items) -> ~ In (iid z) l) by (intros n l J; destruct (A1 _ _ J)).
  destruct (pass2_extends snake _ _ _ R) as (add & E & Es & ND). specialize (ND ND1).
  assert (Nx : forall y, In y items -> (exists me, ikind y = KRecord true me) -> In y (nested_records items)).
  { intros y Iy (me & Ky). apply filter_In. rewrite Ky. auto. }
  destruct (pass2_names snake _ _ _ ND1 NI2 FR R x (Nx _ I (ex_intro _ b K))) as (n & L & M & F).
  exists n. split; [exact M|]. split; [|split].
  - assert (U : forall k l, In (k, RNested l) m -> In (iid x) l -> k = n /\ l = [iid x]).
    { intros k l J Jx. assert (l = [iid x]) as ->.
      { rewrite E in J. apply in_app_iff in J as [J|J]; [|now destruct (A1 _ _ J)].
        apply (in_map snd) in J. rewrite Es in J. apply in_map_iff in J as (z & Ez & _). cbn [snd] in Ez. injection Ez as <-. now destruct Jx as [->|[]]. }
      split; [|reflexivity].
      (* two entries with the same value: the values of [add] are pairwise different *)
      assert (NDv : NoDup (map snd add)).
      { rewrite Es. clear -NI2. rewrite map_rev. apply NoDup_rev. induction (nested_records items) as [|y l IH]; cbn [map] in *; [constructor|].
        inversion NI2; subst. constructor; [|auto]. intros J. apply in_map_iff in J as (z & Ez & Iz). apply H1. injection Ez as Ez. rewrite <- Ez. now apply in_map. }
      apply lookup_In in L. rewrite E in J, L. apply in_app_iff in J as [J|J]; [|now destruct (A1 _ _ J)]. apply in_app_iff in L as [L|L]; [|now destruct (A1 _ _ L)].
      clear -NDv J L. induction add as [|[a r] add IH]; cbn [map snd In] in *; [contradiction|]. inversion NDv; subst.
      destruct J as [J|J], L as [L|L].
      - congruence.
      - injection J as -> ->. destruct H1. change (RNested [iid x]) with (snd (n, RNested [iid x])). now apply in_map.
      - injection L as -> ->. destruct H1. change (RNested [iid x]) with (snd (k, RNested [iid x])). now apply in_map.
      - auto. }
    assert (Ix := lookup_In _ _ _ L). clear -U Ix ND. unfold parent_modules.
    assert (G : forall m0, incl m0 m -> NoDup (map fst m0) ->
      flat_map (fun e : string * resolved => match snd e with RNested l => if existsb (Nat.eqb (iid x)) l then [(fst e, l)] else [] | _ => [] end) m0
      = if existsb (fun e => String.eqb (fst e) n) m0 then [(n, [iid x])] else []).
    { induction m0 as [|[k r] m0 IH]; intros Hi Hn; cbn [flat_map existsb fst snd]; [reflexivity|].
      cbn [map fst] in Hn. inversion Hn as [|? ? Nk Hn']; subst. rewrite IH; [|intros z Z; apply Hi; now right|exact Hn'].
      assert (Ik : In (k, r) m) by (apply Hi; now left).
      destruct (String.eqb_spec k n) as [->|D]; cbn [orb].
      - assert (r = RNested [iid x]) as ->.
        { assert (A := In_lookup _ _ _ ND Ik). assert (B := In_lookup _ _ _ ND Ix). congruence. }
        cbn [existsb]. rewrite Nat.eqb_refl. cbn [orb app].
        destruct (existsb (fun e => String.eqb (fst e) n) m0) eqn:B; [|reflexivity].
        apply existsb_exists in B as ([k' r'] & I' & E'). apply String.eqb_eq in E'. cbn [fst] in E'. subst k'.
        destruct Nk. change n with (fst (n, r')). now apply in_map.
      - destruct r as [| | |l]; try reflexivity. destruct (existsb (Nat.eqb (iid x)) l) eqn:B; [|reflexivity].
        apply existsb_exists in B as (i & Ii & Ei). apply Nat.eqb_eq in Ei. subst i. destruct (U _ _ Ik Ii). congruence. }
    rewrite (G m (incl_refl _) ND). assert (existsb (fun e : string * resolved => String.eqb (fst e) n) m = true) as ->; [|reflexivity].
    apply existsb_exists. exists (n, RNested [iid x]). split; [exact Ix|]. apply String.eqb_refl.
  - intros y Iy Ky <-. apply F. apply K1. right. exists y. repeat split; auto. unfold resolved_of. destruct (ikind y); try discriminate. congruence.
  - intros y Iy Ky D C. destruct (pass2_names snake _ _ _ ND1 NI2 FR R y (Nx _ Iy Ky)) as (n' & L' & M' & _).
    assert (n' = n) by congruence. subst n'. rewrite L in L'. injection L' as E'. congruence.
Qed.
Print Assumptions C100_module_of_nested_items.

(** Snake case good enough for the examples. *)
Definition snake_example (s : string) : string :=
  if String.eqb s "FooBar" then "foo_bar" else if String.eqb s "Foo_Bar" then "foo_bar" else if String.eqb s "HTTPServer" then "http_server"
  else if String.eqb s "HttpServer" then "http_server" else if String.eqb s "Crate" then "crate" else s.
Example C100_example :
  let items := [Item 1 "FooBar" (KRecord true false); Item 2 "Foo_Bar" (KRecord true true); Item 3 "foo_bar_items" KFunc] in
  option_map (fun m => map (module_name snake_example m) (firstn 2 items)) (resolve_names snake_example items)
  = Some [Some "foo_bar"; Some "foo_bar_items_"].
Proof. vm_compute. reflexivity. Qed.

(** * C101 *)
(** Names that C++ allows together never crash the generator, in either pass, and every record of the scope gets a name. *)
Theorem C101_names_never_collide snake items : cpp_scope items ->
  exists m, resolve_names snake items = Some m /\ forall x, module_name snake m x <> None.
Proof.
  intros C.
  assert (P1 : exists m, pass1 items [] = Some m).
  { (* what a name stands for, given the items seen so far *)
    pose (rep := fun (seen : list item) (m : names) => forall n r, lookup n m = Some r ->
            match r with
            | RNamespace c => exists y, In y seen /\ iname y = n /\ ikind y = KNamespace c
            | RExplicit i k => is_type k = true /\ exists y, In y seen /\ iname y = n /\ ikind y = k
            | RValue i => exists y, In y seen /\ iname y = n /\ is_value (ikind y) = true
            | RNested _ => False
            end).
    assert (G : forall todo seen m, rep seen m ->
              ForallOrdPairs (fun a b => iname a = iname b -> may_share (ikind a) (ikind b) = true) todo ->
              (forall a b, In a seen -> In b todo -> iname a = iname b -> may_share (ikind a) (ikind b) = true) ->
              exists m', pass1 todo m = Some m').
    { induction todo as [|x todo IH]; intros seen m HR FO Cr; cbn [pass1]; [eauto|]. inversion FO as [|? ? Fx FO']; subst.
      assert (Cr' : forall a b, In a (x :: seen) -> In b todo -> iname a = iname b -> may_share (ikind a) (ikind b) = true).
      { intros a b [<-|Ia] Ib; [rewrite Forall_forall in Fx; now apply Fx|]. apply Cr; [exact Ia|now right]. }
      destruct (resolved_of x) as [v|] eqn:Rx; [|apply (IH (x :: seen)); auto; intros n r L; specialize (HR _ _ L); destruct r; cbn [In]; firstorder].
      assert (Px : match v with
                   | RNamespace c => ikind x = KNamespace c | RExplicit i k => ikind x = k /\ is_type k = true
                   | RValue i => is_value (ikind x) = true | RNested _ => False end).
      { unfold resolved_of in Rx. destruct (ikind x) eqn:K; try discriminate; injection Rx as <-; rewrite ?K; cbn; auto. }
      assert (Weak : rep (x :: seen) m) by (intros n r L; specialize (HR _ _ L); destruct r; cbn [In]; firstorder).
      assert (New : forall old, lookup (iname x) m = Some old -> rep (x :: seen) (update (iname x) v m)).
      { intros old Lo n r. rewrite lookup_update, Lo. destruct (String.eqb_spec n (iname x)) as [->|D]; [|apply Weak].
        intros [= <-]. destruct v; try contradiction; cbn [In].
        - exists x. auto.
        - destruct Px as [E T]. split; [exact T|]. exists x. auto.
        - exists x. auto. }
      unfold insert. destruct (lookup (iname x) m) as [old|] eqn:L.
      - assert (O := HR _ _ L). specialize (New _ eq_refl).
        assert (Same : rep (x :: seen) (update (iname x) old m)).
        { intros n r. rewrite lookup_update, L. destruct (String.eqb_spec n (iname x)) as [->|D]; [|apply Weak]. intros [= <-]. now apply Weak. }
        destruct old as [c|i k|i|l]; [| | |contradiction].
        + destruct O as (y & Iy & Ey & Ky). assert (S := Cr _ _ Iy (or_introl eq_refl) Ey). rewrite Ky in S.
          destruct v as [c'|i' k'|i'|l']; [| | |contradiction].
          * rewrite Px in S. cbn [may_share] in S. cbn [conflict_action coalesce]. rewrite S. apply (IH (x :: seen)); auto.
          * exfalso. destruct Px as [E T]. rewrite E in S. destruct k'; cbn in S, T; discriminate.
          * exfalso. destruct (ikind x); cbn in S, Px; discriminate.
        + destruct O as (Tk & y & Iy & Ey & Ky). assert (S := Cr _ _ Iy (or_introl eq_refl) Ey). rewrite Ky in S.
          destruct v as [c'|i' k'|i'|l']; [| | |contradiction].
          * exfalso. rewrite Px in S. destruct k; cbn in S, Tk; discriminate.
          * destruct Px as [E T]. rewrite E in S. destruct k, k'; cbn in S, Tk, T; try discriminate; cbn [conflict_action]; apply (IH (x :: seen)); auto.
          * replace (conflict_action (RExplicit i k) (RValue i')) with Coalesce by (now destruct k). cbn [coalesce]. apply (IH (x :: seen)); auto.
        + destruct O as (y & Iy & Ey & Vy). assert (S := Cr _ _ Iy (or_introl eq_refl) Ey).
          destruct v as [c'|i' k'|i'|l']; [| | |contradiction].
          * exfalso. rewrite Px in S. destruct (ikind y); cbn in S, Vy; discriminate.
          * cbn [conflict_action coalesce]. apply (IH (x :: seen)); auto.
          * cbn [conflict_action coalesce]. apply (IH (x :: seen)); auto.
      - apply (IH (x :: seen)); auto. intros n r. cbn [lookup]. destruct (String.eqb_spec n (iname x)) as [->|D]; [|apply Weak].
        intros [= <-]. destruct v; try contradiction; cbn [In].
        + exists x. auto.
        + destruct Px as [E T]. split; [exact T|]. exists x. auto.
        + exists x. auto. }
    apply (G items []); [now intros n r L|exact C|now intros a b []]. }
  destruct P1 as (m1 & P1). unfold resolve_names. rewrite P1.
  destruct (pass2 snake items m1) as [m|] eqn:P2; [|now destruct (pass2_total snake items m1)].
  exists m. split; [reflexivity|]. intros x. unfold module_name. eapply (disambiguate_total (map fst m)).
  - intros s. unfold is_used_by_others. destruct (lookup s m) eqn:L; [|discriminate]. intros _. eapply lookup_dom; exact L.
  - rewrite map_length. apply Nat.le_succ_diag_r.
Qed.
Print Assumptions C101_names_never_collide.
Example C101_example : cpp_scope [Item 1 "stat" (KRecord true false); Item 2 "stat" KFunc; Item 3 "ns" (KNamespace 3); Item 4 "ns" (KNamespace 3); Item 5 "stat" KIncomplete].
Proof. repeat constructor; cbn; intros; try discriminate; reflexivity. Qed.

(** A renamed function (CRUBIT_RUST_NAME) with the name of a namespace, or two types renamed alike: panic. *)
Theorem C101_renamed_like_namespace_refuted snake : resolve_names snake [Item 1 "util" (KNamespace 1); Item 2 "util" KFunc] = None.
Proof. reflexivity. Qed.
Print Assumptions C101_renamed_like_namespace_refuted.
Theorem C101_renamed_types_refuted snake a b na ma nb mb : resolve_names snake [Item a "T" (KRecord na ma); Item b "T" (KRecord nb mb)] = None.
Proof. reflexivity. Qed.
Print Assumptions C101_renamed_types_refuted.
(** A class named Crate or Super, if nothing else is called so: [make_rs_ident] panics for its module, even if it has none. *)
Theorem C101_class_crate_refuted snake i nested methods : snake "Crate" = "crate" ->
  exists m, resolve_names snake [Item i "Crate" (KRecord nested methods)] = Some m
            /\ record_to_associated_module_name snake m (Item i "Crate" (KRecord nested methods)) = None.
Proof.
  intros E. unfold resolve_names. cbn. destruct nested.
  - unfold disambiguate, first_name. cbn. rewrite E. cbn. eexists. split; [reflexivity|].
    unfold record_to_associated_module_name, module_name, disambiguate, first_name, is_used_by_others. cbn. rewrite E. cbn. now rewrite Nat.eqb_refl.
  - eexists. split; [reflexivity|]. unfold record_to_associated_module_name, module_name, disambiguate, first_name, is_used_by_others. cbn. rewrite E. reflexivity.
Qed.
Print Assumptions C101_class_crate_refuted.

(** * C102 *)
Lemma resolved_facts snake items m : NoDup (map iid items) -> resolve_names snake items = Some m ->
  (forall x, In x items -> (exists me, ikind x = KRecord true me) -> exists n, lookup n m = Some (RNested [iid x]) /\ module_name snake m x = Some n)
  /\ (forall y, In y items -> ikind y <> KOther -> exists r, plain r /\ lookup (iname y) m = Some r).
Proof.
  unfold resolve_names. intros NI R. destruct (pass1 items []) as [m1|] eqn:P1; [|discriminate].
  destruct (pass1_props items [] m1) as (ND1 & A1 & K1); [constructor|now intros ? ? []|exact P1|].
  assert (NI2 : NoDup (map iid (nested_records items))).
  { clear -NI. induction items as [|y l IH]; cbn [nested_records filter map]; [constructor|]. cbn [map] in NI. inversion NI; subst.
    destruct (ikind y) as [|[] ?| | | | | | | | |]; auto. cbn [map]. constructor; auto.
    intros J. apply H1. apply in_map_iff in J as (z & E & Iz). apply filter_In in Iz. rewrite <- E. apply in_map. tauto. }
  assert (FR : forall n l, In (n, RNested l) m1 -> forall z, In z (nested_records items) -> ~ In (iid z) l) by (intros n l J; destruct (A1 _ _ J)).
  destruct (pass2_extends snake _ _ _ R) as (add & E & Es & ND). specialize (ND ND1). split.
  - intros x I (me & K). destruct (pass2_names snake _ _ _ ND1 NI2 FR R x) as (n & L & M & _); [apply filter_In; rewrite K; auto|]. eauto.
  - intros y Iy Ky. assert (D : In (iname y) (map fst m1)).
    { apply K1. right. exists y. repeat split; auto. unfold resolved_of. destruct (ikind y); try discriminate. congruence. }
    apply in_map_iff in D as ([k r] & Ek & Ik). cbn [fst] in Ek. subst k. exists r. split; [eapply A1; exact Ik|].
    subst m. apply In_lookup; [exact ND|]. apply in_app_iff. now right.
Qed.

Definition module_of snake (m : names) (x : item) : list string :=
  match ikind x with KRecord ne me => if ne || me then match module_name snake m x with Some n => [n] | None => [] end else [] | _ => [] end.
Lemma emitted_perm snake m items : (forall x, In x items -> ikind x <> KAlias true) ->
  Permutation (emitted snake (map (pair m) items)) (own_names items ++ flat_map (module_of snake m) items).
Proof.
  induction items as [|x items IH]; intros A; cbn [map emitted own_names flat_map]; [constructor|].
  fold (own_names items). rewrite map_map, map_id. rewrite IH by (intros; apply A; now right).
  assert (P : forall a b c d : list string, Permutation ((a ++ b) ++ c ++ d) ((a ++ c) ++ b ++ d)).
  { intros. rewrite <- !app_assoc. apply Permutation_app_head. rewrite !app_assoc. apply Permutation_app_tail. apply Permutation_app_comm. }
  destruct (ikind x) as [|ne me| |[]| | | | | | |] eqn:K; unfold emitted_by, module_of; rewrite ?K.
  - apply (P [iname x] [] (own_names items)).
  - apply (P [iname x] _ (own_names items)).
  - apply (P [iname x] [] (own_names items)).
  - destruct (A x (or_introl eq_refl) K).
  - apply (P [iname x] [] (own_names items)).
  - match goal with |- Permutation (?a ++ _) _ => apply (P a [] (own_names items)) || (rewrite <- (app_nil_r a) at 1; apply (P a [] (own_names items))) end.
  - apply (P [iname x] [] (own_names items)).
  - apply (P [] [] (own_names items)).
  - apply (P [] [] (own_names items)).
  - apply (P [] [] (own_names items)).
  - apply (P [] [] (own_names items)).
  - apply (P [] [] (own_names items)).
Qed.
Lemma own_names_In items : forall n, In n (own_names items) -> exists y, In y items /\ ikind y <> KOther /\ iname y = n.
Proof.
  induction items as [|x items IH]; intros n; cbn [own_names]; [intros []|]. fold (own_names items). intros I. apply in_app_iff in I as [I|I].
  - exists x. split; [now left|]. destruct (ikind x); try destruct (existsb _ _); try contradiction; destruct I as [<-|[]]; split; try reflexivity; discriminate.
  - destruct (IH _ I) as (y & A & B). exists y. split; [now right|exact B].
Qed.
Lemma NoDup_app_intro {A} (a b : list A) : NoDup a -> NoDup b -> (forall x, In x a -> ~ In x b) -> NoDup (a ++ b).
Proof.
  induction a as [|x a IH]; cbn; intros NA NB D; [exact NB|]. inversion NA; subst. constructor.
  - intros I. apply in_app_iff in I as [I|I]; [tauto|]. eapply D; eauto.
  - apply IH; auto.
Qed.
Lemma NoDup_modules snake m items : NoDup (map iid items) ->
  (forall x y n, In x items -> In y items -> iid x <> iid y -> In n (module_of snake m x) -> ~ In n (module_of snake m y)) ->
  NoDup (flat_map (module_of snake m) items).
Proof.
  induction items as [|x items IH]; intros NI D; cbn [flat_map]; [constructor|]. cbn [map] in NI. inversion NI; subst. apply NoDup_app_intro.
  - unfold module_of. destruct (ikind x); try constructor. destruct (_ || _); [|constructor]. destruct (module_name snake m x); repeat constructor. intros [].
  - apply IH; auto. intros a b n Ia Ib. apply D; now right.
  - intros n Ix I. apply in_flat_map in I as (y & Iy & I). eapply D; [left; reflexivity|right; exact Iy| |exact Ix|exact I].
    intros E. apply H1. rewrite E. now apply in_map.
Qed.

(** One block (the top level of a target, a record, a namespace opened once): if the items have different names, no alias re-exports a
    module, and records without nested items do not clash among themselves, then nothing is defined twice. *)
Theorem C102_no_duplicates_partial snake items l : NoDup (map iid items) -> NoDup (own_names items) ->
  (forall x, In x items -> ikind x <> KAlias true) ->
  (forall m x y, resolve_names snake items = Some m -> In x items -> In y items -> methods_only x = true -> methods_only y = true ->
     iid x <> iid y -> module_name snake m x <> module_name snake m y) ->
  scope_names snake [items] = Some l -> NoDup l.
Proof.
  intros NI NO NA HM. unfold scope_names. cbn [fold_right]. destruct (resolve_names snake items) as [m|] eqn:R; [|discriminate].
  rewrite app_nil_r. intros [= <-]. specialize (HM m). destruct (resolved_facts _ _ _ NI R) as (FN & FO).
  eapply Permutation_NoDup; [apply Permutation_sym, emitted_perm; exact NA|].
  assert (Case : forall x n, In x items -> In n (module_of snake m x) ->
            module_name snake m x = Some n /\ (lookup n m = Some (RNested [iid x]) \/ methods_only x = true)).
  { intros x n Ix. unfold module_of, methods_only. destruct (ikind x) as [|ne me| | | | | | | | |] eqn:K; try (intros []; fail).
    destruct ne, me; cbn [orb]; destruct (module_name snake m x) as [n'|] eqn:M; try (intros []; fail); intros [<-|[]]; split; auto; left;
      destruct (FN x Ix) as (n2 & L & M2); eauto; congruence. }
  assert (Un : forall x n, module_name snake m x = Some n -> is_used_by_others m (iid x) n = false).
  { intros x n H. unfold module_name in H. now apply disambiguate_unused in H. }
  apply NoDup_app_intro; [exact NO| |].
  - apply NoDup_modules; [exact NI|]. intros x y n Ix Iy D Mx My. destruct (Case _ _ Ix Mx) as (Ex & Cx), (Case _ _ Iy My) as (Ey & Cy).
    destruct Cx as [Lx|Ox], Cy as [Ly|Oy].
    + congruence.
    + assert (U := Un _ _ Ey). unfold is_used_by_others in U. rewrite Lx in U. cbn [existsb] in U. rewrite (proj2 (Nat.eqb_neq (iid y) (iid x))) in U by congruence. discriminate.
    + assert (U := Un _ _ Ex). unfold is_used_by_others in U. rewrite Ly in U. cbn [existsb] in U. rewrite (proj2 (Nat.eqb_neq (iid x) (iid y))) in U by congruence. discriminate.
    + apply (HM x y); auto. congruence.
  - intros n Io Im. destruct (own_names_In _ _ Io) as (y & Iy & Ky & <-). destruct (FO y Iy Ky) as (r & Pr & Lr).
    apply in_flat_map in Im as (x & Ix & Mx). destruct (Case _ _ Ix Mx) as (Ex & _). assert (U := Un _ _ Ex). unfold is_used_by_others in U.
    rewrite Lr in U. destruct r; [discriminate|discriminate|discriminate|exact Pr].
Qed.
Print Assumptions C102_no_duplicates_partial.
Example C102_example :
  let items := [Item 1 "FooBar" (KRecord true false); Item 2 "foo_bar" KFunc; Item 3 "Foo_Bar" (KRecord false true); Item 4 "ns" (KNamespace 4)] in
  scope_names snake_example [items] = Some ["FooBar"; "foo_bar_items"; "Foo_Bar"; "foo_bar_items_"; "ns"].
Proof. vm_compute. reflexivity. Qed.

(** Two classes with methods, no nested items, whose names differ only in case (HTTPServer, HttpServer): two modules of one name. *)
Theorem C102_methods_only_refuted snake a b na nb : na <> nb -> snake na = snake nb -> snake na <> na -> snake nb <> nb -> snake na <> nb -> snake nb <> na ->
  exists l, scope_names snake [[Item a na (KRecord false true); Item b nb (KRecord false true)]] = Some l /\ ~ NoDup l.
Proof.
  intros D E A B C F.
  assert (P : pass1 [Item a na (KRecord false true); Item b nb (KRecord false true)] [] =
              Some [(nb, RExplicit b (KRecord false true)); (na, RExplicit a (KRecord false true))]).
  { cbn [pass1 resolved_of ikind iname iid]. unfold insert at 1. cbn [lookup]. unfold insert. cbn [lookup].
    rewrite (proj2 (String.eqb_neq nb na)) by congruence. reflexivity. }
  unfold scope_names. cbn [fold_right]. unfold resolve_names. rewrite P. cbn [pass2 ikind]. rewrite app_nil_r.
  eexists. split; [reflexivity|]. cbn [map emitted emitted_by ikind iname snd orb]. unfold module_name, disambiguate, first_name, is_used_by_others. cbn [iname lookup].
  rewrite (proj2 (String.eqb_neq (snake na) na)), (proj2 (String.eqb_neq (snake nb) nb)) by assumption. rewrite <- E in *.
  rewrite (proj2 (String.eqb_neq (snake na) nb)), (proj2 (String.eqb_neq (snake na) na)) by assumption.
  cbn [app]. intros N. apply NoDup_cons_iff in N as [_ N]. apply NoDup_cons_iff in N as [N _]. apply N. cbn [In]. auto.
Qed.
Print Assumptions C102_methods_only_refuted.
Example C102_methods_only_example :
  scope_names snake_example [[Item 1 "HTTPServer" (KRecord false true); Item 2 "HttpServer" (KRecord false true)]]
  = Some ["HTTPServer"; "http_server"; "HttpServer"; "http_server"].
Proof. vm_compute. reflexivity. Qed.
(** A namespace opened twice: a class with nested items in one block, a namespace in the other. *)
Theorem C102_reopened_namespace_refuted :
  scope_names snake_example [[Item 1 "FooBar" (KRecord true false)]; [Item 2 "foo_bar" (KNamespace 2)]] = Some ["FooBar"; "foo_bar"; "foo_bar"].
Proof. vm_compute. reflexivity. Qed.
Print Assumptions C102_reopened_namespace_refuted.
(** An alias of a class with nested items, and a namespace that has the name of its module. *)
Theorem C102_alias_refuted :
  scope_names snake_example [[Item 1 "FooBar" (KAlias true); Item 2 "foo_bar" (KNamespace 2)]] = Some ["FooBar"; "foo_bar"; "foo_bar"].
Proof. vm_compute. reflexivity. Qed.
Print Assumptions C102_alias_refuted.
