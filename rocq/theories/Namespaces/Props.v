(** C35, C50: the namespaces of a target, and the modules generated for several targets. *)
From Coq Require Import List Arith ZArith Bool Lia Strings.String Sorting.Sorted.
From Verif.Common Require Import Btree.
From Verif.Namespaces Require Import Model Spec Merge Trie.
Import ListNotations.
Local Open Scope string_scope.

(** C35, the path part: a module exists for exactly the paths some target opens. *)
Theorem C35_paths_exact h hs : (forall x, In x (h :: hs) -> distinct (namespaces x)) ->
  exists m, get_hierarchy (h :: hs) = Some m /\
  forall p, has_mod (to_tokens m) p <-> exists x, In x (h :: hs) /\ opens (namespaces x) p.
Proof.
  intro D. destruct (get_hierarchy_ok _ _ D) as (m & E & W & H & _). exists m. split; [exact E|]. intro p. rewrite (proj1 (to_tokens_spec m W)). apply H.
Qed.
Print Assumptions C35_paths_exact.
(** Each import is of the module's own path, from a target that opens it: nothing is imported that does not exist. *)
Theorem C35_imports_sound h hs m p l q : (forall x, In x (h :: hs) -> distinct (namespaces x)) ->
  get_hierarchy (h :: hs) = Some m -> imports (to_tokens m) p l q ->
  q = p /\ exists x, In x (h :: hs) /\ label x = l /\ opens (namespaces x) p.
Proof.
  intros D E I. destruct (get_hierarchy_ok _ _ D) as (m' & E' & W & _ & K). assert (m' = m) by congruence. subst m'.
  apply (proj2 (to_tokens_spec m W)) in I as [I ->]. split; [reflexivity|]. apply K in I as (b & x & a & -> & L & O & _). exists x. split; [apply in_or_app; right; left; reflexivity|auto].
Qed.
Print Assumptions C35_imports_sound.
(** What is kept exactly.  Missing from C35: the other targets that open a nested namespace. *)
Theorem C35_labels_exact_partial h hs : (forall x, In x (h :: hs) -> distinct (namespaces x)) ->
  exists m, get_hierarchy (h :: hs) = Some m /\ forall p l q, imports (to_tokens m) p l q <-> q = p /\ kept (h :: hs) p l.
Proof.
  intro D. destruct (get_hierarchy_ok _ _ D) as (m & E & W & _ & K). exists m. split; [exact E|]. intros p l q. rewrite (proj2 (to_tokens_spec m W)), K. tauto.
Qed.
Print Assumptions C35_labels_exact_partial.
(** Outermost namespaces do keep every target. *)
Theorem C35_outermost_complete h hs : (forall x, In x (h :: hs) -> distinct (namespaces x)) ->
  exists m, get_hierarchy (h :: hs) = Some m /\
  forall n l, imports (to_tokens m) [n] l [n] <-> exists x, In x (h :: hs) /\ label x = l /\ opens (namespaces x) [n].
Proof.
  intro D. destruct (C35_labels_exact_partial h hs D) as (m & E & K). exists m. split; [exact E|]. intros n l. rewrite K. split.
  - intros (_ & b & x & a & Eq & L & O & _). exists x. split; [rewrite Eq; apply in_or_app; right; left; reflexivity|auto].
  - intros (x & Hx & L & O). split; [reflexivity|]. apply in_split in Hx as (b & a & Eq). exists b, x, a. split; [exact Eq|split; [exact L|split; [exact O|left; reflexivity]]].
Qed.
Print Assumptions C35_outermost_complete.
(** Every module imports from at least one target. *)
Theorem C35_no_empty_module h hs : (forall x, In x (h :: hs) -> distinct (namespaces x)) ->
  exists m, get_hierarchy (h :: hs) = Some m /\ forall p, has_mod (to_tokens m) p -> exists l, imports (to_tokens m) p l p.
Proof.
  intro D. destruct (get_hierarchy_ok _ _ D) as (m & E & W & H & K). exists m. split; [exact E|]. intros p M. apply (proj1 (to_tokens_spec m W)), H in M.
  (* the first target that opens the path *)
  assert (F : forall done todo, (forall x, In x done -> ~ opens (namespaces x) p) -> h :: hs = (done ++ todo)%list -> all_open todo p -> exists l, kept (h :: hs) p l).
  { intros done todo. revert done. induction todo as [|x todo IH]; intros done Nd Eq (y & Hy & Hp); [destruct Hy|].
    destruct (opens_dec (namespaces x) p) as [O|O].
    - exists (label x), done, x, todo. split; [exact Eq|split; [reflexivity|split; [exact O|right; left; intros (z & Hz & Hzp); exact (Nd z Hz Hzp)]]].
    - apply (IH (done ++ [x])%list).
      + intros z Hz. apply in_app_or in Hz as [Hz|[<-|[]]]; auto.
      + now rewrite <- app_assoc.
      + destruct Hy as [->|Hy]; [contradiction|]. exists y. auto. }
  destruct (F [] (h :: hs)) as [l Hl]; [intros ? []|reflexivity|exact M|]. exists l. apply (proj2 (to_tokens_spec m W)). split; [now apply K|reflexivity].
Qed.
Print Assumptions C35_no_empty_module.

(** Both targets open a::c, but only the first is imported. *)
Definition one := Hierarchy "//p:one" [Json "a" [Json "c" []]].
Definition two := Hierarchy "//p:two" [Json "a" [Json "c" []]].
Lemma one_two_distinct x : In x [one; two] -> distinct (namespaces x).
Proof.
  intros [<-|[<-|[]]]; (constructor; [cbn; repeat constructor; cbn; tauto|]); intros n ch [E|[]]; injection E as <- <-; (constructor; [cbn; repeat constructor; cbn; tauto|]); intros n ch [E|[]]; injection E as <- <-; (constructor; [constructor|intros ? ? []]).
Qed.
Theorem C35_labels_refuted : ~ (forall h hs, (forall x, In x (h :: hs) -> distinct (namespaces x)) ->
  exists m, get_hierarchy (h :: hs) = Some m /\ forall p x, In x (h :: hs) -> opens (namespaces x) p -> imports (to_tokens m) p (label x) p).
Proof.
  intro H. destruct (H one [two] one_two_distinct) as (m & E & I). assert (O : opens (namespaces two) ["a"; "c"]) by (eapply OInner; [left; reflexivity|]; eapply OHere; left; reflexivity).
  specialize (I _ two (or_intror (or_introl eq_refl)) O). destruct (C35_labels_exact_partial one [two] one_two_distinct) as (m' & E' & K). assert (m' = m) by congruence. subst m'. apply K in I as (_ & b & h & a & Eq & L & O' & C).
  assert (C1 : ~ exists y, opens (namespaces two) (["a"; "c"] ++ [y])%list).
  { intros [y Oy]. cbn [app] in Oy. inversion Oy as [|? ? ch ? Hj Oy1]; subst. destruct Hj as [Ej|[]]. injection Ej as <-. inversion Oy1 as [|? ? ch ? Hj Oy2]; subst. destruct Hj as [Ej|[]]. injection Ej as <-. inversion Oy2; subst; contradiction. }
  destruct b as [|x [|x' b]]; cbn [app] in Eq.
  - injection Eq as <- <-. discriminate L.
  - injection Eq as <- <- _. destruct C as [C|[C|C]]; [discriminate C| |exact (C1 C)]. apply C. exists one. split; [left; reflexivity|exact O].
  - apply (f_equal (@List.length _)) in Eq. cbn in Eq. rewrite app_length in Eq. cbn in Eq. lia.
Qed.
Print Assumptions C35_labels_refuted.
(** Duplicate siblings (which the collector never produces, C50) would be dropped. *)
Theorem C35_duplicate_siblings_refuted : exists h m, get_hierarchy [h] = Some m /\ opens (namespaces h) ["a"; "b"] /\ ~ has_mod (to_tokens m) ["a"; "b"].
Proof.
  exists (Hierarchy "//p:t" [Json "a" [Json "b" []]; Json "a" []]). eexists. split; [reflexivity|]. split; [eapply OInner; [left; reflexivity|]; eapply OHere; left; reflexivity|].
  intro M. inversion M as [|? ? inner ? Hj M1]; subst. destruct Hj as [E|[]]. injection E as <-. inversion M1 as [? ? ? Hj|? ? ? ? Hj]; subst; destruct Hj as [E|[]]; discriminate E.
Qed.
Print Assumptions C35_duplicate_siblings_refuted.
(** No targets: the generator panics. *)
Example no_targets : get_hierarchy [] = None.
Proof. reflexivity. Qed.
Example merged_one_two : option_map to_tokens (get_hierarchy [one; two]) =
  Some [Mod "a" [Use "//p:one" ["a"]; Use "//p:two" ["a"]; Mod "c" [Use "//p:one" ["a"; "c"]]]].
Proof. reflexivity. Qed.

(** C50: the hierarchy collected for a target. *)
Theorem C50_collect_exact target all items h : collect target all items h ->
  label h = target /\ distinct (namespaces h) /\ forall p, opens (namespaces h) p <-> target_opens target all items p.
Proof. intro C. destruct (collect_ok _ _ _ _ C) as (L & O & P). split; [exact L|]. split; [now apply forest_distinct|exact P]. Qed.
Print Assumptions C50_collect_exact.
(** Only what is opened matters: order of declarations, reopening and ids do not. *)
Theorem C50_collect_canonical target all items all' items' h h' : collect target all items h -> collect target all' items' h' ->
  (forall p, target_opens target all items p <-> target_opens target all' items' p) -> h = h'.
Proof.
  intros C C' H. destruct (collect_ok _ _ _ _ C) as (L & O & P), (collect_ok _ _ _ _ C') as (L' & O' & P'). destruct h as [l js], h' as [l' js']. cbn [label namespaces] in *. subst. f_equal.
  apply (forest_unique (Json "" js) js js' eq_refl O O'). intro p. rewrite P, P'. apply H.
Qed.
Print Assumptions C50_collect_canonical.
Theorem C50_collect_deterministic target all items h h' : collect target all items h -> collect target all items h' -> h = h'.
Proof. intros C C'. eapply C50_collect_canonical; [exact C|exact C'|tauto]. Qed.
Print Assumptions C50_collect_deterministic.
Theorem C50_collect_terminates target all items : nested (resolve target all) -> exists h, collect target all items h.
Proof. apply collect_total. Qed.
Print Assumptions C50_collect_terminates.
(** Siblings are in strictly increasing order of name. *)
Theorem C50_collect_ordered target all items h : collect target all items h ->
  forall js, (js = namespaces h \/ exists p, at_path (namespaces h) p js) -> StronglySorted (fun a b => String.compare (jname a) (jname b) = Lt) js.
Proof.
  intros C js H. destruct (collect_ok _ _ _ _ C) as (_ & O & _). assert (Oj : ordered js).
  { destruct H as [->|[p H]]; [exact O|]. revert O. induction H as [r n ch Hi|r n ch p js Hi _ IH]; intro O; inversion O as [? _ Oc]; subst; [eapply Oc; exact Hi|]. apply IH. eapply Oc; exact Hi. }
  now inversion Oj.
Qed.
Print Assumptions C50_collect_ordered.

(** A target that reopens b::c and also mentions a namespace of another target. *)
Definition decls := [Decl 1 "b" "//p:t" [2; 9]%Z; Decl 2 "c" "//p:t" []; Decl 3 "a" "//p:t" []; Decl 4 "b" "//p:t" [5]%Z; Decl 5 "c" "//p:t" [6]%Z; Decl 6 "d" "//p:t" []; Decl 9 "x" "//p:u" []].
Definition collected := Hierarchy "//p:t" [Json "a" []; Json "b" [Json "c" [Json "d" []]]].
Example collect_decls : collect "//p:t" decls [1; 3; 4; 9; 7]%Z collected.
Proof.
  unfold collected. eapply Collect.
  - eapply AIns; [reflexivity| |].
    { eapply TopNew; [reflexivity|]. eapply KNode; [reflexivity|econstructor; [eapply ChildNew; reflexivity|apply KNil]|]. eapply KSkip; [reflexivity|apply KNil]. }
    eapply AIns; [reflexivity|eapply TopNew; [reflexivity|apply KNil]|].
    eapply AIns; [reflexivity| |].
    { eapply TopOld; [reflexivity|]. eapply KNode; [reflexivity| |apply KNil]. econstructor; [eapply ChildOld; reflexivity|]. eapply KNode; [reflexivity| |apply KNil]. econstructor; [eapply ChildNew; reflexivity|apply KNil]. }
    eapply ASkip; [reflexivity|]. eapply ASkip; [reflexivity|]. apply ANil.
  - cbn. repeat match goal with
      | |- Forall2 _ _ _ => constructor
      | |- to_json ?ts (snd (_, ?i)) _ => let p := eval cbn in (nth_error ts i) in match p with Some ?q => apply (ToJson ts i q); [reflexivity|cbn] end
      end.
Qed.
Example decls_nested : nested (resolve "//p:t" decls).
Proof.
  exists (fun i => Z.to_nat (10 - i)). intros i d j e Hi Hj He.
  assert (Id : forall i d, resolve "//p:t" decls i = Some d -> In d decls /\ id d = i) by (intros k x H; split; [apply find_some in H; apply H|now apply resolve_id in H]).
  destruct (Id _ _ Hi) as [Hd _]. destruct (Id _ _ He) as [He' Ej]. rewrite Ej.
  cbn [decls In] in Hd. repeat destruct Hd as [<-|Hd]; try contradiction; cbn [kids In id] in *; repeat destruct Hj as [<-|Hj]; try contradiction; cbn; try lia.
Qed.
