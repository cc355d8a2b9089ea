(** C176 - C180: the order and nesting of the items of the IR. *)
From Coq Require Import ZArith NArith List Bool String Permutation Sorted Lia.
From Verif Require Import IrTree.Model IrTree.Spec IrTree.Proofs IrTree.Proofs2 IrTree.Proofs3 IrTree.Proofs4.
Import ListNotations.
Local Open Scope Z_scope.
Local Open Scope list_scope.

(** * C176 Items are listed in source order *)

(** The comparator is a strict weak order, as llvm::stable_sort requires. *)
Theorem C176_comparator_is_strict_weak :
  (forall a, is_before a a = false) /\
  (forall a b c, is_before a b = true -> is_before b c = true -> is_before a c = true) /\
  (forall a b c, is_before a b = false -> is_before b a = false -> is_before b c = false -> is_before c b = false ->
                 is_before a c = false /\ is_before c a = false).
Proof.
  split; [|split].
  - intros a. apply is_before_false. apply precedes_irrefl.
  - intros a b c. rewrite !is_before_iff. apply precedes_trans.
  - intros a b c. rewrite !is_before_false. intros H1 H2 H3 H4. split; eapply weak_trans; eassumption.
Qed.
Print Assumptions C176_comparator_is_strict_weak.

(** The comparator is the order of the specification, and the sort is the
    stable sort for it. *)
Theorem C176_comparator_is_source_order a b : is_before a b = true <-> precedes a b.
Proof. apply is_before_iff. Qed.
Print Assumptions C176_comparator_is_source_order.
Theorem C176_sort_is_stable {A} (l : list (key * A)) : sorted_version l (stable_sort l).
Proof. apply sort_stable. Qed.
Print Assumptions C176_sort_is_stable.

Lemma entries_item alien p b e cs ds : comments_ok cs -> decls_ok ds -> exists l, item_ids alien p b e cs ds = map snd l /\
  in_source_order l /\ forall k id, In (k, id) l <-> lists alien p b e cs ds k id.
Proof.
  intros Hc Hd. eexists. split; [reflexivity|]. split; [apply sort_sorted|]. intros k id.
  set (L := keyed_comments (decl_comments b e cs ds) ++ keyed_decls (filter (child_kept alien p) (imported_children ds []))).
  assert (P : In (k, id) (stable_sort L) <-> In (k, id) L).
  { split; apply Permutation_in; [symmetry|]; apply sort_perm. }
  apply (iff_trans P). unfold L. rewrite in_app_iff. unfold keyed_comments, keyed_decls. rewrite !in_map_iff. split.
  - intros [(c & [= <- <-] & I)|(d & [= <- <-] & I)].
    + apply ListsComment. apply decl_comments_in; assumption.
    + apply filter_In in I. destruct I as [I K]. apply imported_first in I. apply child_kept_iff in K. apply ListsDecl; tauto.
  - intros [c F|d F A M].
    + left. exists c. split; [reflexivity|]. apply decl_comments_in; assumption.
    + right. exists d. split; [reflexivity|]. apply filter_In. split; [apply imported_first; exact F|apply child_kept_iff; auto].
Qed.
Lemma entries_top cur cs ds t : comments_ok cs -> decls_ok ds -> exists l, top_level_ids cur cs ds t = map snd l /\
  in_source_order l /\ forall k id, In (k, id) l <-> lists_top cur cs ds t k id.
Proof.
  intros Hc Hd. eexists. split; [reflexivity|]. split; [apply sort_sorted|]. intros k id.
  set (L := (if t =? cur then keyed_comments (decl_comments 0 0 cs ds) else [])
            ++ keyed_decls (filter (fun d => top_kept d && (d_target d =? t)) (imported_children ds []))).
  assert (P : In (k, id) (stable_sort L) <-> In (k, id) L).
  { split; apply Permutation_in; [symmetry|]; apply sort_perm. }
  apply (iff_trans P). unfold L. rewrite in_app_iff. unfold keyed_comments, keyed_decls. split.
  - intros [I|I].
    + destruct (Z.eqb_spec t cur) as [E|N]; [|destruct I]. apply in_map_iff in I. destruct I as (c & [= <- <-] & I).
      apply ListsTopComment; [exact E|]. apply decl_comments_in; assumption.
    + apply in_map_iff in I. destruct I as (d & [= <- <-] & I). apply filter_In in I. destruct I as [I K]. apply andb_true_iff in K.
      destruct K as [K T]. apply Z.eqb_eq in T. apply imported_first in I. apply top_kept_iff in K. apply ListsTopDecl; assumption.
  - intros [c E F|d F T M].
    + left. rewrite E, Z.eqb_refl. apply in_map_iff. exists c. split; [reflexivity|]. apply decl_comments_in; assumption.
    + right. apply in_map_iff. exists d. split; [reflexivity|]. apply filter_In. split; [apply imported_first; exact F|].
      apply andb_true_iff. split; [apply top_kept_iff; exact M|apply Z.eqb_eq; exact T].
Qed.
Lemma sorted_app {A} (R : A -> A -> Prop) a b : StronglySorted R (a ++ b) -> forall x y, In x a -> In y b -> R x y.
Proof.
  induction a as [|z a IH]; intros S x y Ix Iy; [destruct Ix|]. cbn [app] in S. apply StronglySorted_inv in S. destruct S as [S F].
  destruct Ix as [->|Ix]; [|exact (IH S x y Ix Iy)]. rewrite Forall_forall in F. apply F. apply in_or_app. right. exact Iy.
Qed.
Lemma sorted_positions (l : list (key * Z)) k k' x y : in_source_order l -> In (k, x) l -> In (k', y) l -> precedes k k' ->
  listed_before (map snd l) x y.
Proof.
  intros S Ix Iy P. apply in_split in Ix. destruct Ix as (a & r & ->). apply in_app_or in Iy. destruct Iy as [Iy|[E|Iy]].
  - exfalso. apply (sorted_app _ _ _ S (k', y) (k, x) Iy (or_introl eq_refl)). exact P.
  - injection E as -> ->. exfalso. exact (precedes_irrefl _ P).
  - apply in_split in Iy. destruct Iy as (b & c & ->). exists (map snd a), (map snd b), (map snd c).
    rewrite map_app. cbn [map snd]. rewrite map_app. reflexivity.
Qed.
Lemma order_of_group d d' : (group (d_kind d) < group (d_kind d'))%nat -> decl_order d < decl_order d'.
Proof.
  unfold decl_order. intros H. destruct (d_kind d) as [| |[| | |]| |[| |]| | |], (d_kind d') as [| |[| | |]| |[| |]| | |]; cbn in H; try lia;
    destruct (ctx_is_record (d_ctx d)); lia.
Qed.
Lemma order_same_group d d' : group (d_kind d) = group (d_kind d') -> d_ctx d = d_ctx d' -> decl_order d = decl_order d'.
Proof.
  unfold decl_order. intros H E. rewrite <- E. destruct (d_kind d) as [| |[| | |]| |[| |]| | |], (d_kind d') as [| |[| | |]| |[| |]| | |]; cbn in H; try discriminate; reflexivity.
Qed.
Lemma name_mangled d m : mangled_name (d_kind d) = Some m -> name_for_order d = m.
Proof. unfold name_for_order. destruct (d_kind d) as [| | | | | |[|]|]; cbn; congruence. Qed.
Lemma first_precedes d d' : placed d -> placed d' -> comes_first d d' -> precedes (decl_key d) (decl_key d').
Proof.
  intros P P' [L|E L|E E' G|m m' E E' G C M M' N].
  - apply PrecBegin; assumption.
  - apply PrecEnd; assumption.
  - apply PrecTie; try assumption. left. apply order_of_group. exact G.
  - apply PrecTie; try assumption. right. cbn. split; [apply order_same_group; assumption|].
    rewrite (name_mangled _ _ M), (name_mangled _ _ M'). exact N.
Qed.

(** Of two declarations of a class or namespace, the one that comes first in
    the source is listed first. *)
Theorem C176_declarations_in_source_order alien p b e cs ds d d' :
  comments_ok cs -> decls_ok ds -> listed_decl alien p ds d -> listed_decl alien p ds d' ->
  placed d -> placed d' -> comes_first d d' ->
  listed_before (item_ids alien p b e cs ds) (d_id d) (d_id d').
Proof.
  intros Hc Hd (F & A & M) (F' & A' & M') P P' C. destruct (entries_item alien p b e cs ds Hc Hd) as (l & -> & S & I).
  apply (sorted_positions l (decl_key d) (decl_key d')); [exact S| | |apply first_precedes; assumption]; apply I; apply ListsDecl; assumption.
Qed.
Print Assumptions C176_declarations_in_source_order.
(** Comments stay where they are among the declarations. *)
Theorem C176_comments_in_source_order alien p b e cs ds d c :
  comments_ok cs -> decls_ok ds -> listed_decl alien p ds d -> free_comment b e cs ds c -> placed d -> comment_placed c ->
  ((c_begin c < d_begin d)%N -> listed_before (item_ids alien p b e cs ds) (c_id c) (d_id d)) /\
  ((d_begin d < c_begin c)%N -> listed_before (item_ids alien p b e cs ds) (d_id d) (c_id c)).
Proof.
  intros Hc Hd (F & A & M) Fc P Pc. destruct (entries_item alien p b e cs ds Hc Hd) as (l & -> & S & I). split; intros L.
  - apply (sorted_positions l (Key (c_begin c) (c_end c) 0 EmptyString) (decl_key d)); [exact S|apply I; apply ListsComment; exact Fc|apply I; apply ListsDecl; assumption|].
    apply PrecBegin; assumption.
  - apply (sorted_positions l (decl_key d) (Key (c_begin c) (c_end c) 0 EmptyString)); [exact S|apply I; apply ListsDecl; assumption|apply I; apply ListsComment; exact Fc|].
    apply PrecBegin; assumption.
Qed.
Print Assumptions C176_comments_in_source_order.
(** The same at the top level of every target. *)
Theorem C176_top_level_in_source_order cur cs ds t d d' :
  comments_ok cs -> decls_ok ds -> first_imported ds d -> first_imported ds d' -> d_target d = t -> d_target d' = t ->
  ~ nested_class d -> ~ nested_class d' -> placed d -> placed d' -> comes_first d d' ->
  listed_before (top_level_ids cur cs ds t) (d_id d) (d_id d').
Proof.
  intros Hc Hd F F' T T' N N' P P' C. destruct (entries_top cur cs ds t Hc Hd) as (l & -> & S & I).
  apply (sorted_positions l (decl_key d) (decl_key d')); [exact S| | |apply first_precedes; assumption]; apply I; apply ListsTopDecl; assumption.
Qed.
Print Assumptions C176_top_level_in_source_order.

(** * C178 What is listed, each once *)
Theorem C178_container_lists alien p b e cs ds id : comments_ok cs -> decls_ok ds ->
  (In id (item_ids alien p b e cs ds) <->
   (exists c, free_comment b e cs ds c /\ c_id c = id) \/ (exists d, listed_decl alien p ds d /\ d_id d = id)).
Proof.
  intros Hc Hd. destruct (entries_item alien p b e cs ds Hc Hd) as (l & -> & _ & I). rewrite in_map_iff. split.
  - intros ([k id'] & <- & K). cbn [snd]. apply I in K. destruct K as [c F|d F A M]; [left; eauto|right; exists d; unfold listed_decl; auto].
  - intros [(c & F & <-)|(d & (F & A & M) & <-)].
    + eexists (_, c_id c). split; [reflexivity|]. apply I. apply ListsComment. exact F.
    + eexists (_, d_id d). split; [reflexivity|]. apply I. apply ListsDecl; assumption.
Qed.
Print Assumptions C178_container_lists.
Theorem C178_top_level_lists cur cs ds t id : comments_ok cs -> decls_ok ds ->
  (In id (top_level_ids cur cs ds t) <->
   (t = cur /\ exists c, free_comment 0 0 cs ds c /\ c_id c = id) \/
   (exists d, first_imported ds d /\ d_target d = t /\ ~ nested_class d /\ d_id d = id)).
Proof.
  intros Hc Hd. destruct (entries_top cur cs ds t Hc Hd) as (l & -> & _ & I). rewrite in_map_iff. split.
  - intros ([k id'] & <- & K). cbn [snd]. apply I in K. destruct K as [c T F|d F T M]; [left; eauto|right; exists d; auto].
  - intros [(T & c & F & <-)|(d & F & T & M & <-)].
    + eexists (_, c_id c). split; [reflexivity|]. apply I. apply ListsTopComment; assumption.
    + eexists (_, d_id d). split; [reflexivity|]. apply I. apply ListsTopDecl; assumption.
Qed.
Print Assumptions C178_top_level_lists.

Lemma nodup_filter_map {A} (g : A -> Z) f (l : list A) : NoDup (map g l) -> NoDup (map g (filter f l)).
Proof.
  induction l as [|x l IH]; intros N; cbn [map filter]; [constructor|]. cbn [map] in N. inversion N as [|? ? Nx N']; subst.
  destruct (f x); cbn [map]; [|auto]. constructor; [|auto]. intros I. apply Nx. apply in_map_iff in I. destruct I as (y & Ey & Iy).
  apply filter_In in Iy. apply in_map_iff. exists y. tauto.
Qed.
Lemma comments_sub b e cs ds : comments_ok cs -> exists f, decl_comments b e cs ds = filter f cs.
Proof.
  intros Hc. unfold decl_comments. rewrite comments_in_filter by exact Hc. rewrite !filter_filter.
  match goal with |- context [filter ?g cs] => generalize g end.
  induction ds as [|d ds IH]; intros f; cbn [fold_left]; [exists f; reflexivity|]. rewrite erase_for_filter, filter_filter. apply IH.
Qed.
Lemma listing_nodup b e cs ds f : comments_ok cs -> ids_ok cs ds ->
  NoDup (map snd (stable_sort (keyed_comments (decl_comments b e cs ds) ++ keyed_decls (filter f (imported_children ds []))))).
Proof.
  intros Hc [N D]. eapply Permutation_NoDup; [apply Permutation_map; apply sort_perm|]. rewrite map_app.
  unfold keyed_comments, keyed_decls. rewrite !map_map. cbn [snd]. destruct (comments_sub b e cs ds Hc) as (g & ->).
  apply nodup_join; [apply nodup_filter_map; exact N|apply nodup_filter_map; apply imported_ids_nodup|].
  intros x I K. apply in_map_iff in I, K. destruct I as (d & Ed & I), K as (c & Ec & K). apply filter_In in I, K.
  destruct I as [I _], K as [K _]. apply imported_first in I. destruct I as (pre & post & -> & _). apply (D c d K); [|congruence].
  apply in_or_app. right. left. reflexivity.
Qed.
(** Nothing is listed twice. *)
Theorem C178_listed_once alien p b e cs ds : comments_ok cs -> ids_ok cs ds -> NoDup (item_ids alien p b e cs ds).
Proof. intros Hc Hi. apply listing_nodup; assumption. Qed.
Print Assumptions C178_listed_once.
Theorem C178_top_level_listed_once cur cs ds t : comments_ok cs -> ids_ok cs ds -> NoDup (top_level_ids cur cs ds t).
Proof.
  intros Hc Hi. unfold top_level_ids. destruct (t =? cur); [apply listing_nodup; assumption|].
  eapply Permutation_NoDup; [apply Permutation_map; apply sort_perm|]. cbn [app]. unfold keyed_decls. rewrite map_map. cbn [snd].
  apply nodup_filter_map. apply imported_ids_nodup.
Qed.
Print Assumptions C178_top_level_listed_once.
Lemma free_by_id b e cs ds c c' : ids_ok cs ds -> In c' cs -> free_comment b e cs ds c -> c_id c = c_id c' -> c = c'.
Proof.
  intros [N _] I' (I & _) E. revert I I' E. clear -N. induction cs as [|x cs IH]; intros I I' E; [destruct I|]. cbn [map] in N.
  inversion N as [|? ? Nx N']; subst. destruct I as [<-|I], I' as [<-|I']; [reflexivity| | |auto].
  - exfalso. apply Nx. rewrite E. apply in_map. exact I'.
  - exfalso. apply Nx. rewrite <- E. apply in_map. exact I.
Qed.
(** A comment listed inside a declaration is not listed around it. *)
Theorem C178_comment_in_one_container alien p b e cs ds d alien' p' ds' c :
  comments_ok cs -> decls_ok ds -> decls_ok ds' -> ids_ok cs ds -> ids_ok cs ds' -> In d ds -> d_loc d <> 0%N -> In c cs ->
  In (c_id c) (item_ids alien' p' (d_begin d) (d_end d) cs ds') -> ~ In (c_id c) (item_ids alien p b e cs ds).
Proof.
  intros Hc Hd Hd' Hi Hi' Id Hl Ic H K. apply C178_container_lists in H; try assumption. apply C178_container_lists in K; try assumption.
  assert (Nd : forall es x, ids_ok cs es -> first_imported es x -> d_id x = c_id c -> False).
  { intros es x [_ D] (pre & post & -> & _) E. apply (D c x Ic); [apply in_or_app; right; left; reflexivity|congruence]. }
  destruct H as [(c1 & F1 & E1)|(x & (F & _) & E)]; [|exact (Nd ds' x Hi' F E)].
  destruct K as [(c2 & F2 & E2)|(x & (F & _) & E)]; [|exact (Nd ds x Hi F E)].
  apply (free_by_id _ _ _ _ c1 c Hi' Ic F1) in E1. apply (free_by_id _ _ _ _ c2 c Hi Ic F2) in E2. subst c1 c2.
  destruct F1 as (_ & _ & R & _), F2 as (_ & _ & _ & B). apply (B d Id). right. split; assumption.
Qed.
Print Assumptions C178_comment_in_one_container.

(** * C177 Iteration orders of hash tables do not show *)
(** Template instantiations, whose mangled names are different. *)
Theorem C177_instantiations set set' : Permutation set set' -> Forall (fun d => exists m, mangled_name (d_kind d) = Some m) set ->
  NoDup (map (fun d => mangled_name (d_kind d)) set) -> instantiation_ids set = instantiation_ids set'.
Proof.
  intros P K N. unfold instantiation_ids. f_equal. apply (sorted_unique (keyed_decls set)).
  - rewrite <- !sort_perm. apply Permutation_map. exact P.
  - apply sort_sorted.
  - apply sort_sorted.
  - intros x y Ix Iy. unfold keyed_decls in Ix, Iy. apply in_map_iff in Ix, Iy. destruct Ix as (d & <- & Id), Iy as (d' & <- & Id'). cbn [fst].
    destruct (precedes_total (decl_key d) (decl_key d')) as [H|[H|H]]; [auto| |auto]. left. destruct H as (_ & _ & _ & M). cbn in M.
    rewrite Forall_forall in K. destruct (K d Id) as (m & Em), (K d' Id') as (m' & Em').
    rewrite (name_mangled _ _ Em), (name_mangled _ _ Em') in M. subst m'.
    assert (d = d') as ->; [|reflexivity]. assert (E : mangled_name (d_kind d) = mangled_name (d_kind d')) by congruence.
    clear -N Id Id' E. induction set as [|x set IH]; [destruct Id|]. cbn [map] in N. inversion N as [|? ? Nx N']; subst.
    destruct Id as [<-|Id], Id' as [<-|Id']; [reflexivity| | |auto].
    + exfalso. apply Nx. rewrite E. apply (in_map (fun d => mangled_name (d_kind d))). exact Id'.
    + exfalso. apply Nx. rewrite <- E. apply (in_map (fun d => mangled_name (d_kind d))). exact Id.
  - intros x I. apply (Permutation_in _ (Permutation_sym (sort_perm _))). exact I.
Qed.
Print Assumptions C177_instantiations.

Definition no_ties (cache : Z -> option (ikind * Z)) (imported : list decl) : Prop :=
  forall p d d', member cache imported p d -> member cache imported p d' ->
    d = d' \/ precedes (decl_key d) (decl_key d') \/ precedes (decl_key d') (decl_key d).
Lemma members_same alien cache imported imported' m m' p : Permutation imported imported' -> same_map m m' -> no_ties cache imported ->
  children_of (add_members alien cache imported m) p = children_of (add_members alien cache imported' m') p.
Proof.
  intros P M T. unfold add_members. fold (sorted_members cache imported) (sorted_members cache imported').
  rewrite !children_fold, (same_children m m' p M), (members_order cache imported imported' p P (T p)). reflexivity.
Qed.
Lemma items_of_target alien m s ids : nested m -> items_of alien m s ids (target_items alien (build m s) ids).
Proof.
  intros N. unfold target_items. induction ids as [|id ids IH]; cbn [flat_map]; [constructor|].
  pose proof (build_complete m s id N) as C. destruct (find_item (build m s) id) as [t|]; cbn [app].
  - destruct (alien id) eqn:A; cbn [app]; [apply ItemsSkip; [right; exact A|exact IH]|apply ItemsCons; assumption].
  - apply ItemsSkip; [left; exact C|exact IH].
Qed.
Lemma items_of_same alien m m' s s' ids : (forall id, children_of m id = children_of m' id) -> (forall id, find_item s id = find_item s' id) ->
  forall ts ts', items_of alien m s ids ts -> items_of alien m' s' ids ts' -> ts = ts'.
Proof.
  intros Hm Hs ts ts' H. revert ts'. induction H as [|c l ts K _ IH|c l t ts C A _ IH]; intros ts' H'; inversion H' as [|? ? ? K' H''|? ? t' ts'' C' A' H'']; subst.
  - reflexivity.
  - auto.
  - exfalso. destruct K as [K|K]; [|congruence]. apply complete_found in C'. destruct C' as (t0 & E). rewrite <- Hs in E. congruence.
  - exfalso. destruct K' as [K|K]; [|congruence]. apply complete_found in C. destruct C as (t0 & E). rewrite Hs in E. congruence.
  - f_equal; [|auto]. exact (proj1 (complete_same m m' s s' Hm Hs) c t C t' C').
Qed.
(** The whole IR: whatever the orders of the import cache, of the table of
    children, of the table of items and of the set of instantiations. *)
Theorem C177_hash_orders_are_irrelevant cur cache imported imported' m m' s s' cs ds set set' t :
  Permutation imported imported' -> same_map m m' -> same_map s s' -> Permutation set set' ->
  no_ties cache imported ->
  Forall (fun d => exists n, mangled_name (d_kind d) = Some n) set -> NoDup (map (fun d => mangled_name (d_kind d)) set) ->
  nested (add_members (unsupported_alien cur cache) cache imported m) ->
  ir_items cur cache imported m s cs ds set t = ir_items cur cache imported' m' s' cs ds set' t.
Proof.
  intros Pi Pm Ps Pt T K N Hn. unfold ir_items, all_top_level_ids. rewrite (C177_instantiations set set' Pt K N).
  set (alien := unsupported_alien cur cache) in *. set (ids := _ ++ _).
  assert (Hm : forall id, children_of (add_members alien cache imported m) id = children_of (add_members alien cache imported' m') id)
    by (intros id; apply members_same; assumption).
  assert (Hs : forall id, find_item s id = find_item s' id) by (intros id; apply same_items; exact Ps).
  apply (items_of_same alien _ _ s s' ids Hm Hs); apply items_of_target; [exact Hn|].
  destruct Hn as (depth & Hd). exists depth. intros id l c E I. rewrite <- Hm in E. exact (Hd id l c E I).
Qed.
Print Assumptions C177_hash_orders_are_irrelevant.

(** Who is left out by [unsupported_alien], which the listings take as given: unsupported items of other targets, and nothing else. *)
Theorem C178_left_out cur cache id :
  (unsupported_alien cur cache id = true <-> exists target, cache id = Some (IUnsupported, target) /\ target <> cur).
Proof.
  unfold unsupported_alien. destruct (cache id) as [[k t]|]; [|split; [discriminate|intros (? & ? & _); discriminate]].
  destruct k; try (split; [discriminate|intros (? & ? & _); discriminate]).
  rewrite negb_true_iff, Z.eqb_neq. split; [eauto|]. intros (u & [= <-] & H). exact H.
Qed.
Print Assumptions C178_left_out.

(** The instantiations of class templates are all listed, once, after everything else of the current target, and in no other target. *)
Theorem C178_instantiations_come_last cur cs ds set t :
  exists rest, all_top_level_ids cur cs ds set t = top_level_ids cur cs ds t ++ rest /\
    (t <> cur -> rest = []) /\ (t = cur -> Permutation (map d_id set) rest).
Proof.
  exists (if t =? cur then instantiation_ids set else []). split; [reflexivity|]. split.
  - intros N. apply Z.eqb_neq in N. rewrite N. reflexivity.
  - intros ->. rewrite Z.eqb_refl. unfold instantiation_ids. rewrite <- sort_perm. unfold keyed_decls. rewrite map_map. cbn [snd]. apply Permutation_refl.
Qed.
Print Assumptions C178_instantiations_come_last.
Example C178_instantiations_case cs ds d : all_top_level_ids 1 cs ds [d] 2 = top_level_ids 1 cs ds 2.
Proof. unfold all_top_level_ids. cbn. apply app_nil_r. Qed.

(** * C179 The items of the IR are complete *)
Theorem C179_items_are_complete cur cache imported m s cs ds set t :
  let alien := unsupported_alien cur cache in
  let m' := add_members alien cache imported m in
  nested m' -> items_of alien m' s (all_top_level_ids cur cs ds set t) (ir_items cur cache imported m s cs ds set t).
Proof. cbv zeta. intros N. apply items_of_target. exact N. Qed.
Print Assumptions C179_items_are_complete.
(** ... and completeness leaves no choice. *)
Theorem C179_complete_is_unique m s id t t' : complete m s id t -> complete m s id t' -> t = t'.
Proof. intros H H'. exact (proj1 (complete_same m m s s (fun _ => eq_refl) (fun _ => eq_refl)) id t H t' H'). Qed.
Print Assumptions C179_complete_is_unique.
(** Children come before their parents in the copying order, and every
    container is in it. *)
Theorem C179_children_first m : nested m ->
  (forall pre x post l c, post_order m = pre ++ x :: post -> children_of m x = Some l -> In c l -> In c pre) /\
  (forall id l, In (id, l) m -> In id (post_order m)).
Proof.
  intros (depth & Hd). destruct (post_order_ok m depth Hd) as [C O]. split; [|exact O].
  intros pre x post0 l c E El I. apply (C pre x post0 E). unfold kids. rewrite El. exact I.
Qed.
Print Assumptions C179_children_first.

(** * C180 Members belong to their class *)
Theorem C180_members_in_their_class alien cache imported m p : (exists d, member cache imported p d) ->
  exists l new, children_of (add_members alien cache imported m) p = Some (l ++ new) /\
    (children_of m p = Some l \/ (children_of m p = None /\ l = [])) /\
    NoDup new /\ (forall x, In x new -> ~ In x l) /\
    (forall d, member cache imported p d -> alien (d_id d) = false -> In (d_id d) (l ++ new)) /\
    (forall x, In x new -> exists d, member cache imported p d /\ d_id d = x /\ alien x = false).
Proof.
  intros (d0 & M0). unfold add_members. fold (sorted_members cache imported). rewrite children_fold.
  destruct (fold_step alien (filter (in_class p) (map snd (sorted_members cache imported))) (children_of m p)) as (l' & E & new & El & N & D & A & O).
  - intros E. apply sorted_members_in in M0. rewrite E in M0. destruct M0.
  - exists (match children_of m p with Some l => l | None => [] end), new. rewrite E, El. split; [reflexivity|].
    split; [destruct (children_of m p); auto|]. split; [exact N|]. split; [exact D|]. split.
    + intros d M K. rewrite <- El. apply A; [apply sorted_members_in; exact M|exact K].
    + intros x I. destruct (O x I) as (d & Id & Ed & Ad). exists d. split; [apply sorted_members_in; exact Id|auto].
Qed.
Print Assumptions C180_members_in_their_class.
(** Nothing else changes. *)
Theorem C180_other_lists_unchanged alien cache imported m p : (forall d, ~ member cache imported p d) ->
  children_of (add_members alien cache imported m) p = children_of m p.
Proof.
  intros H. unfold add_members. fold (sorted_members cache imported). rewrite children_fold.
  destruct (filter (in_class p) (map snd (sorted_members cache imported))) as [|d l] eqn:E; [reflexivity|].
  exfalso. apply (H d). apply sorted_members_in. rewrite E. left. reflexivity.
Qed.
Print Assumptions C180_other_lists_unchanged.
(** No member is also listed where it is defined out of line - in a namespace. *)
Theorem C180_not_in_the_namespace alien n b e cs ds d p : comments_ok cs -> decls_ok ds -> ids_ok cs ds ->
  first_imported ds d -> d_ctx d = CRecord p -> ~ In (d_id d) (item_ids alien (CNamespace n) b e cs ds).
Proof.
  intros Hc Hd [_ Hi] F E I. apply C178_container_lists in I; try assumption. destruct I as [(c & Fc & Ec)|(d' & (F' & _ & M) & E')].
  - destruct Fc as (Ic & _), F as (pre & post & -> & _). apply (Hi c d Ic); [apply in_or_app; right; left; reflexivity|exact Ec].
  - assert (d' = d) as ->.
    { apply imported_first in F, F'. pose proof (proj1 (imported_ids_nodup ds [])) as N. clear -F F' E' N.
      induction (imported_children ds []) as [|x l IH]; [destruct F|]. cbn [map] in N. inversion N as [|? ? Nx N']; subst.
      destruct F as [<-|F], F' as [<-|F']; [reflexivity| | |auto]; exfalso; apply Nx; [rewrite <- E'|rewrite E']; apply in_map; assumption. }
    apply M. exists p. split; [exact E|discriminate].
Qed.
Print Assumptions C180_not_in_the_namespace.
(** At the top level only classes are left out ... *)
Theorem C180_not_at_the_top_partial cur cs ds t d : comments_ok cs -> decls_ok ds -> ids_ok cs ds ->
  first_imported ds d -> nested_class d -> ~ In (d_id d) (top_level_ids cur cs ds t).
Proof.
  intros Hc Hd [_ Hi] F E I. apply C178_top_level_lists in I; try assumption. destruct I as [(_ & c & Fc & Ec)|(d' & F' & _ & M & E')].
  - destruct Fc as (Ic & _), F as (pre & post & -> & _). apply (Hi c d Ic); [apply in_or_app; right; left; reflexivity|exact Ec].
  - assert (d' = d) as ->; [|contradiction].
    apply imported_first in F, F'. pose proof (proj1 (imported_ids_nodup ds [])) as N. clear -F F' E' N.
    induction (imported_children ds []) as [|x l IH]; [destruct F|]. cbn [map] in N. inversion N as [|? ? Nx N']; subst.
    destruct F as [<-|F], F' as [<-|F']; [reflexivity| | |auto]; exfalso; apply Nx; [rewrite <- E'|rewrite E']; apply in_map; assumption.
Qed.
Print Assumptions C180_not_at_the_top_partial.

(** ** Concrete sources *)
(** [struct A { enum E : int; }; enum A::E : int { kX };] in a header of
    target 0: the definition of the enum is a child of the translation unit,
    its context is A. *)
Definition exA := Decl 1 Record 10 30 17 CTop true None 0.
Definition exE := Decl 2 OtherDecl 40 60 48 (CRecord 1) true None 0.
Definition ex_cache (id : Z) : option (ikind * Z) := if id =? 1 then Some (IRecord, 0) else if id =? 2 then Some (IOther, 0) else None.
Definition ex_ir := ir_items 0 ex_cache [exA; exE] [(1, [])] [(1, Node 1 IRecord []); (2, Node 2 IOther [])] [] [exA; exE] [] 0.
(** ... so an enumeration that is defined out of line is in the IR twice. *)
Theorem C180_not_at_the_top_refuted :
  ex_ir = [Node 1 IRecord [Node 2 IOther []]; Node 2 IOther []] /\
  exists d p, first_imported [exA; exE] d /\ d_ctx d = CRecord p /\ member ex_cache [exA; exE] p d /\
    In (d_id d) (top_level_ids 0 [] [exA; exE] 0).
Proof.
  split; [reflexivity|]. exists exE, 1. split; [|split; [reflexivity|split]].
  - exists [exA], []. split; [reflexivity|]. split; [reflexivity|]. intros d' [<-|[]] _. cbn. discriminate.
  - split; [right; left; reflexivity|]. split; [reflexivity|]. exists 0. reflexivity.
  - cbn. auto.
Qed.
Print Assumptions C180_not_at_the_top_refuted.

(** A class with its implicit members, all at the name of the class; a
    comment before it, one inside, one after, and one that documents it. *)
Definition mk id k c := Decl id k 25 25 25 c true None 0.
Definition ex_class := Decl 1 Record 20 29 25 CTop true (Some 15%N) 0.
Definition ex_members :=
  [mk 6 (Method MoveAssign "_ZN1SaSEOS_") (CRecord 1); mk 5 (Method CopyAssign "_ZN1SaSERKS_") (CRecord 1); mk 4 (Dtor "_ZN1SD1Ev") (CRecord 1);
   mk 3 (Ctor MoveCtor "_ZN1SC1EOS_") (CRecord 1); mk 2 (Ctor CopyCtor "_ZN1SC1ERKS_") (CRecord 1); mk 7 (Ctor DefaultCtor "_ZN1SC1Ev") (CRecord 1)].
Definition ex_comments := [Comment 101 5 9 false; Comment 102 10 12 true; Comment 103 15 18 false; Comment 104 22 24 false; Comment 105 40 45 false].
Example ex_comments_ok : comments_ok ex_comments.
Proof. split; repeat constructor; cbn; lia. Qed.
Example ex_top : top_level_ids 0 ex_comments [ex_class] 0 = [101; 1; 105] /\ top_level_ids 0 ex_comments [ex_class] 7 = [].
Proof. split; reflexivity. Qed.
Example ex_implicit : item_ids (fun _ => false) (CRecord 1) 20 29 ex_comments ex_members = [104; 7; 2; 3; 4; 5; 6].
Proof. reflexivity. Qed.
Example ex_inside : item_ids (fun _ => false) (CRecord 1) 20 29 ex_comments [Decl 9 (Function "f") 26 27 26 (CRecord 1) true None 0] = [104; 9].
Proof. reflexivity. Qed.
Example ex_first : listed_decl (fun _ => false) (CRecord 1) ex_members (mk 3 (Ctor MoveCtor "_ZN1SC1EOS_") (CRecord 1)).
Proof.
  split; [|split; [reflexivity|intros (p & E & N); apply N; exact E]].
  apply imported_first. cbn. auto 10.
Qed.
(** Two instantiations of one template, in either order of the hash set. *)
Definition exI n m := Decl n (Specialization m) 70 80 75 CTop true None 0.
Example ex_instantiations : instantiation_ids [exI 1 "_1XIiE"; exI 2 "_1XIdE"] = [2; 1] /\ instantiation_ids [exI 2 "_1XIdE"; exI 1 "_1XIiE"] = [2; 1].
Proof. split; reflexivity. Qed.
(** A namespace with a class with a nested class, in two hash orders. *)
Definition ex_map : child_map := [(1, [2; 4]); (2, [3; 9]); (3, [])].
Definition ex_map' : child_map := [(3, []); (2, [3; 9]); (1, [2; 4])].
Definition ex_store : store := [(1, Node 1 INamespace []); (2, Node 2 IRecord []); (3, Node 3 IRecord []); (4, Node 4 IOther [])].
Example ex_build : find_item (build ex_map ex_store) 1 = Some (Node 1 INamespace [Node 2 IRecord [Node 3 IRecord []]; Node 4 IOther []]) /\
  find_item (build ex_map' ex_store) 1 = find_item (build ex_map ex_store) 1.
Proof. split; reflexivity. Qed.
Example ex_nested : nested ex_map.
Proof.
  exists (fun id => if id =? 1 then 0%nat else if id =? 2 then 1%nat else if id =? 3 then 2%nat else 3%nat).
  intros id l c E I. unfold ex_map in E. cbn [children_of] in E. destruct (Z.eqb_spec 1 id) as [<-|]; [injection E as <-; cbn in I; destruct I as [<-|[<-|[]]]; cbn; lia|].
  destruct (Z.eqb_spec 2 id) as [<-|]; [injection E as <-; cbn in I; destruct I as [<-|[<-|[]]]; cbn; lia|].
  destruct (Z.eqb_spec 3 id) as [<-|]; [injection E as <-; destruct I|discriminate E].
Qed.
Example ex_same : same_map ex_map ex_map'.
Proof.
  split; [repeat constructor; cbn; intros H; repeat destruct H as [H|H]; try discriminate; destruct H|]. unfold ex_map, ex_map'.
  apply (Permutation_rev [(1, [2; 4]); (2, [3; 9]); (3, [])]).
Qed.
(** Members defined out of line go to the end of their class, in source order,
    whatever the order of the cache. *)
Definition exB := Decl 3 Record 45 50 46 (CRecord 1) true None 0.
Example ex_add : add_members (fun _ => false) ex_cache [exE; exA; exB] [(1, [9])] = [(1, [9; 2; 3])] /\
  add_members (fun _ => false) ex_cache [exB; exE; exA] [(1, [9])] = [(1, [9; 2; 3])].
Proof. split; reflexivity. Qed.
Example ex_no_ties : no_ties ex_cache [exE; exA; exB].
Proof.
  intros p d d' (I & E & _) (I' & E' & _). destruct I as [<-|[<-|[<-|[]]]], I' as [<-|[<-|[<-|[]]]]; try discriminate; auto.
  - right; left. apply PrecBegin; repeat split; discriminate.
  - right; right. apply PrecBegin; repeat split; discriminate.
Qed.
