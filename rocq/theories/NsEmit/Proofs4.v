(** Printing the map: every module gets the children of all of its blocks. *)
From Coq Require Import ZArith List Bool String Lia Permutation.
From Verif.NsEmit Require Import Model Spec Proofs Proofs2 Proofs3.
Import ListNotations.
Local Open Scope Z_scope.
Local Open Scope list_scope.

(** Bindable blocks of [c]: ids, notes. *)
Definition vb (c : Z) (F : list item) : list Z := flat_map (ownsel c (fun b _ => [b_id b])) F.
Definition notes (c : Z) (F : list item) : list (option string) :=
  flat_map (ownsel c (fun b _ => [b_depr b])) F.

Fixpoint vids (c : Z) (i : item) : list Z :=
  match i with
  | Leaf _ _ _ => []
  | Ns b ch =>
      if b_attr_ok b
      then (if b_canon b =? c then [b_id b] else []) ++ flat_map (vids c) ch
      else []
  end.

Inductive Subseq {A} : list A -> list A -> Prop :=
| Sub_nil l : Subseq [] l
| Sub_keep x l l' : Subseq l l' -> Subseq (x :: l) (x :: l')
| Sub_drop x l l' : Subseq l l' -> Subseq l (x :: l').

Lemma subseq_app {A} (a b a' b' : list A) : Subseq a a' -> Subseq b b' -> Subseq (a ++ b) (a' ++ b').
Proof.
  induction 1 as [l|x l l' H IH|x l l' H IH]; intros Hb; cbn [app].
  - induction l; [exact Hb|]. cbn [app]. constructor. exact IHl.
  - constructor. auto.
  - constructor. auto.
Qed.

Lemma subseq_in {A} (l l' : list A) x : Subseq l l' -> In x l -> In x l'.
Proof. induction 1; cbn [In]; intuition. Qed.

Lemma subseq_refl {A} (l : list A) : Subseq l l.
Proof. induction l; constructor; assumption. Qed.

Lemma subseq_last {A} (pre : list A) x l :
  NoDup (pre ++ [x]) -> Subseq l (pre ++ [x]) -> In x l -> exists l', l = l' ++ [x].
Proof.
  revert l. induction pre as [|a pre IH]; intros l Hn Hs Hx; cbn [app] in *.
  - inversion Hs as [|y k k' Hk|y k k' Hk]; subst; [destruct Hx| |].
    + inversion Hk; subst. exists []. reflexivity.
    + inversion Hk; subst. destruct Hx.
  - apply NoDup_cons_iff in Hn. destruct Hn as [Hni Hn].
    inversion Hs as [|y k k' Hk|y k k' Hk]; subst; [destruct Hx| |].
    + destruct Hx as [-> |Hx].
      * exfalso. apply Hni. apply in_or_app. right. left. reflexivity.
      * destruct (IH k Hn Hk Hx) as [l' ->]. exists (a :: l'). reflexivity.
    + exact (IH l Hn Hk Hx).
Qed.

Lemma subseq_flat_map {A B} (f g : A -> list B) l :
  (forall x, In x l -> Subseq (f x) (g x)) -> Subseq (flat_map f l) (flat_map g l).
Proof.
  induction l as [|x l IH]; intros H; cbn [flat_map]; [constructor|].
  apply subseq_app; [apply H; left; reflexivity|apply IH; intros y Hy; apply H; right; exact Hy].
Qed.

Lemma vids_subseq c i : Subseq (vids c i) (blocks_of c i).
Proof.
  induction i as [id t o|b ch IH] using item_ind'; cbn [vids blocks_of]; [constructor|].
  destruct (b_attr_ok b); [|constructor]. apply subseq_app; [apply subseq_refl|].
  apply subseq_flat_map. rewrite Forall_forall in IH. exact IH.
Qed.

Lemma vids_path cur c q F :
  (forall e ok b ch, Occurs F e ok (Ns b ch) -> b_target b = cur) ->
  (forall e ok b ch, Occurs F e ok (Ns b ch) -> b_canon b = c -> e = q) ->
  flat_map (vids c) F = vb c (M q F).
Proof.
  intros Ht Hs. apply path_lemma with (cur := cur); [| | | |exact Ht|exact Hs].
  - reflexivity.
  - intros b ch _ Eo. cbn [vids]. rewrite Eo. reflexivity.
  - intros b ch _ Eo Hc. cbn [vids]. rewrite Eo. destruct (Z.eqb_spec (b_canon b) c); [congruence|reflexivity].
  - intros b ch _ Eo Hc Hn. cbn [vids]. rewrite Eo, Hc, Z.eqb_refl, Hn. reflexivity.
Qed.

Lemma vb_in c F x : In x (vb c F) <->
  exists b ch, In (Ns b ch) F /\ b_attr_ok b = true /\ b_canon b = c /\ b_id b = x.
Proof.
  unfold vb. rewrite in_flat_map. split.
  - intros ([id t o|b ch] & Hi & H); cbn [ownsel] in H; [destruct H|].
    destruct (b_attr_ok b) eqn:Eo; cbn [andb] in H; [|destruct H].
    destruct (Z.eqb_spec (b_canon b) c); [|destruct H]. destruct H as [<- |[]]. eauto 7.
  - intros (b & ch & Hi & Eo & Ec & Ex). exists (Ns b ch). split; [exact Hi|]. cbn [ownsel].
    rewrite Eo, Ec, Z.eqb_refl. left. exact Ex.
Qed.

Lemma vb_nonempty c F : vb c F <> [] <->
  exists b ch, In (Ns b ch) F /\ b_attr_ok b = true /\ b_canon b = c.
Proof.
  split.
  - intros H. destruct (vb c F) as [|x r] eqn:E; [congruence|].
    assert (Hx : In x (vb c F)) by (rewrite E; left; reflexivity).
    apply vb_in in Hx. destruct Hx as (b & ch & H1 & H2 & H3 & _). eauto.
  - intros (b & ch & H1 & H2 & H3) E.
    assert (Hx : In (b_id b) (vb c F)) by (apply vb_in; eauto 7). rewrite E in Hx. destruct Hx.
Qed.

Lemma vb_empty_members c F : vb c F = [] -> members c F = [].
Proof.
  intros H. destruct (members c F) as [|i r] eqn:E; [reflexivity|].
  assert (Hi : In i (members c F)) by (rewrite E; left; reflexivity).
  apply in_members in Hi. destruct Hi as (b & ch & H1 & H2 & H3 & _).
  exfalso. apply (proj2 (vb_nonempty c F)); eauto.
Qed.

Lemma vb_cons c i F : vb c (i :: F) = ownsel c (fun b _ => [b_id b]) i ++ vb c F.
Proof. reflexivity. Qed.

Lemma vb_app c F G : vb c (F ++ G) = vb c F ++ vb c G.
Proof. apply flat_map_app. Qed.

(** ** Heights *)
Fixpoint hgt (i : item) : nat :=
  match i with
  | Leaf _ _ _ => 0
  | Ns _ ch => S (list_max (map hgt ch))
  end.
Definition hl (F : list item) : nat := list_max (map hgt F).

Lemma list_max_in n l : In n l -> (n <= list_max l)%nat.
Proof.
  intros H. pose proof (proj1 (list_max_le l (list_max l)) (le_n _)) as HF.
  rewrite Forall_forall in HF. auto.
Qed.

Lemma hl_in i F : In i F -> (hgt i <= hl F)%nat.
Proof. intros H. apply list_max_in. apply in_map. exact H. Qed.

Lemma hl_le F n : (forall i, In i F -> (hgt i <= n)%nat) -> (hl F <= n)%nat.
Proof.
  intros H. apply list_max_le. apply Forall_forall. intros x Hx. apply in_map_iff in Hx.
  destruct Hx as (i & <- & Hi). auto.
Qed.

Lemma hl_members c F b ch : In (Ns b ch) F -> (hl (members c F) < hl F)%nat.
Proof.
  intros Hb. assert (H1 : (1 <= hl F)%nat).
  { apply hl_in in Hb. cbn [hgt] in Hb. lia. }
  assert (hl (members c F) <= hl F - 1)%nat; [|lia].
  apply hl_le. intros i Hi. apply in_members in Hi. destruct Hi as (b' & ch' & Hb' & _ & _ & Hi).
  apply hl_in in Hb'. cbn [hgt] in Hb'. fold (hl ch') in Hb'. apply hl_in in Hi. lia.
Qed.

Lemma length_flat_map_in {A B} (f : A -> list B) l x :
  In x l -> (List.length (f x) <= List.length (flat_map f l))%nat.
Proof.
  induction l as [|a l IH]; cbn [In flat_map]; intros H; [tauto|]. rewrite app_length.
  destruct H as [-> |H]; [lia|]. specialize (IH H). lia.
Qed.

Lemma hgt_preorder i : (hgt i <= List.length (preorder i))%nat.
Proof.
  induction i as [id t o|b ch IH] using item_ind'; cbn [hgt preorder List.length]; [lia|].
  assert (list_max (map hgt ch) <= List.length (flat_map preorder ch))%nat; [|lia].
  apply (hl_le ch). intros i Hi. rewrite Forall_forall in IH. specialize (IH i Hi).
  pose proof (length_flat_map_in preorder ch i Hi). lia.
Qed.

Lemma hl_top cur (t : ir) : (hl (top_level cur t) <= List.length (all_items t))%nat.
Proof.
  destruct (top_level_in cur t) as [E|Hin]; [rewrite E; cbn; lia|].
  apply hl_le. intros i Hi. pose proof (hgt_preorder i).
  pose proof (length_flat_map_in preorder _ i Hi).
  pose proof (length_flat_map_in (fun p => flat_map preorder (snd p)) t _ Hin) as HH. cbn [snd] in HH.
  unfold all_items. lia.
Qed.

(** ** Lookups *)
Lemma find_ns_in l b ch : NoDup (map item_id l) -> In (Ns b ch) l -> find_ns (b_id b) l = Some b.
Proof.
  induction l as [|i l IH]; cbn [map In find_ns]; intros Hn Hi; [tauto|].
  apply NoDup_cons_iff in Hn. destruct Hn as [Hni Hn].
  destruct Hi as [-> |Hi].
  - cbn [item_id]. rewrite Z.eqb_refl. reflexivity.
  - destruct (Z.eqb_spec (item_id i) (b_id b)) as [E|_]; [|auto].
    exfalso. apply Hni. rewrite E. apply (in_map item_id) in Hi. exact Hi.
Qed.

Lemma evl_occ cur T : (forall e ok b ch, Occurs T e ok (Ns b ch) -> b_target b = cur) ->
  forall e i, Occurs T e true i -> incl (evl cur true i) (flat_map (evl cur true) T).
Proof.
  intros Ht e i H. remember true as k eqn:Ek in H. revert Ht Ek.
  induction H as [l i Hi|l b ch e ok i Hi Ho IH]; intros Ht Ek x Hx.
  - apply in_flat_map. eauto.
  - apply andb_true_iff in Ek. destruct Ek as [Eo ->].
    apply in_flat_map. exists (Ns b ch). split; [exact Hi|].
    rewrite evl_eq. unfold is_foreign.
    rewrite (Ht [] true b ch), Z.eqb_refl, Eo by (constructor; exact Hi). cbn [negb andb].
    apply in_or_app. left. apply IH; [|reflexivity|exact Hx].
    intros e0 ok0 b0 ch0 Ho0. exact (Ht _ _ _ _ (occurs_child _ _ _ _ _ _ Hi Ho0)).
Qed.

Section Emission.
Variable cur : Z.
Variable t : ir.
Hypothesis W : WellFormed cur t.
Hypothesis R : Regular cur t.
Let T := top_level cur t.
Let HT : Top cur T := top_of_wf cur t W.
Variable gen : snippets.
Hypothesis HR : Rep gen (flat_map (evl cur true) T).

Lemma canon_ok : CanonOk T.
Proof.
  intros e b ch e' b' ch' H1 H2 H3 H4. exact (reg_canon _ _ R e b ch e' b' ch' (conj H1 H2) H3 H4).
Qed.

Lemma HM : Mergeable (flat_map (evl cur true) T).
Proof. apply mergeable_top; [exact HT|exact canon_ok]. Qed.

Lemma nodup_all : NoDup (map item_id (all_items t)).
Proof. rewrite ids_all. exact (wf_ids _ _ W). Qed.

Lemma occ_all e ok i : Occurs T e ok i -> In i (all_items t).
Proof.
  intros H. unfold T in H. destruct (top_level_in cur t) as [E|Hin].
  - rewrite E in H. inversion H as [? ? Hi|? ? ? ? ? ? Hi]; destruct Hi.
  - exact (occurs_all _ _ _ _ _ _ Hin H).
Qed.

Lemma occ_eq e ok i e' ok' i' : Occurs T e ok i -> Occurs T e' ok' i' -> item_id i = item_id i' -> i = i'.
Proof.
  intros H H' E. apply (nodup_map_inj item_id (all_items t)); [exact nodup_all| | |exact E];
    eapply occ_all; eassumption.
Qed.

Lemma lookup_own k g : In (k, g) (flat_map (evl cur true) T) -> ~ isCan g -> lookup k gen = Some g.
Proof.
  intros H Hg. destruct HR as [_ HR']. specialize (HR' k). apply fk_in in H.
  destruct (HM k) as [HL|HF].
  - destruct (fk k (flat_map (evl cur true) T)) as [|g0 r] eqn:E; [destruct H|].
    cbn [List.length] in HL. destruct r; [|cbn [List.length] in HL; lia].
    destruct H as [-> |[]].
    destruct (lookup k gen) as [g1|]; [|discriminate HR'].
    remember [g] as l eqn:El. destruct HR' as [g1|l1 g1 l2 g2 g3 C1 C2 Hm].
    + congruence.
    + apply comb_nonempty in C1. apply comb_nonempty in C2.
      destruct l1 as [|? [|]]; destruct l2; try congruence; discriminate El.
  - rewrite Forall_forall in HF. exfalso. exact (Hg (HF g H)).
Qed.

Lemma lookup_none q i : Occurs T q true i -> evl cur true i = [] -> lookup (item_id i) gen = None.
Proof.
  intros Ho E. destruct HR as [_ HR']. specialize (HR' (item_id i)).
  destruct (lookup (item_id i) gen) as [g|] eqn:El; [|reflexivity]. exfalso.
  apply comb_nonempty in HR'.
  destruct (fk (item_id i) (flat_map (evl cur true) T)) as [|g0 r] eqn:Ef; [congruence|].
  assert (Hi : In g0 (fk (item_id i) (flat_map (evl cur true) T))) by (rewrite Ef; left; reflexivity).
  apply fk_in in Hi. apply evl_in in Hi. destruct Hi as (e & i' & Ho' & Hk).
  destruct i as [id u o|b ch].
  2:{ rewrite evl_eq in E. unfold is_foreign in E. rewrite (top_target _ _ HT _ _ _ _ Ho), Z.eqb_refl in E.
      cbn [negb] in E. destruct (true && b_attr_ok b); [|discriminate E].
      apply app_eq_nil in E. destruct E as [_ E]. apply app_eq_nil in E. destruct E as [_ E]. discriminate E. }
  cbn [item_id] in *. destruct i' as [id' u' o'|b' ch'].
  - destruct Hk as (Hk & _ & Hf & Hno).
    assert (Leaf id u o = Leaf id' u' o') as [= _ -> ->] by (eapply occ_eq; [exact Ho|exact Ho'|cbn; congruence]).
    cbn [evl] in E. rewrite Hf in E. destruct o'; [discriminate E|congruence].
  - destruct Hk as [(Hk & _)|[(Hk & _)|(Hk & _)]].
    + assert (Leaf id u o = Ns b' ch') by (eapply occ_eq; [exact Ho|exact Ho'|cbn; congruence]). discriminate.
    + assert (Leaf id u o = Ns b' ch') by (eapply occ_eq; [exact Ho|exact Ho'|cbn; congruence]). discriminate.
    + destruct (top_canon _ _ HT _ _ _ _ _ _ _ Ho' Ho) as (b2 & ch2 & [=] & _). exact Hk.
Qed.

Lemma scope_of q b ch : Occurs T q true (Ns b ch) ->
  forall e ok b' ch', Occurs T e ok (Ns b' ch') -> b_canon b' = b_canon b -> e = q.
Proof. intros H e ok b' ch' H' E. exact (top_scope _ _ HT _ _ _ _ _ _ _ _ H' H E). Qed.

Lemma lookup_canon q b ch : Occurs T q true (Ns b ch) -> b_attr_ok b = true ->
  exists d, lookup (b_canon b) gen = Some (GCanonical (map item_id (M (q ++ [b_canon b]) T)) d) /\
            MergeNotes (notes (b_canon b) (M q T)) d.
Proof.
  intros Ho Eo. set (c := b_canon b).
  assert (Hev : In (c, GCanonical (map item_id ch) (b_depr b)) (flat_map (evl cur true) T)).
  { apply (evl_occ cur T (top_target _ _ HT) q (Ns b ch) Ho). rewrite evl_eq. unfold is_foreign.
    rewrite (top_target _ _ HT _ _ _ _ Ho), Z.eqb_refl, Eo. cbn [negb andb].
    apply in_or_app. right. apply in_or_app. right. left. reflexivity. }
  assert (HF : Forall isCan (fk c (flat_map (evl cur true) T))).
  { apply fk_in in Hev. destruct (HM c) as [HL|HF]; [|exact HF].
    destruct (fk c (flat_map (evl cur true) T)) as [|g0 [|]]; cbn [List.length] in HL; [destruct Hev| |lia].
    destruct Hev as [-> |[]]. constructor; [exact Logic.I|constructor]. }
  pose proof (cev_path cur c q T (top_target _ _ HT) (scope_of q b ch Ho)) as Hp.
  assert (Hid : filter is_can (fk c (flat_map (evl cur true) T)) = fk c (flat_map (evl cur true) T)).
  { clear - HF. induction HF as [|g l Hg _ IH]; [reflexivity|]. cbn [filter].
    destruct g; cbn [isCan] in Hg; try tauto. cbn [is_can]. rewrite IH. reflexivity. }
  rewrite Hid in Hp. destruct HR as [_ HR']. specialize (HR' c).
  destruct (lookup c gen) as [g|] eqn:El.
  2:{ apply fk_in in Hev. rewrite HR' in Hev. destruct Hev. }
  destruct (comb_items _ _ HR' HF) as (d & Eg & Hd). rewrite Hp in Eg, Hd.
  exists d. split.
  - rewrite Eg. do 2 f_equal. rewrite M_snoc. unfold members. rewrite map_flat_map, flat_map_flat_map.
    apply flat_map_ext_in'. intros [id u o|b' ch'] _; [reflexivity|]. cbn [ownsel sel].
    destruct (b_attr_ok b' && (b_canon b' =? c)); [|reflexivity]. cbn [flat_map]. apply app_nil_r.
  - unfold notes. rewrite map_flat_map in Hd. erewrite flat_map_ext_in'; [exact Hd|].
    intros [id u o|b' ch'] _; [reflexivity|]. cbn [ownsel].
    destruct (b_attr_ok b' && (b_canon b' =? c)); reflexivity.
Qed.

Lemma last_block q b ch : Occurs T q true (Ns b ch) -> b_attr_ok b = true ->
  exists pre last, vb (b_canon b) (M q T) = pre ++ [last] /\ NoDup (pre ++ [last]) /\
    forall x, In x (vb (b_canon b) (M q T)) ->
      is_last_reopened (number cur t) x (b_canon b) = Some (x =? last).
Proof.
  intros Ho Eo.
  destruct (reg_last _ _ R q b ch (conj Ho Eo)) as (pre & e' & b' & ch' & Eb & [Ho' Eo'] & Ec).
  assert (Hv : flat_map (vids (b_canon b)) T = vb (b_canon b) (M q T)).
  { apply (vids_path cur); [exact (top_target _ _ HT)|exact (scope_of q b ch Ho)]. }
  assert (Hsub : Subseq (vb (b_canon b) (M q T)) (pre ++ [b_id b'])).
  { rewrite <- Hv. rewrite <- Eb. apply subseq_flat_map. intros. apply vids_subseq. }
  assert (Hnd : NoDup (pre ++ [b_id b'])).
  { rewrite <- Eb.
    apply (nodup_flat_map_incl (blocks_of (b_canon b)) ids_of T); [|exact (top_ids _ _ HT)].
    intros x _. clear. induction x as [id u o|b0 ch0 IH] using item_ind'; intros Hn; cbn [blocks_of ids_of] in *.
    - split; [constructor|intros y []].
    - apply NoDup_cons_iff in Hn. destruct Hn as [Hni Hn].
      destruct (nodup_flat_map_incl (blocks_of (b_canon b)) ids_of ch0) as [N I].
      { rewrite Forall_forall in IH. exact IH. }
      { exact Hn. }
      destruct (b_canon b0 =? b_canon b); cbn [app].
      + split; [constructor; [intros Hi; apply Hni, I, Hi|exact N]|].
        intros y [<- |Hy]; [left; reflexivity|right; apply I, Hy].
      + split; [exact N|]. intros y Hy. right. apply I, Hy. }
  assert (Hl : In (b_id b') (vb (b_canon b) (M q T))).
  { apply vb_in. exists b', ch'. split; [|auto]. apply in_M.
    rewrite (scope_of q b ch Ho e' true b' ch' Ho' Ec) in Ho'. exact Ho'. }
  destruct (subseq_last _ _ _ Hnd Hsub Hl) as [l' El].
  exists l', (b_id b'). split; [exact El|]. split.
  - rewrite <- El, <- Hv.
    apply (nodup_flat_map_incl (vids (b_canon b)) ids_of T); [|exact (top_ids _ _ HT)].
    intros x _. clear. induction x as [id u o|b0 ch0 IH] using item_ind'; intros Hn; cbn [vids ids_of] in *.
    + split; [constructor|intros y []].
    + apply NoDup_cons_iff in Hn. destruct Hn as [Hni Hn].
      destruct (nodup_flat_map_incl (vids (b_canon b)) ids_of ch0) as [N I].
      { rewrite Forall_forall in IH. exact IH. }
      { exact Hn. }
      destruct (b_attr_ok b0); [|split; [constructor|intros y []]].
      destruct (b_canon b0 =? b_canon b); cbn [app].
      * split; [constructor; [intros Hi; apply Hni, I, Hi|exact N]|].
        intros y [<- |Hy]; [left; reflexivity|right; apply I, Hy].
      * split; [exact N|]. intros y Hy. right. apply I, Hy.
  - intros x Hx. apply (number_last cur t (b_canon b) pre (b_id b')).
    + exact nodup_all.
    + rewrite (cur_blocks_all cur t _ W). exact Eb.
    + apply (subseq_in _ _ _ Hsub Hx).
Qed.

(** ** The result *)
Inductive Merged : list Z -> list item -> list tok -> Prop :=
| Mg_nil q : Merged q [] []
| Mg_leaf q id u o rest toks :
    Merged q rest toks ->
    Merged q (Leaf id u o :: rest) (map TLeaf (direct cur (Leaf id u o)) ++ toks)
| Mg_bad q b ch rest toks :
    b_attr_ok b = false -> Merged q rest toks ->
    Merged q (Ns b ch :: rest) (TLeaf (EUnsupported (b_id b)) :: toks)
| Mg_skip q b ch rest toks :
    b_attr_ok b = true -> vb (b_canon b) rest <> [] -> Merged q rest toks ->
    Merged q (Ns b ch :: rest) toks
| Mg_mod q b ch rest toks body d cb cch :
    b_attr_ok b = true -> vb (b_canon b) rest = [] ->
    In (Ns cb cch) (all_items t) -> b_id cb = b_canon b ->
    MergeNotes (notes (b_canon b) (M q T)) d ->
    Merged (q ++ [b_canon b]) (M (q ++ [b_canon b]) T) body ->
    Merged q rest toks ->
    Merged q (Ns b ch :: rest) (TMod (b_canon b) d (b_name cb) (b_inline cb) body :: toks).

Definition emit_id (fuel : nat) (id : Z) : res (list tok) :=
  match lookup id gen with
  | None => Ok []
  | Some (GLeaf e) => Ok [TLeaf e]
  | Some _ =>
      match find_ns id (all_items t) with
      | Some b =>
          match is_last_reopened (number cur t) id (b_canon b) with
          | None => Panic
          | Some false => Ok []
          | Some true =>
              match lookup (b_canon b) gen with
              | Some (GCanonical l d) =>
                  bind (emit gen (all_items t) (number cur t) fuel l) (fun body =>
                  match find_ns (b_canon b) (all_items t) with
                  | Some cb => Ok [TMod (b_canon b) d (b_name cb) (b_inline cb) body]
                  | _ => Panic
                  end)
              | _ => Panic
              end
          end
      | _ => Panic
      end
  end.

Lemma emit_nil fuel : emit gen (all_items t) (number cur t) (S fuel) [] = Ok [].
Proof. reflexivity. Qed.

Lemma emit_cons fuel id ids :
  emit gen (all_items t) (number cur t) (S fuel) (id :: ids) =
  bind (emit_id fuel id) (fun toks =>
  bind (emit gen (all_items t) (number cur t) (S fuel) ids) (fun rest => Ok (toks ++ rest))).
Proof. reflexivity. Qed.

Lemma emit_block fuel id b ch :
  In (Ns b ch) (all_items t) -> b_id b = id ->
  (lookup id gen = Some GNonCanonical \/ exists l d, lookup id gen = Some (GCanonical l d)) ->
  emit_id fuel id =
  match is_last_reopened (number cur t) id (b_canon b) with
  | None => Panic
  | Some false => Ok []
  | Some true =>
      match lookup (b_canon b) gen with
      | Some (GCanonical l d) =>
          bind (emit gen (all_items t) (number cur t) fuel l) (fun body =>
          match find_ns (b_canon b) (all_items t) with
          | Some cb => Ok [TMod (b_canon b) d (b_name cb) (b_inline cb) body]
          | _ => Panic
          end)
      | _ => Panic
      end
  end.
Proof.
  intros Hi <- Hl. unfold emit_id. rewrite (find_ns_in _ _ _ nodup_all Hi).
  destruct Hl as [-> |(l & d & ->)]; reflexivity.
Qed.

Lemma emit_merged fuel : forall q,
  (hl (M q T) < fuel)%nat ->
  exists toks, emit gen (all_items t) (number cur t) fuel (map item_id (M q T)) = Ok toks /\
               Merged q (M q T) toks.
Proof.
  induction fuel as [|fuel IH]; intros q Hf; [lia|].
  assert (HH : forall rest before, M q T = before ++ rest ->
    exists toks, emit gen (all_items t) (number cur t) (S fuel) (map item_id rest) = Ok toks /\
                 Merged q rest toks).
  { induction rest as [|i rest IHr]; intros before E.
    - exists []. split; [reflexivity|constructor].
    - destruct (IHr (before ++ [i])) as (toks & Et & Hm).
      { rewrite E, <- app_assoc. reflexivity. }
      cbn [map]. rewrite emit_cons, Et.
      assert (Ho : Occurs T q true i).
      { apply in_M. rewrite E. apply in_or_app. right. left. reflexivity. }
      destruct i as [id u o|b ch].
      + exists (map TLeaf (direct cur (Leaf id u o)) ++ toks). split; [|constructor; exact Hm].
        cbn [item_id]. unfold emit_id.
        destruct (evl cur true (Leaf id u o)) as [|p r] eqn:Ee.
        * pose proof (lookup_none q _ Ho Ee) as Hl. cbn [item_id] in Hl. rewrite Hl. cbn [bind app].
          f_equal. cbn [evl] in Ee. cbn [direct]. unfold is_foreign in Ee.
          destruct u as [u|]; [destruct (u =? cur); cbn [negb] in Ee|]; (destruct o; [try discriminate Ee|]); reflexivity.
        * assert (exists e, o = Some e /\ is_foreign cur u = false) as (e & -> & Hf').
          { cbn [evl] in Ee. destruct (is_foreign cur u); [discriminate|]. destruct o; [eauto|discriminate]. }
          assert (Hl : lookup id gen = Some (GLeaf e)).
          { apply lookup_own; [|exact (fun x => x)].
            apply (evl_occ cur T (top_target _ _ HT) q _ Ho). cbn [evl]. rewrite Hf'. left. reflexivity. }
          rewrite Hl. cbn [bind]. f_equal. cbn [direct].
          unfold is_foreign in Hf'. destruct u as [u|]; [|reflexivity].
          destruct (u =? cur); [reflexivity|discriminate Hf'].
      + pose proof (occ_all _ _ _ Ho) as Hall.
        pose proof (top_target _ _ HT _ _ _ _ Ho) as Htb.
        destruct (b_attr_ok b) eqn:Eo.
        2:{ exists (TLeaf (EUnsupported (b_id b)) :: toks). split; [|constructor; assumption].
            cbn [item_id]. unfold emit_id.
            rewrite (lookup_own (b_id b) (GLeaf (EUnsupported (b_id b)))); [reflexivity| |exact (fun x => x)].
            apply (evl_occ cur T (top_target _ _ HT) q _ Ho). rewrite evl_eq. unfold is_foreign.
            rewrite Htb, Z.eqb_refl, Eo. left. reflexivity. }
        destruct (lookup_canon q b ch Ho Eo) as (d & Hlc & Hd).
        destruct (last_block q b ch Ho Eo) as (pre & last & Evb & Hnd & Hlast).
        assert (Hlk : lookup (b_id b) gen = Some GNonCanonical \/
                      exists l d, lookup (b_id b) gen = Some (GCanonical l d)).
        { destruct (Z.eqb_spec (b_id b) (b_canon b)) as [Ei|Ei].
          - right. rewrite Ei. eauto.
          - left. apply lookup_own; [|exact (fun x => x)].
            apply (evl_occ cur T (top_target _ _ HT) q _ Ho). rewrite evl_eq. unfold is_foreign.
            rewrite Htb, Z.eqb_refl, Eo. cbn [negb andb]. apply in_or_app. right. apply in_or_app. left.
            destruct (Z.eqb_spec (b_id b) (b_canon b)); [congruence|]. left. reflexivity. }
        cbn [item_id]. rewrite (emit_block fuel (b_id b) b ch Hall eq_refl Hlk).
        rewrite Hlast.
        2:{ apply vb_in. exists b, ch. split; [apply in_M; exact Ho|auto]. }
        assert (Hsplit : vb (b_canon b) before ++ b_id b :: vb (b_canon b) rest = pre ++ [last]).
        { rewrite <- Evb, E, vb_app, vb_cons. cbn [ownsel]. rewrite Eo, Z.eqb_refl. reflexivity. }
        destruct (vb (b_canon b) rest) as [|y r] eqn:Er.
        * apply app_inj_tail in Hsplit. destruct Hsplit as [_ <-]. rewrite Z.eqb_refl, Hlc.
          destruct (IH (q ++ [b_canon b])) as (body & Eb & Hb).
          { rewrite M_snoc. apply (proj2 (in_M q T _)) in Ho.
            pose proof (hl_members (b_canon b) _ _ _ Ho). lia. }
          rewrite Eb. cbn [bind].
          assert (exists cb cch, In (Ns cb cch) (all_items t) /\ b_id cb = b_canon b) as (cb & cch & Hcb & Ecb).
          { destruct (top_level_in cur t) as [Etl|Hin].
            - unfold T in Ho. rewrite Etl in Ho. inversion Ho as [? ? Hi|? ? ? ? ? ? Hi]; destruct Hi.
            - destruct (wf_canon _ _ W _ _ _ _ _ _ Hin Ho) as (k1 & l1 & e1 & ok1 & cb & ch1 & Hk1 & Ho1 & E1 & _).
              exists cb, ch1. split; [|exact E1]. exact (occurs_all _ _ _ _ _ _ Hk1 Ho1). }
          assert (Hfc : find_ns (b_canon b) (all_items t) = Some cb)
            by (rewrite <- Ecb; exact (find_ns_in _ _ _ nodup_all Hcb)).
          rewrite Hfc. cbn [bind app].
          eexists. split; [reflexivity|]. eapply Mg_mod; eassumption.
        * assert (Hne : b_id b <> last).
          { destruct (@exists_last Z (y :: r)) as (r0 & x & Ex); [discriminate|].
            rewrite Ex in Hsplit. rewrite app_comm_cons, app_assoc in Hsplit.
            apply app_inj_tail in Hsplit. destruct Hsplit as [Hs <-].
            rewrite <- Hs in Hnd. apply nodup_app_inv in Hnd. destruct Hnd as (_ & _ & D).
            intros Hx. apply (D (b_id b)); [apply in_or_app; right; left; reflexivity|left; symmetry; exact Hx]. }
          destruct (Z.eqb_spec (b_id b) last); [congruence|]. cbn [bind app].
          exists toks. split; [reflexivity|]. apply Mg_skip; [exact Eo| |exact Hm]. rewrite Er. discriminate. }
  exact (HH (M q T) [] eq_refl).
Qed.
End Emission.
