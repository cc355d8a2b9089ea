(** C175: the iteration order of the hash map of generated items does not matter. *)
From Coq Require Import ZArith List Bool String Lia Permutation.
From Verif.NsEmit Require Import Model Proofs Proofs2.
Import ListNotations.
Local Open Scope Z_scope.
Local Open Scope list_scope.

(** The generation of Model.v with an arbitrary iteration order: wherever
    [append] walks over the other map (code_snippet.rs:66), it may walk over any
    permutation of its entries; and a map may be handed on in any order. *)
Inductive GenItem (cur : Z) : bool -> item -> res snippets -> Prop :=
| GI_leaf po id u o r :
    r = generate_item cur po (Leaf id u o) -> GenItem cur po (Leaf id u o) r
| GI_foreign po b ch :
    is_foreign cur (Some (b_target b)) = true -> GenItem cur po (Ns b ch) (Ok [])
| GI_ns po b ch r :
    is_foreign cur (Some (b_target b)) = false ->
    GenItems cur (po && b_attr_ok b) ch [] r ->
    GenItem cur po (Ns b ch)
      (bind r (fun m => if po && b_attr_ok b
                        then Ok (insert (b_canon b) (GCanonical (map item_id ch) (b_depr b))
                                   (insert (b_id b) GNonCanonical m))
                        else Ok [(b_id b, GLeaf (EUnsupported (b_id b)))]))
with GenItems (cur : Z) : bool -> list item -> snippets -> res snippets -> Prop :=
| GS_nil po m m' : Permutation m m' -> GenItems cur po [] m (Ok m')
| GS_fail po i l m r : GenItem cur po i r -> (forall mi, r <> Ok mi) ->
    GenItems cur po (i :: l) m r
| GS_append_fail po i l m mi mi' r :
    GenItem cur po i (Ok mi) -> Permutation mi mi' ->
    append m mi' = r -> (forall m', r <> Ok m') -> GenItems cur po (i :: l) m r
| GS_append po i l m mi mi' m' r :
    GenItem cur po i (Ok mi) -> Permutation mi mi' ->
    append m mi' = Ok m' -> GenItems cur po l m' r -> GenItems cur po (i :: l) m r.

Scheme GenItem_ind2 := Minimality for GenItem Sort Prop
  with GenItems_ind2 := Minimality for GenItems Sort Prop.
Combined Scheme Gen_ind from GenItem_ind2, GenItems_ind2.

(** Same entries. *)
Definition same (m m' : snippets) : Prop :=
  NoDup (map fst m) /\ NoDup (map fst m') /\ forall k, lookup k m = lookup k m'.

Definition same_res (r r' : res snippets) : Prop :=
  match r, r' with
  | Ok m, Ok m' => same m m'
  | Panic, Panic => True
  | _, _ => False
  end.

Lemma perm_lookup m m' : Permutation m m' -> NoDup (map fst m) ->
  NoDup (map fst m') /\ forall k, lookup k m = lookup k m'.
Proof.
  intros HP Hn. assert (Hn' : NoDup (map fst m')).
  { apply (Permutation_NoDup (Permutation_map fst HP)). exact Hn. }
  split; [exact Hn'|]. intros k.
  destruct (lookup k m) as [g|] eqn:E.
  - apply lookup_nodup in E; [|exact Hn]. symmetry. apply lookup_nodup; [exact Hn'|].
    apply (Permutation_in _ HP). exact E.
  - destruct (lookup k m') as [g|] eqn:E'; [|reflexivity].
    apply lookup_nodup in E'; [|exact Hn']. apply (Permutation_in _ (Permutation_sym HP)) in E'.
    apply lookup_nodup in E'; [|exact Hn]. congruence.
Qed.

Lemma same_append m1 m1' o o' : same m1 m1' -> same o o' -> same_res (append m1 o) (append m1' o').
Proof.
  intros (N1 & N1' & H1) (N2 & N2' & H2).
  assert (Hc : compatible m1 o <-> compatible m1' o').
  { unfold compatible. split; intros H k g1 g2 E1 E2; apply (H k); congruence. }
  destruct (compatible_dec m1 o N2) as [C|C].
  - destruct (append_ok o m1 N2 C) as (m & -> & Hl & Hn).
    destruct (append_ok o' m1' N2' (proj1 Hc C)) as (m' & -> & Hl' & Hn').
    cbn [same_res]. split; [auto|]. split; [auto|]. intros k. rewrite Hl, Hl', H1, H2. reflexivity.
  - rewrite (append_panic o m1 N2 C). rewrite (append_panic o' m1' N2'); [exact Logic.I|]. rewrite <- Hc. exact C.
Qed.

Lemma same_insert k g m m' : same m m' -> same (insert k g m) (insert k g m').
Proof.
  intros (N & N' & H). split; [apply nodup_insert; exact N|]. split; [apply nodup_insert; exact N'|].
  intros k'. rewrite !lookup_insert, H. reflexivity.
Qed.

Lemma same_refl m : NoDup (map fst m) -> same m m.
Proof. intros H. split; [exact H|]. split; [exact H|reflexivity]. Qed.

Lemma same_perm m1 m1' m2 : same m1 m2 -> Permutation m1 m1' -> same m1' m2.
Proof.
  intros (N & N' & H) HP. destruct (perm_lookup _ _ HP N) as [Nn Hl].
  split; [exact Nn|]. split; [exact N'|]. intros k. rewrite <- Hl. apply H.
Qed.

Lemma gen_same cur :
  (forall po i r, GenItem cur po i r -> same_res r (generate_item cur po i)) /\
  (forall po l m r, GenItems cur po l m r -> forall m0, same m m0 -> same_res r (generate_items cur po l m0)).
Proof.
  apply Gen_ind.
  - intros po id u o r ->. cbn [generate_item].
    destruct (is_foreign cur u); [apply same_refl; constructor|].
    destruct o; apply same_refl; [constructor; [intros []|constructor]|constructor].
  - intros po b ch Hf. rewrite generate_item_ns, Hf. apply same_refl. constructor.
  - intros po b ch r Hf _ IH. rewrite generate_item_ns, Hf.
    specialize (IH [] (same_refl [] (NoDup_nil _))).
    destruct r as [m| |], (generate_items cur (po && b_attr_ok b) ch []) as [m'| |]; cbn [same_res bind] in *; try tauto.
    destruct (po && b_attr_ok b); cbn [same_res].
    + do 2 apply same_insert. exact IH.
    + apply same_refl. constructor; [intros []|constructor].
  - intros po m m' HP m0 Hs. cbn [generate_items same_res]. eapply same_perm; eassumption.
  - intros po i l m r _ IH Hr m0 Hs. cbn [generate_items].
    destruct r as [mi| |]; [exfalso; apply (Hr mi); reflexivity| |];
      destruct (generate_item cur po i); cbn [same_res bind] in *; tauto.
  - intros po i l m mi mi' r _ IH HP Ha Hr m0 Hs. cbn [generate_items].
    destruct (generate_item cur po i) as [mg| |]; cbn [same_res bind] in *; try tauto.
    pose proof (same_append _ _ _ _ Hs (same_perm _ _ _ IH HP)) as HA. rewrite Ha in HA.
    destruct r as [mi2| |]; [exfalso; apply (Hr mi2); reflexivity| |];
      destruct (append m0 mg); cbn [same_res bind] in *; tauto.
  - intros po i l m mi mi' m' r _ IH HP Ha _ IHs m0 Hs. cbn [generate_items].
    destruct (generate_item cur po i) as [mg| |]; cbn [same_res bind] in *; try tauto.
    pose proof (same_append _ _ _ _ Hs (same_perm _ _ _ IH HP)) as HA. rewrite Ha in HA.
    destruct (append m0 mg) as [ma| |]; cbn [same_res bind] in *; try tauto. apply IHs. exact HA.
Qed.

Lemma emit_ext gen gen' items numbers : (forall k, lookup k gen = lookup k gen') ->
  forall fuel ids, emit gen items numbers fuel ids = emit gen' items numbers fuel ids.
Proof.
  intros H fuel. induction fuel as [|fuel IH]; intros ids; [reflexivity|].
  induction ids as [|id ids IHi]; [reflexivity|].
  change (emit gen items numbers (S fuel) (id :: ids)) with
    (bind (match lookup id gen with
           | None => Ok []
           | Some (GLeaf e) => Ok [TLeaf e]
           | Some _ =>
               match find_ns id items with
               | Some b =>
                   match is_last_reopened numbers id (b_canon b) with
                   | None => Panic
                   | Some false => Ok []
                   | Some true =>
                       match lookup (b_canon b) gen with
                       | Some (GCanonical l d) =>
                           bind (emit gen items numbers fuel l) (fun body =>
                           match find_ns (b_canon b) items with
                           | Some cb => Ok [TMod (b_canon b) d (b_name cb) (b_inline cb) body]
                           | _ => Panic
                           end)
                       | _ => Panic
                       end
                   end
               | _ => Panic
               end
           end) (fun toks => bind (emit gen items numbers (S fuel) ids) (fun rest => Ok (toks ++ rest)))).
  rewrite IHi, H.
  change (emit gen' items numbers (S fuel) (id :: ids)) with
    (bind (match lookup id gen' with
           | None => Ok []
           | Some (GLeaf e) => Ok [TLeaf e]
           | Some _ =>
               match find_ns id items with
               | Some b =>
                   match is_last_reopened numbers id (b_canon b) with
                   | None => Panic
                   | Some false => Ok []
                   | Some true =>
                       match lookup (b_canon b) gen' with
                       | Some (GCanonical l d) =>
                           bind (emit gen' items numbers fuel l) (fun body =>
                           match find_ns (b_canon b) items with
                           | Some cb => Ok [TMod (b_canon b) d (b_name cb) (b_inline cb) body]
                           | _ => Panic
                           end)
                       | _ => Panic
                       end
                   end
               | _ => Panic
               end
           end) (fun toks => bind (emit gen' items numbers (S fuel) ids) (fun rest => Ok (toks ++ rest)))).
  f_equal. destruct (lookup id gen') as [[e| |l d]|]; try reflexivity;
    (destruct (find_ns id items) as [b|]; [|reflexivity];
     destruct (is_last_reopened numbers id (b_canon b)) as [[|]|]; try reflexivity;
     rewrite H; destruct (lookup (b_canon b) gen') as [[| |l' d']|]; try reflexivity;
     rewrite IH; reflexivity).
Qed.

(** Whatever the iteration orders, the output (or the abort) is the same; for
    any IR, well-formed or not. *)
Theorem C175_hash_order_is_irrelevant cur t r :
  GenItems cur true (top_level cur t) [] r ->
  bind r (fun gen => emit gen (all_items t) (number cur t) (S (List.length (all_items t)))
                       (map item_id (top_level cur t))) = bindings cur t.
Proof.
  intros H. pose proof (proj2 (gen_same cur) _ _ _ _ H [] (same_refl [] (NoDup_nil _))) as Hs.
  unfold bindings. destruct r as [m| |], (generate_items cur true (top_level cur t) []) as [m'| |];
    cbn [same_res bind] in *; try tauto; try reflexivity.
  apply emit_ext. apply Hs.
Qed.
Print Assumptions C175_hash_order_is_irrelevant.

(** A walk in reverse order is one of them. *)
Example ex_reverse :
  let x := Leaf 11 None (Some (EItem 11)) in let y := Leaf 12 None (Some (EComment 12)) in
  let b := {| b_id := 10; b_canon := 10; b_target := 1; b_name := 7; b_inline := true;
              b_attr_ok := true; b_depr := None |} in
  GenItems 1 true [Ns b [x; y]] []
    (Ok [(11, GLeaf (EItem 11)); (12, GLeaf (EComment 12)); (10, GCanonical [11; 12] None)]).
Proof.
  intros x y b.
  assert (H1 : GenItems 1 (true && b_attr_ok b) [x; y] [] (Ok [(12, GLeaf (EComment 12)); (11, GLeaf (EItem 11))])).
  { eapply GS_append; [apply GI_leaf; reflexivity|apply Permutation_refl|reflexivity|].
    eapply GS_append; [apply GI_leaf; reflexivity|apply Permutation_refl|reflexivity|].
    apply GS_nil. apply perm_swap. }
  eapply GS_append with (mi := [(12, GLeaf (EComment 12)); (11, GLeaf (EItem 11)); (10, GCanonical [11; 12] None)]).
  - change (GenItem 1 true (Ns b [x; y])
      (bind (Ok [(12, GLeaf (EComment 12)); (11, GLeaf (EItem 11))])
         (fun m => if true && b_attr_ok b
                   then Ok (insert (b_canon b) (GCanonical (map item_id [x; y]) (b_depr b))
                              (insert (b_id b) GNonCanonical m))
                   else Ok [(b_id b, GLeaf (EUnsupported (b_id b)))]))).
    apply GI_ns; [reflexivity|exact H1].
  - apply perm_swap.
  - reflexivity.
  - apply GS_nil. apply Permutation_refl.
Qed.
