(** Lemmas about the maps and the search for a free name. *)
From Coq Require Import List Bool Arith Strings.String Lia.
From Verif Require Import ModNames.Model ModNames.Spec.
Import ListNotations.
Local Open Scope list_scope.

Lemma lookup_update n k r m : lookup n (update k r m) = if String.eqb n k then match lookup k m with Some _ => Some r | None => None end else lookup n m.
Proof.
  induction m as [|[a x] m IH]; cbn [lookup update].
  - now destruct (String.eqb n k).
  - destruct (String.eqb_spec k a) as [->|D]; cbn [lookup].
    + now destruct (String.eqb_spec n a).
    + rewrite IH. destruct (String.eqb_spec n a) as [->|Dn]; [|reflexivity]. now destruct (String.eqb_spec a k); [congruence|].
Qed.
Lemma lookup_In n m r : lookup n m = Some r -> In (n, r) m.
Proof.
  induction m as [|[a x] m IH]; cbn [lookup]; [discriminate|]. destruct (String.eqb_spec n a) as [->|D].
  - intros [= ->]. now left.
  - intros H. right. auto.
Qed.
Lemma lookup_dom n m r : lookup n m = Some r -> In n (map fst m).
Proof. intros H%lookup_In. apply in_map_iff. now exists (n, r). Qed.
Lemma lookup_None n m : lookup n m = None -> ~ In n (map fst m).
Proof.
  induction m as [|[a x] m IH]; cbn [lookup map In fst]; [tauto|]. destruct (String.eqb_spec n a) as [->|D]; [discriminate|].
  intros H [E|I]; [congruence|]. now apply IH.
Qed.
Lemma In_lookup n m r : NoDup (map fst m) -> In (n, r) m -> lookup n m = Some r.
Proof.
  induction m as [|[a x] m IH]; cbn [lookup map In fst]; [tauto|]. intros ND. inversion ND as [|? ? N ND']; subst. intros [E|I].
  - injection E as -> ->. now rewrite String.eqb_refl.
  - destruct (String.eqb_spec n a) as [->|D]; [|auto]. destruct N. apply in_map_iff. now exists (a, r).
Qed.
Lemma dom_update n r m : map fst (update n r m) = map fst m.
Proof. induction m as [|[a x] m IH]; cbn; [reflexivity|]. destruct (String.eqb n a); cbn; congruence. Qed.

(** The names tried one after the other. *)
Lemma length_append a b : String.length (a ++ b)%string = String.length a + String.length b.
Proof. induction a; cbn; congruence. Qed.

Lemma push_total keys used f : forall n, (forall s, used s = true -> In s keys) ->
  (forall s, In s keys -> String.length s < String.length n \/ True) ->
  List.length (filter (fun s => String.length n <=? String.length s) keys) <= f ->
  push_underscores f used n <> None.
Proof.
  induction f as [|f IH]; intros n HU _ L; cbn [push_underscores]; destruct (used n) eqn:E; try discriminate.
  - apply HU in E. assert (In n (filter (fun s => String.length n <=? String.length s) keys)).
    { apply filter_In. split; [exact E|]. apply Nat.leb_refl. }
    destruct (filter _ keys); cbn in *; [tauto|lia].
  - apply IH; [exact HU|auto|]. apply HU in E. rewrite length_append. cbn [String.length].
    assert (G : forall l, In n l -> List.length (filter (fun s => String.length n + 1 <=? String.length s) l) <
                              List.length (filter (fun s => String.length n <=? String.length s) l)).
    { assert (G1 : forall l, List.length (filter (fun s => String.length n + 1 <=? String.length s) l) <=
                              List.length (filter (fun s => String.length n <=? String.length s) l)).
      { induction l as [|y l IHl]; cbn [filter]; [lia|]. destruct (Nat.leb_spec (String.length n + 1) (String.length y)), (Nat.leb_spec (String.length n) (String.length y)); cbn [List.length]; lia. }
      induction l as [|y l IHl]; [contradiction|]. intros [->|I]; cbn [filter].
      - destruct (Nat.leb_spec (String.length n + 1) (String.length n)); [lia|]. rewrite Nat.leb_refl. cbn [List.length]. specialize (G1 l). lia.
      - specialize (IHl I). destruct (Nat.leb_spec (String.length n + 1) (String.length y)), (Nat.leb_spec (String.length n) (String.length y)); cbn [List.length]; lia. }
    specialize (G keys E). lia.
Qed.
Lemma filter_length_le {A} (f : A -> bool) l : List.length (filter f l) <= List.length l.
Proof. induction l as [|x l IH]; cbn; [lia|]. destruct (f x); cbn; lia. Qed.
Lemma disambiguate_total keys used f n : (forall s, used s = true -> In s keys) -> List.length keys <= f -> disambiguate f used n <> None.
Proof.
  intros HU L. unfold disambiguate. destruct (used n); [|discriminate].
  eapply push_total; [exact HU|auto|]. etransitivity; [apply filter_length_le|exact L].
Qed.
Lemma push_unused f used : forall n c, push_underscores f used n = Some c -> used c = false.
Proof.
  induction f as [|f IH]; intros n c; cbn [push_underscores]; destruct (used n) eqn:E; try discriminate.
  - intros [= <-]. exact E.
  - apply IH.
  - intros [= <-]. exact E.
Qed.
Lemma disambiguate_unused f used n c : disambiguate f used n = Some c -> used c = false.
Proof. unfold disambiguate. destruct (used n) eqn:E; [apply push_unused|]. intros [= <-]. exact E. Qed.
Lemma push_ext f used : forall f' used' n c, push_underscores f used n = Some c -> f <= f' ->
  (forall s, used s = true -> used' s = true) -> used' c = false -> push_underscores f' used' n = Some c.
Proof.
  induction f as [|f IH]; intros f' used' n c; cbn [push_underscores]; destruct (used n) eqn:E; try discriminate.
  - intros [= <-] _ _ U. destruct f'; cbn [push_underscores]; now rewrite U.
  - intros H L S U. destruct f' as [|f']; [lia|]. cbn [push_underscores]. rewrite (S _ E). apply IH; auto; lia.
  - intros [= <-] _ _ U. destruct f'; cbn [push_underscores]; now rewrite U.
Qed.
Lemma disambiguate_ext f f' used used' n c : disambiguate f used n = Some c -> f <= f' ->
  (forall s, used s = true -> used' s = true) -> used' c = false -> disambiguate f' used' n = Some c.
Proof.
  unfold disambiguate. intros H L S U. destruct (used n) eqn:E.
  - rewrite (S _ E). eapply push_ext; eauto.
  - injection H as <-. now rewrite U.
Qed.

(** ** First pass *)
Definition plain (r : resolved) : Prop := match r with RNested _ => False | _ => True end.
Lemma resolved_plain x v : resolved_of x = Some v -> plain v.
Proof. unfold resolved_of. destruct (ikind x); intros [= <-]; exact Logic.I. Qed.
Lemma coalesce_plain a b c : plain a -> plain b -> coalesce a b = Some c -> plain c.
Proof.
  destruct a, b; cbn [plain coalesce]; intros P Q; try contradiction; try discriminate; try (now intros [= <-]).
  destruct (_ =? _); [|discriminate]. now intros [= <-].
Qed.
Definition all_plain (m : names) : Prop := forall n r, In (n, r) m -> plain r.
Lemma update_plain n r m : all_plain m -> plain r -> all_plain (update n r m).
Proof.
  intros A P. induction m as [|[k x] m IH]; cbn [update]; [exact A|]. assert (A' : all_plain m) by (intros ? ? I; eapply A; right; exact I).
  destruct (String.eqb n k); intros a b [E|I].
  - injection E as <- <-. exact P.
  - eapply A'; exact I.
  - injection E as <- <-. eapply A. left. reflexivity.
  - eapply IH; eauto.
Qed.
Lemma insert_props n r m m' : NoDup (map fst m) -> all_plain m -> plain r -> insert n r m = Some m' ->
  NoDup (map fst m') /\ all_plain m' /\ (forall s, In s (map fst m') <-> s = n \/ In s (map fst m)).
Proof.
  intros ND A P. unfold insert. destruct (lookup n m) as [old|] eqn:L.
  - assert (I := lookup_dom _ _ _ L). assert (Hk : forall s, In s (map fst m) <-> s = n \/ In s (map fst m)) by (intro; split; [tauto|intros [->|]; auto]).
    destruct (conflict_action old r).
    + intros [= <-]. auto.
    + intros [= <-]. rewrite dom_update. repeat match goal with |- _ /\ _ => split end; auto. now apply update_plain.
    + destruct (coalesce old r) as [x|] eqn:C; [|discriminate]. intros [= <-]. rewrite dom_update.
      repeat match goal with |- _ /\ _ => split end; auto. apply update_plain; [exact A|]. eapply coalesce_plain; [|exact P|exact C]. apply (A n). now apply lookup_In.
  - intros [= <-]. cbn [map fst]. repeat match goal with |- _ /\ _ => split end.
    + constructor; [|exact ND]. now apply lookup_None.
    + intros a b [E|I]; [injection E as <- <-; exact P|eapply A; exact I].
    + cbn [In]. intuition congruence.
Qed.
Lemma pass1_props items : forall m m', NoDup (map fst m) -> all_plain m -> pass1 items m = Some m' ->
  NoDup (map fst m') /\ all_plain m' /\
  (forall s, In s (map fst m') <-> In s (map fst m) \/ exists x, In x items /\ resolved_of x <> None /\ iname x = s).
Proof.
  induction items as [|x items IH]; intros m m' ND A; cbn [pass1].
  - intros [= <-]. repeat match goal with |- _ /\ _ => split end; auto. intro s. split; [auto|]. intros [I|(x & [] & _)]. exact I.
  - destruct (resolved_of x) as [v|] eqn:R.
    + destruct (insert (iname x) v m) as [m1|] eqn:E; [|discriminate]. intros H.
      destruct (insert_props _ _ _ _ ND A (resolved_plain _ _ R) E) as (ND1 & A1 & K1).
      destruct (IH _ _ ND1 A1 H) as (ND' & A' & K'). repeat match goal with |- _ /\ _ => split end; auto.
      intro s. rewrite K', K1. split.
      * intros [[->|I]|(y & I & J)]; [right; exists x; split; [now left|split; [congruence|reflexivity]]|auto|right; exists y; cbn [In]; tauto].
      * intros [I|(y & [->|I] & J)]; [auto| |right; exists y; tauto]. destruct J as [_ <-]. auto.
    + intros H. destruct (IH _ _ ND A H) as (ND' & A' & K'). repeat match goal with |- _ /\ _ => split end; auto.
      intro s. rewrite K'. split; (intros [I|(y & I & J)]; [auto|]).
      * right. exists y. cbn [In]. tauto.
      * right. destruct I as [<-|I]; [|now exists y]. now rewrite R in J.
Qed.

(** ** Second pass *)
Section S.
  Variable snake : string -> string.
  Notation is_used m := (fun n => match lookup n m with Some _ => true | None => false end).
  Lemma is_used_dom m s : is_used m s = true -> In s (map fst m).
  Proof. cbn beta. destruct (lookup s m) eqn:E; [|discriminate]. intros _. eapply lookup_dom; exact E. Qed.

  Definition nested_records (items : list item) : list item := filter (fun x => match ikind x with KRecord true _ => true | _ => false end) items.

  Lemma pass2_total items : forall m, pass2 snake items m <> None.
  Proof.
    induction items as [|x items IH]; intros m; cbn [pass2]; [discriminate|].
    destruct (ikind x) as [|[] ?| | | | | | | | |]; try apply IH.
    destruct (disambiguate _ _ _) as [n|] eqn:D.
    - assert (U := disambiguate_unused _ _ _ _ D). cbn beta in U. destruct (lookup n m); [discriminate|]. apply IH.
    - exfalso. eapply (disambiguate_total (map fst m)); [apply is_used_dom|rewrite map_length; apply Nat.le_succ_diag_r|exact D].
  Qed.

  (** What the second pass adds: for each record, in order, one entry under a name that was free. *)
  Lemma pass2_extends items : forall m m', pass2 snake items m = Some m' ->
    exists add, m' = add ++ m /\ map snd add = map (fun x => RNested [iid x]) (rev (nested_records items))
                /\ (NoDup (map fst m) -> NoDup (map fst m')).
  Proof.
    induction items as [|x items IH]; intros m m'; cbn [pass2].
    - intros [= <-]. now exists [].
    - unfold nested_records. cbn [filter]. fold (nested_records items).
      destruct (ikind x) as [|[] ?| | | | | | | | |]; try apply IH.
      destruct (disambiguate _ _ _) as [n|] eqn:D; [|discriminate].
      destruct (lookup n m) eqn:L; [discriminate|]. intros H. destruct (IH _ _ H) as (add & -> & E & ND).
      exists (add ++ [(n, RNested [iid x])]). rewrite <- app_assoc. cbn [app]. repeat match goal with |- _ /\ _ => split end.
      + reflexivity.
      + rewrite map_app, E. cbn [rev map snd]. now rewrite map_app.
      + intros N. apply ND. cbn [map fst]. constructor; [|exact N]. now apply lookup_None.
  Qed.

  Lemma lookup_app_l a m n r : lookup n a = Some r -> lookup n (a ++ m) = Some r.
  Proof. induction a as [|[k x] a IH]; cbn [lookup app]; [discriminate|]. destruct (String.eqb n k); auto. Qed.
  Lemma lookup_ext add m n r : NoDup (map fst (add ++ m)) -> lookup n m = Some r -> lookup n (add ++ m) = Some r.
  Proof. intros ND L. apply In_lookup; [exact ND|]. apply in_app_iff. right. now apply lookup_In. Qed.

  (** The name found for a record in the second pass is the one found again later. *)
  Lemma pass2_names items : forall m m', NoDup (map fst m) -> NoDup (map iid (nested_records items)) ->
    (forall n l, In (n, RNested l) m -> forall x, In x (nested_records items) -> ~ In (iid x) l) ->
    pass2 snake items m = Some m' ->
    forall x, In x (nested_records items) ->
    exists n, lookup n m' = Some (RNested [iid x]) /\ module_name snake m' x = Some n /\ ~ In n (map fst m).
  Proof.
    induction items as [|y items IH]; intros m m' ND NI FR; cbn [pass2]; [intros _ x []|].
    unfold nested_records in *. cbn [filter] in *. fold (nested_records items) in *.
    destruct (ikind y) as [|[] ?| | | | | | | | |] eqn:K; try (apply IH; assumption).
    destruct (disambiguate _ _ _) as [n|] eqn:D; [|discriminate].
    destruct (lookup n m) eqn:L; [discriminate|]. intros H x. cbn [map] in NI. inversion NI as [|? ? NI1 NI2]; subst.
    assert (ND1 : NoDup (map fst ((n, RNested [iid y]) :: m))) by (cbn [map fst]; constructor; [now apply lookup_None|exact ND]).
    destruct (pass2_extends _ _ _ H) as (add & E & Es & NDm). specialize (NDm ND1).
    intros [<-|I].
    - exists n. assert (Ln : lookup n m' = Some (RNested [iid y])).
      { rewrite E. rewrite E in NDm. apply lookup_ext; [exact NDm|]. cbn [lookup]. now rewrite String.eqb_refl. }
      split; [exact Ln|]. split; [|now apply lookup_None].
      unfold module_name. eapply disambiguate_ext; [exact D| | |].
      + rewrite E, app_length. cbn [List.length]. lia.
      + intros s. cbn beta. destruct (lookup s m) as [r|] eqn:Ls; [|discriminate]. intros _. unfold is_used_by_others.
        assert (Ls' : lookup s m' = Some r).
        { rewrite E. rewrite E in NDm. apply lookup_ext; [exact NDm|]. cbn [lookup]. destruct (String.eqb_spec s n) as [->|]; [congruence|exact Ls]. }
        rewrite Ls'. destruct r as [| | |l]; try reflexivity. apply negb_true_iff. apply not_true_iff_false. intros B.
        apply existsb_exists in B as (i & Ii & Ei). apply Nat.eqb_eq in Ei. subst i.
        eapply FR; [apply lookup_In; exact Ls|left; reflexivity|exact Ii].
      + unfold is_used_by_others. rewrite Ln. cbn [existsb]. now rewrite Nat.eqb_refl.
    - destruct (IH _ m' ND1 NI2) with (x := x) as (c & A & B & C); [|exact H|exact I|].
      + intros k l [E1|I1] z Iz.
        * injection E1 as <- <-. intros [E2|[]]. apply NI1. rewrite E2. now apply in_map.
        * eapply FR; [exact I1|]. now right.
      + exists c. repeat match goal with |- _ /\ _ => split end; auto. intros I2. apply C. cbn [map fst In]. auto.
  Qed.
End S.
