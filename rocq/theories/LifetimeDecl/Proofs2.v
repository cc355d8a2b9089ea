(** The symbol table stays one-to-one. *)
From Coq Require Import List NArith ZArith Ascii String Bool Lia FinFun.
From Verif.Lifetimes Require Import Model.
From Verif.FnLifetimes Require Import Model.
From Verif.LifetimeDecl Require Import Model Spec Proofs.
Import ListNotations.
Local Open Scope N_scope.
Local Open Scope list_scope.

Lemma find_name_iff n l m : NoDup (map fst m) -> (find_name n m = Some l <-> In (n, l) m).
Proof.
  intro D. split; [apply find_name_in|]. induction m as [|[k v] m IH]; cbn; [tauto|].
  inversion D as [|? ? D1 D2]; subst. destruct (text_eqb_spec n k) as [->|N]; intros [E|I].
  - injection E as ->. reflexivity.
  - exfalso. apply D1. change k with (fst (k, l)). now apply in_map.
  - congruence.
  - auto.
Qed.
Lemma find_lifetime_in l n m : find_lifetime l m = Some n -> In (l, n) m.
Proof.
  induction m as [|[k v] m IH]; cbn; [discriminate|]. destruct (Z.eqb_spec l k) as [->|_]; [intro E; injection E as ->; now left|auto].
Qed.
Lemma find_lifetime_iff l n m : NoDup (map fst m) -> (find_lifetime l m = Some n <-> In (l, n) m).
Proof.
  intro D. split; [apply find_lifetime_in|]. induction m as [|[k v] m IH]; cbn; [tauto|].
  inversion D as [|? ? D1 D2]; subst. destruct (Z.eqb_spec l k) as [->|N]; intros [E|I].
  - injection E as ->. reflexivity.
  - exfalso. apply D1. change k with (fst (k, n)). now apply in_map.
  - congruence.
  - auto.
Qed.

Record good (t : table) (c : Z) : Prop := {
  g_names : NoDup (map fst (n2l t));
  g_lifetimes : NoDup (map fst (l2n t));
  g_same : forall n l, In (n, l) (n2l t) <-> In (l, n) (l2n t);
  g_static : ~ In static_name (map fst (n2l t));
  g_proper : forall n l, In (n, l) (n2l t) -> l <> Static /\ (l < c)%Z;
  g_counter : (2 <= c)%Z;
  g_next : forall i, i < next t -> In (name_from_index i) (map fst (n2l t)) }.

Lemma in_fst {A B} (a : A) (b : B) m : In (a, b) m -> In a (map fst m).
Proof. intro I. change a with (fst (a, b)). now apply in_map. Qed.
Lemma in_fst_ex {A B} (a : A) (m : list (A * B)) : In a (map fst m) -> exists b, In (a, b) m.
Proof. intro I. apply in_map_iff in I. destruct I as ([x b] & <- & I). now exists b. Qed.

Lemma good_insert t c n l i : good t c -> n <> static_name -> ~ In n (map fst (n2l t)) -> ~ In l (map fst (l2n t)) ->
  l <> Static -> (l < c)%Z -> (forall j, j < i -> In (name_from_index j) (n :: map fst (n2l t))) ->
  good (Table ((n, l) :: n2l t) ((l, n) :: l2n t) i) c.
Proof.
  intros G N FN FL S L Nx. split; cbn [n2l l2n next map fst].
  - constructor; [exact FN|apply (g_names _ _ G)].
  - constructor; [exact FL|apply (g_lifetimes _ _ G)].
  - intros n' l'. cbn [In]. rewrite (g_same _ _ G). split; intros [E|I]; auto; injection E as -> ->; auto.
  - intros [E|I]; [congruence|exact (g_static _ _ G I)].
  - intros n' l' [E|I]; [injection E as <- <-; auto|exact (g_proper _ _ G _ _ I)].
  - apply (g_counter _ _ G).
  - exact Nx.
Qed.
Lemma good_more t c c' : good t c -> (c <= c')%Z -> good t c'.
Proof.
  intros G L. destruct G as [A B C D E F H]. split; auto; [|lia]. intros n l I. destruct (E n l I). split; [assumption|lia].
Qed.

Lemma name_for_new t l : l <> Static -> find_lifetime l (l2n t) = None -> exists i,
  name_for l t = (name_from_index i, Table ((name_from_index i, l) :: n2l t) ((l, name_from_index i) :: l2n t) (i + 1)) /\
  next t <= i /\ ~ In (name_from_index i) (map fst (n2l t)) /\
  (forall j, next t <= j < i -> In (name_from_index j) (map fst (n2l t))).
Proof.
  intros N F. destruct (free_is_free (next t) (n2l t)) as (k & A & B & C). exists (next t + N.of_nat k).
  split; [|split; [lia|split; [exact C|]]].
  - unfold name_for. destruct (Z.eqb_spec l Static) as [E|_]; [contradiction|]. rewrite F, A. reflexivity.
  - intros j (J1 & J2). replace j with (next t + N.of_nat (N.to_nat (j - next t))) by lia. apply B. lia.
Qed.

Lemma next_le t c : good t c -> next t <= N.of_nat (List.length (n2l t)).
Proof.
  intro G. set (ns := map (fun j => name_from_index (N.of_nat j)) (seq 0 (N.to_nat (next t)))).
  assert (ND : NoDup ns). { apply Injective_map_NoDup; [|apply seq_NoDup]. intros a b H. apply name_inj in H. lia. }
  assert (Sub : incl ns (map fst (n2l t))).
  { intros n J. apply in_map_iff in J. destruct J as (j & <- & J). apply in_seq in J. apply (g_next _ _ G). lia. }
  pose proof (NoDup_incl_length ND Sub) as L. unfold ns in L. rewrite !map_length, seq_length in L. lia.
Qed.
Lemma word_static : word static_name.
Proof. split; [discriminate|]. repeat constructor; unfold is_lower; cbn; lia. Qed.

Lemma good_name t c n l t' c' : good t c -> lifetime_for n t c = (l, t', c') -> good t' c'.
Proof.
  intros G. unfold lifetime_for. destruct (text_eqb_spec n static_name) as [->|N]; [intro E; injection E as <- <- <-; exact G|].
  destruct (find_name n (n2l t)) as [x|] eqn:F; intro E; injection E as <- <- <-; [exact G|].
  apply find_name_none in F. pose proof (g_counter _ _ G) as C. apply good_insert; auto.
  - apply (good_more _ _ _ G). lia.
  - intro I. apply in_fst_ex in I. destruct I as (m & I). apply (g_same _ _ G) in I. apply (g_proper _ _ G) in I. lia.
  - unfold Static. lia.
  - lia.
  - intros j J. right. exact (g_next _ _ G _ J).
Qed.
Lemma good_lifetime t c l n t' : good t c -> (l < c)%Z -> name_for l t = (n, t') ->
  N.of_nat (List.length (n2l t')) < place static_name -> good t' c.
Proof.
  intros G L E S. destruct (Z.eq_dec l Static) as [->|N].
  { unfold name_for in E. rewrite Z.eqb_refl in E. injection E as <- <-. exact G. }
  destruct (find_lifetime l (l2n t)) as [x|] eqn:F.
  { unfold name_for in E. rewrite F in E. destruct (Z.eqb_spec l Static); [contradiction|]. injection E as <- <-. exact G. }
  destruct (name_for_new t l N F) as (i & E' & A & B & C). rewrite E' in E. injection E as <- <-. cbn [n2l List.length] in S.
  apply find_lifetime_none in F.
  assert (Nx : forall j, j < i + 1 -> In (name_from_index j) (name_from_index i :: map fst (n2l t))).
  { intros j J. destruct (N.eq_dec j i) as [->|D]; [now left|]. right.
    destruct (N.lt_ge_cases j (next t)) as [K|K]; [exact (g_next _ _ G _ K)|apply C; lia]. }
  apply good_insert; auto. intro Q.
  set (ns := map (fun j => name_from_index (N.of_nat j)) (seq 0 (N.to_nat (i + 1)))).
  assert (ND : NoDup ns). { apply Injective_map_NoDup; [|apply seq_NoDup]. intros a b H. apply name_inj in H. lia. }
  assert (Sub : incl ns (name_from_index i :: map fst (n2l t))).
  { intros n' J. apply in_map_iff in J. destruct J as (j & <- & J). apply in_seq in J. apply Nx. lia. }
  pose proof (NoDup_incl_length ND Sub) as K. unfold ns in K. cbn [List.length] in K. rewrite !map_length, seq_length in K.
  pose proof (proj1 (name_place i)) as P. rewrite Q in P. lia.
Qed.
Lemma name_for_grows t l n t' : name_for l t = (n, t') -> (List.length (n2l t) <= List.length (n2l t'))%nat.
Proof.
  unfold name_for. destruct (Z.eqb l Static); [intro E; injection E as _ <-; lia|].
  destruct (find_lifetime l (l2n t)); intro E; injection E as _ <-; cbn [n2l List.length]; lia.
Qed.
Lemma lifetime_for_grows t c n l t' c' : lifetime_for n t c = (l, t', c') -> (List.length (n2l t) <= List.length (n2l t'))%nat.
Proof.
  unfold lifetime_for. destruct (text_eqb n static_name); [intro E; injection E as _ <- _; lia|].
  destruct (find_name n (n2l t)); intro E; injection E as _ <- _; cbn [n2l List.length]; lia.
Qed.

Lemma lookup_name_good t c n l : good t c -> (lookup_name t n = Some l <-> (n = static_name /\ l = Static) \/ In (n, l) (n2l t)).
Proof.
  intro G. unfold lookup_name. destruct (text_eqb_spec n static_name) as [->|N].
  - split; [intro E; injection E as <-; auto|intros [(_ & ->)|I]; [reflexivity|]]. exfalso. exact (g_static _ _ G (in_fst _ _ _ I)).
  - rewrite (find_name_iff _ _ _ (g_names _ _ G)). tauto.
Qed.
Lemma lookup_lifetime_good t c n l : good t c -> (lookup_lifetime t l = Some n <-> (n = static_name /\ l = Static) \/ In (n, l) (n2l t)).
Proof.
  intro G. unfold lookup_lifetime. destruct (Z.eqb_spec l Static) as [->|N].
  - split; [intro E; injection E as <-; auto|intros [(-> & _)|I]; [reflexivity|]]. exfalso. now destruct (g_proper _ _ G _ _ I).
  - rewrite (find_lifetime_iff _ _ _ (g_lifetimes _ _ G)), (g_same _ _ G). tauto.
Qed.

Lemma good_add t c n l t' : good t c -> (l < c)%Z -> l <> Static -> n <> static_name ->
  (forall m, lookup_name t m <> Some l) -> add_name n l t = Some t' -> good t' c.
Proof.
  intros G L S N U. unfold add_name. destruct (find_name n (n2l t)) eqn:F; [discriminate|]. intro E. injection E as <-.
  apply find_name_none in F. apply good_insert; auto.
  - intro I. apply in_fst_ex in I. destruct I as (m & I). apply (g_same _ _ G) in I. apply (U m). apply (lookup_name_good t c m l G). auto.
  - intros j J. right. exact (g_next _ _ G _ J).
Qed.

Lemma uses_good t c : uses t c -> N.of_nat (List.length (n2l t)) < place static_name -> good t c.
Proof.
  induction 1 as [c C|t c n l t' c' U IH E|t c l n t' U IH L E|t c n l t' U IH L S N F E|t c U IH]; intro B.
  - split; cbn; try constructor; try tauto; try lia.
  - apply (good_name t c n l t' c'); [apply IH; apply lifetime_for_grows in E; lia|exact E].
  - apply (good_lifetime t c l n t'); auto. apply IH. apply name_for_grows in E. lia.
  - apply (good_add t c n l t'); auto. apply IH. unfold add_name in E. destruct (find_name n (n2l t)); [discriminate|].
    injection E as <-. cbn [n2l List.length] in B. lia.
  - apply (good_more t c); [auto|lia].
Qed.
Lemma good_one_to_one t c : good t c -> one_to_one t.
Proof. intros G n l. now rewrite (lookup_name_good t c n l G), (lookup_lifetime_good t c n l G). Qed.

(** What was bound stays bound. *)
Lemma lifetime_for_keeps t c n l t' c' m x : lifetime_for n t c = (l, t', c') -> lookup_name t m = Some x -> lookup_name t' m = Some x.
Proof.
  unfold lifetime_for. destruct (text_eqb n static_name); [intro E; injection E as _ <- _; auto|].
  destruct (find_name n (n2l t)) eqn:F; intro E; injection E as _ <- _; auto. unfold lookup_name. cbn [n2l find_name].
  destruct (text_eqb m static_name); [auto|]. destruct (text_eqb_spec m n) as [->|_]; [congruence|auto].
Qed.
Lemma name_for_keeps t l n t' m x : name_for l t = (n, t') -> lookup_name t m = Some x -> lookup_name t' m = Some x.
Proof.
  intro E. destruct (Z.eq_dec l Static) as [->|N].
  { unfold name_for in E. rewrite Z.eqb_refl in E. injection E as <- <-. auto. }
  destruct (find_lifetime l (l2n t)) as [y|] eqn:F.
  { unfold name_for in E. rewrite F in E. destruct (Z.eqb_spec l Static); [contradiction|]. injection E as <- <-. auto. }
  destruct (name_for_new t l N F) as (i & E' & A & B & C). rewrite E' in E. injection E as <- <-. unfold lookup_name. cbn [n2l find_name].
  destruct (text_eqb m static_name); [auto|]. destruct (text_eqb_spec m (name_from_index i)) as [->|_]; [|auto].
  apply find_name_none in B. congruence.
Qed.
Lemma add_name_keeps t n l t' m x : add_name n l t = Some t' -> lookup_name t m = Some x -> lookup_name t' m = Some x.
Proof.
  unfold add_name. destruct (find_name n (n2l t)) eqn:F; [discriminate|]. intro E. injection E as <-. unfold lookup_name. cbn [n2l find_name].
  destruct (text_eqb m static_name); [auto|]. destruct (text_eqb_spec m n) as [->|_]; [congruence|auto].
Qed.

(** The generated name is the first one that is free. *)
Lemma name_for_first t c l n t' : good t c -> lookup_lifetime t l = None -> name_for l t = (n, t') ->
  word n /\ ~ In n (map fst (n2l t)) /\ find_name n (n2l t') = Some l /\ find_lifetime l (l2n t') = Some n /\
  forall w, word w -> place w < place n -> lookup_name t w <> None.
Proof.
  intros G U E. unfold lookup_lifetime in U. destruct (Z.eqb_spec l Static) as [|N]; [discriminate|].
  destruct (name_for_new t l N U) as (i & E' & A & B & C). rewrite E' in E. injection E as <- <-.
  split; [apply name_place|]. split; [exact B|]. cbn [n2l l2n find_name find_lifetime]. rewrite text_eqb_refl, Z.eqb_refl. split; [reflexivity|].
  split; [reflexivity|]. intros w W P. rewrite (proj1 (name_place i)) in P. pose proof (place_pos w W) as P0.
  assert (I : In w (map fst (n2l t))).
  { rewrite <- (name_of_place w W). destruct (N.lt_ge_cases (place w - 1) (next t)) as [K|K]; [exact (g_next _ _ G _ K)|apply C; lia]. }
  unfold lookup_name. destruct (text_eqb w static_name); [discriminate|]. intro Q. now apply find_name_none in Q.
Qed.

(** Many lifetimes, and the name "static". *)
Lemma many : forall k : nat, exists t c, uses t c /\ next t = N.of_nat k /\ (2 <= c)%Z /\
  (forall n, In n (map fst (n2l t)) -> exists i, i < next t /\ n = name_from_index i) /\
  (forall l, In l (map fst (l2n t)) -> (l < c)%Z).
Proof.
  induction k as [|k (t & c & U & N & C & A & B)].
  - exists empty_table, 2%Z. split; [apply u_start; lia|]. repeat split; try lia; cbn; tauto.
  - assert (F : find_lifetime c (l2n t) = None) by (apply find_lifetime_none; intro I; apply B in I; lia).
    assert (S : c <> Static) by (unfold Static; lia).
    destruct (name_for_new t c S F) as (i & E & I1 & I2 & I3).
    assert (i = next t) as ->.
    { destruct (N.eq_dec i (next t)) as [|D]; [assumption|]. exfalso. destruct (A _ (I3 (next t) ltac:(lia))) as (j & J & Q). apply name_inj in Q. lia. }
    eexists _, (c + 1)%Z. split; [eapply u_lifetime; [apply u_new; exact U| |exact E]; lia|]. cbn [next n2l l2n map fst]. rewrite N.
    split; [lia|]. split; [lia|]. split.
    + intros n [<-|J]; [exists (next t); split; [lia|now rewrite N]|]. destruct (A n J) as (j & J' & ->). exists j. split; [lia|reflexivity].
    + intros l [<-|J]; [lia|]. apply B in J. lia.
Qed.
Lemma static_generated : exists t c l t', uses t c /\ (l < c)%Z /\ l <> Static /\ name_for l t = (static_name, t').
Proof.
  destruct (many (N.to_nat (place static_name - 1))) as (t & c & U & N & C & A & B). rewrite N2Nat.id in N.
  assert (F : find_lifetime c (l2n t) = None) by (apply find_lifetime_none; intro I; apply B in I; lia).
  assert (S : c <> Static) by (unfold Static; lia).
  destruct (name_for_new t c S F) as (i & E & I1 & I2 & I3).
  assert (i = next t) as ->.
  { destruct (N.eq_dec i (next t)) as [|D]; [assumption|]. exfalso. destruct (A _ (I3 (next t) ltac:(lia))) as (j & J & Q). apply name_inj in Q. lia. }
  rewrite N, (name_of_place _ word_static) in E. eexists t, (c + 1)%Z, c, _. split; [now apply u_new|]. split; [lia|]. split; [exact S|exact E].
Qed.
