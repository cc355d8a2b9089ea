(** C50: the hierarchy collected from a target's declarations. *)
From Coq Require Import List Arith ZArith Bool Lia Strings.String Sorting.Sorted Sorting.Permutation.
From Verif.Common Require Import Btree.
From Verif.Namespaces Require Import Model Spec Merge.
Import ListNotations.

Scheme node_ind2 := Minimality for insert_node Sort Prop with kids_ind2 := Minimality for insert_kids Sort Prop.
Combined Scheme insert_ind from node_ind2, kids_ind2.

(** Each node of the trie stands for one path. *)
Record node_ok (paths : list (list string)) (i : nat) (p : node) (pi : list string) : Prop := NodeOk {
  n_name : exists pi0, pi = pi0 ++ [nname p];
  n_sorted : sorted (idx p);
  n_kids : forall n j, bget n (idx p) = Some j <-> nth_error paths j = Some (pi ++ [n]);
  n_later : forall n j, bget n (idx p) = Some j -> i < j }.
Record inv (ts : list node) (tp : list (string * nat)) (paths : list (list string)) : Prop := Inv {
  i_len : List.length paths = List.length ts;
  i_nodup : NoDup paths;
  i_node : forall i p pi, nth_error ts i = Some p -> nth_error paths i = Some pi -> node_ok paths i p pi;
  i_top_sorted : sorted tp;
  i_top : forall n j, bget n tp = Some j <-> nth_error paths j = Some [n];
  i_closed : forall pi n, In (pi ++ [n]) paths -> pi <> [] -> In pi paths }.

Lemma nodup_snoc {A} (l : list A) x : ~ In x l -> NoDup l -> NoDup (l ++ [x]).
Proof. intros N D. apply (Permutation.Permutation_NoDup (l := x :: l)); [apply Permutation.Permutation_cons_append|now constructor]. Qed.
Lemma set_nth_length {A} (l : list A) : forall i x, List.length (set_nth l i x) = List.length l.
Proof. induction l as [|y l IH]; intros [|i] x; cbn; auto. Qed.
Lemma set_nth_nth {A} (l : list A) : forall i x j, i < List.length l -> nth_error (set_nth l i x) j = if j =? i then Some x else nth_error l j.
Proof. induction l as [|y l IH]; intros [|i] x [|j] H; cbn in *; try lia; try reflexivity. apply IH. lia. Qed.
Lemma nth_snoc {A} (l : list A) x j : nth_error (l ++ [x]) j = if j =? List.length l then Some x else nth_error l j.
Proof.
  destruct (Nat.eqb_spec j (List.length l)) as [->|N]; [rewrite nth_error_app2, Nat.sub_diag by lia; reflexivity|]. destruct (Nat.lt_ge_cases j (List.length l)); [now rewrite nth_error_app1|]. rewrite nth_error_app2 by lia. destruct (j - List.length l) as [|[|k]] eqn:E; try lia; cbn; symmetry; apply nth_error_None; lia.
Qed.
Lemma nth_same {A} (l : list A) i j x : NoDup l -> nth_error l i = Some x -> nth_error l j = Some x -> i = j.
Proof. intros N E E'. apply (proj1 (NoDup_nth_error l) N); [apply nth_error_Some; congruence|congruence]. Qed.
Lemma nonempty ts tp paths i pi : inv ts tp paths -> nth_error paths i = Some pi -> exists p pi0, nth_error ts i = Some p /\ pi = pi0 ++ [nname p].
Proof.
  intros I E. assert (L : i < List.length ts) by (rewrite <- (i_len _ _ _ I); apply nth_error_Some; congruence). destruct (nth_error ts i) as [p|] eqn:Et; [|apply nth_error_None in Et; lia]. destruct (n_name _ _ _ _ (i_node _ _ _ I _ _ _ Et E)) as [pi0 H]. eauto.
Qed.
Lemma child_of_ok ts tp paths parent n ts1 j pi : inv ts tp paths -> nth_error paths parent = Some pi -> child_of ts parent n ts1 j ->
  exists ext, inv ts1 tp (paths ++ ext) /\ nth_error (paths ++ ext) j = Some (pi ++ [n]) /\ forall q, In q (paths ++ ext) <-> In q paths \/ q = pi ++ [n].
Proof.
  intros I Ep C. inversion C as [p Et Eb|p j' Et Eb]; subst.
  2:{ exists []. rewrite app_nil_r. assert (E : nth_error paths j = Some (pi ++ [n])) by (apply (i_node _ _ _ I _ _ _ Et Ep); exact Eb). split; [exact I|]. split; [exact E|]. intro q. split; [auto|]. intros [H| ->]; [exact H|]. eapply nth_error_In; exact E. }
  pose proof (i_node _ _ _ I _ _ _ Et Ep) as Ok. pose proof (i_len _ _ _ I) as Len. assert (Lp : parent < List.length ts) by (apply nth_error_Some; congruence).
  assert (New : ~ In (pi ++ [n]) paths). { intro H. apply In_nth_error in H as [j H]. apply (n_kids _ _ _ _ Ok) in H. congruence. }
  assert (Npi : pi <> []) by (destruct (n_name _ _ _ _ Ok) as [pi0 ->]; now destruct pi0).
  exists [pi ++ [n]]. split; [|split].
  - constructor.
    + rewrite !app_length, set_nth_length. cbn. lia.
    + apply nodup_snoc; [exact New|apply I]. 
    + intros i q qi. rewrite !nth_snoc, set_nth_length, Len. destruct (Nat.eqb_spec i (List.length ts)) as [->|Ni].
      * intros E1 E2. injection E1 as <-. injection E2 as <-. constructor; cbn [nname idx].
        -- eauto.
        -- constructor.
        -- intros m j. split; [discriminate|]. rewrite nth_snoc. destruct (Nat.eqb_spec j (List.length paths)) as [_|_].
           ++ intro E. injection E as E. rewrite <- (app_nil_r (pi ++ [n])) in E at 1. apply app_inv_head in E. discriminate.
           ++ intro E. exfalso. apply New. apply (i_closed _ _ _ I _ m); [eapply nth_error_In; exact E|]. now destruct pi.
        -- discriminate.
      * rewrite set_nth_nth by exact Lp. destruct (Nat.eqb_spec i parent) as [->|Np].
        -- intros E1 E2. injection E1 as <-. assert (qi = pi) by congruence. subst qi. constructor; cbn [nname idx].
           ++ apply Ok.
           ++ apply bput_sorted, Ok.
           ++ intros m j. rewrite bget_bput, nth_snoc, Len. destruct (String.eqb_spec m n) as [->|Nm].
              ** destruct (Nat.eqb_spec j (List.length ts)) as [->|Nj]; [split; reflexivity|]. split; [intro E; congruence|]. intro E. exfalso. apply New. eapply nth_error_In; exact E.
              ** rewrite (n_kids _ _ _ _ Ok). destruct (Nat.eqb_spec j (List.length ts)) as [->|Nj]; [|reflexivity]. split.
                 --- intro E. assert (Hl : List.length ts < List.length paths) by (apply nth_error_Some; congruence). lia.
                 --- intro E. injection E as E. apply app_inv_head in E. congruence.
           ++ intros m j. rewrite bget_bput. destruct (String.eqb_spec m n) as [->|Nm]; [intro E; injection E as <-; exact Lp|apply Ok].
        -- intros E1 E2. pose proof (i_node _ _ _ I _ _ _ E1 E2) as Ok2. constructor; [apply Ok2|apply Ok2| |apply Ok2].
           intros m j. rewrite (n_kids _ _ _ _ Ok2), nth_snoc, Len. destruct (Nat.eqb_spec j (List.length ts)) as [->|Nj]; [|reflexivity]. split.
           ++ intro E. assert (Hl : List.length ts < List.length paths) by (apply nth_error_Some; congruence). lia.
           ++ intro E. injection E as E. apply app_inj_tail in E as [E _]. subst qi. exfalso. apply Np. eapply nth_same; [apply I|exact E2|exact Ep].
    + apply I.
    + intros m j. rewrite (i_top _ _ _ I), nth_snoc, Len. destruct (Nat.eqb_spec j (List.length ts)) as [->|Nj]; [|reflexivity]. split.
      * intro E. assert (Hl : List.length ts < List.length paths) by (apply nth_error_Some; congruence). lia.
      * intro E. injection E as E. destruct pi as [|a pi]; [contradiction|]. destruct pi; discriminate E.
    + intros qi m H Nq. apply in_app_or in H as [H|[H|[]]]; apply in_or_app; left; [eapply (i_closed _ _ _ I); eassumption|]. apply app_inj_tail in H as [<- _]. eapply nth_error_In; exact Ep.
  - rewrite nth_snoc, Len, Nat.eqb_refl. reflexivity.
  - intro q. rewrite in_app_iff. cbn. intuition congruence.
Qed.
Definition kids_open (get : Z -> option decl) (is : list Z) (p : list string) : Prop := exists i d, In i is /\ get i = Some d /\ decl_opens get d p.
Lemma insert_ok get tp :
  (forall ts parent d ts', insert_node get ts parent d ts' -> forall paths pi, inv ts tp paths -> nth_error paths parent = Some pi ->
     exists ext, inv ts' tp (paths ++ ext) /\ forall q, In q (paths ++ ext) <-> In q paths \/ exists p, decl_opens get d p /\ q = pi ++ p) /\
  (forall ts j is ts', insert_kids get ts j is ts' -> forall paths pi, inv ts tp paths -> nth_error paths j = Some pi ->
     exists ext, inv ts' tp (paths ++ ext) /\ forall q, In q (paths ++ ext) <-> In q paths \/ exists p, kids_open get is p /\ q = pi ++ p).
Proof.
  apply insert_ind.
  - intros ts parent d ts1 j ts' C _ IH paths pi I Ep. destruct (child_of_ok _ _ _ _ _ _ _ _ I Ep C) as (e1 & I1 & E1 & H1). destruct (IH _ _ I1 E1) as (e2 & I2 & H2). exists (e1 ++ e2). rewrite app_assoc. split; [exact I2|]. intro q. rewrite H2, H1. split.
    + intros [[H| ->]|(p & (i & d' & Hi & Hg & Ho) & ->)]; [auto|right; exists [name d]; split; [apply DHere|reflexivity]|]. right. exists (name d :: p). split; [eapply DInner; eassumption|]. now rewrite <- app_assoc.
    + intros [H|(p & Ho & ->)]; [auto|]. inversion Ho as [|? i d' p' Hi Hg Ho']; subst; [auto|]. right. exists p'. split; [exists i, d'; auto|]. now rewrite <- app_assoc.
  - intros ts j paths pi I Ep. exists []. rewrite app_nil_r. split; [exact I|]. intro q. split; [auto|]. intros [H|(p & (i & d & [] & _) & _)]. exact H.
  - intros ts j i is ts' Hg _ IH paths pi I Ep. destruct (IH _ _ I Ep) as (e & I' & H). exists e. split; [exact I'|]. intro q. rewrite H. apply or_iff_compat_l. split; intros (p & (i' & d & Hi & Hd & Ho) & ->); exists p; (split; [|reflexivity]); exists i', d; (split; [|auto]); [now right|]. destruct Hi as [->|Hi]; [congruence|exact Hi].
  - intros ts j i is d ts1 ts' Hg _ IH1 _ IH2 paths pi I Ep. destruct (IH1 _ _ I Ep) as (e1 & I1 & H1). assert (Ep1 : nth_error (paths ++ e1) j = Some pi) by (rewrite nth_error_app1; [exact Ep|apply nth_error_Some; congruence]). destruct (IH2 _ _ I1 Ep1) as (e2 & I2 & H2). exists (e1 ++ e2). rewrite app_assoc. split; [exact I2|]. intro q. rewrite H2, H1. split.
    + intros [[H|(p & Ho & ->)]|(p & (i' & d' & Hi & Hd & Ho) & ->)]; [auto|right; exists p; split; [exists i, d; split; [now left|auto]|reflexivity]|right; exists p; split; [exists i', d'; split; [now right|auto]|reflexivity]].
    + intros [H|(p & (i' & d' & [->|Hi] & Hd & Ho) & ->)]; [auto|left; right; exists p; split; [congruence|reflexivity]|right; exists p; split; [exists i', d'; auto|reflexivity]].
Qed.
Lemma insert_top_ok get t d t' paths : insert_top get t d t' -> inv (nodes t) (top t) paths ->
  exists paths', inv (nodes t') (top t') paths' /\ forall q, In q paths' <-> In q paths \/ decl_opens get d q.
Proof.
  intros T I. assert (Dec : forall q, decl_opens get d q <-> q = [name d] \/ exists p, kids_open get (kids d) p /\ q = [name d] ++ p).
  { intro q. split.
    - intro H. inversion H as [|? i d' p Hi Hg Ho]; subst; [now left|]. right. exists p. split; [exists i, d'; auto|reflexivity].
    - intros [->|(p & (i & d' & Hi & Hg & Ho) & ->)]; [apply DHere|eapply DInner; eassumption]. }
  inversion T as [? ? ts' Eb K|? ? j ts' Eb K]; subst; cbn [nodes top].
  - assert (New : ~ In [name d] paths) by (intro H; apply In_nth_error in H as [j H]; apply (i_top _ _ _ I) in H; congruence). pose proof (i_len _ _ _ I) as Len.
    assert (I1 : inv (nodes t ++ [Node (name d) []]) (bput (name d) (List.length (nodes t)) (top t)) (paths ++ [[name d]])).
    { constructor.
      - rewrite !app_length. cbn. lia.
      - apply nodup_snoc; [exact New|apply I].
      - intros i q qi. rewrite !nth_snoc, Len. destruct (Nat.eqb_spec i (List.length (nodes t))) as [->|Ni].
        + intros E1 E2. injection E1 as <-. injection E2 as <-. constructor; cbn [nname idx].
          * exists []. reflexivity.
          * constructor.
          * intros m j. split; [discriminate|]. rewrite nth_snoc. destruct (Nat.eqb_spec j (List.length paths)); [discriminate|]. intro E. exfalso. apply New. apply (i_closed _ _ _ I [name d] m); [eapply nth_error_In; exact E|discriminate].
          * discriminate.
        + intros E1 E2. pose proof (i_node _ _ _ I _ _ _ E1 E2) as Ok2. constructor; [apply Ok2|apply Ok2| |apply Ok2].
          intros m j. rewrite (n_kids _ _ _ _ Ok2), nth_snoc, Len. destruct (Nat.eqb_spec j (List.length (nodes t))) as [->|Nj]; [|reflexivity]. split.
          * intro E. assert (Hl : List.length (nodes t) < List.length paths) by (apply nth_error_Some; congruence). lia.
          * intro E. injection E as E. destruct (n_name _ _ _ _ Ok2) as [pi0 ->]. destruct pi0 as [|a [|b pi0]]; discriminate E.
      - apply bput_sorted, I.
      - intros m j. rewrite bget_bput, nth_snoc, Len. destruct (String.eqb_spec m (name d)) as [->|Nm].
        + destruct (Nat.eqb_spec j (List.length (nodes t))) as [->|Nj]; [split; reflexivity|]. split; [congruence|]. intro E. exfalso. apply New. eapply nth_error_In; exact E.
        + rewrite (i_top _ _ _ I). destruct (Nat.eqb_spec j (List.length (nodes t))) as [->|Nj]; [|reflexivity]. split; [|congruence]. intro E. assert (Hl : List.length (nodes t) < List.length paths) by (apply nth_error_Some; congruence). lia.
      - intros qi m H Nq. apply in_app_or in H as [H|[H|[]]]; [apply in_or_app; left; eapply (i_closed _ _ _ I); eassumption|]. destruct qi as [|a [|b qi]]; [contradiction|discriminate H|discriminate H]. }
    assert (Ep : nth_error (paths ++ [[name d]]) (List.length (nodes t)) = Some [name d]) by (rewrite nth_snoc, Len, Nat.eqb_refl; reflexivity).
    destruct (proj2 (insert_ok get _) _ _ _ _ K _ _ I1 Ep) as (e & I2 & H2). exists ((paths ++ [[name d]]) ++ e). split; [exact I2|]. intro q. rewrite H2, Dec, in_app_iff. cbn [In]. intuition congruence.
  - assert (Ep : nth_error paths j = Some [name d]) by (now apply (i_top _ _ _ I)). destruct (proj2 (insert_ok get _) _ _ _ _ K _ _ I Ep) as (e & I2 & H2). exists (paths ++ e). split; [exact I2|]. intro q. rewrite H2, Dec. split; [intros [H|H]; auto|]. intros [H|[->|H]]; auto. left. eapply nth_error_In; exact Ep.
Qed.
Lemma insert_all_ok get t is t' : insert_all get t is t' -> forall paths, inv (nodes t) (top t) paths ->
  exists paths', inv (nodes t') (top t') paths' /\ forall q, In q paths' <-> In q paths \/ kids_open get is q.
Proof.
  induction 1 as [t|t i is t' Hg _ IH|t i is d t1 t' Hg T _ IH]; intros paths I.
  - exists paths. split; [exact I|]. intro q. split; [auto|]. intros [H|(i & d & [] & _)]. exact H.
  - destruct (IH _ I) as (p' & I' & H). exists p'. split; [exact I'|]. intro q. rewrite H. apply or_iff_compat_l. split; intros (i' & d & Hi & Hd & Ho); exists i', d; (split; [|auto]); [now right|]. destruct Hi as [->|Hi]; [congruence|exact Hi].
  - destruct (insert_top_ok _ _ _ _ _ T I) as (p1 & I1 & H1). destruct (IH _ I1) as (p2 & I2 & H2). exists p2. split; [exact I2|]. intro q. rewrite H2, H1. split.
    + intros [[H|H]|(i' & d' & Hi & Hd & Ho)]; [auto|right; exists i, d; split; [now left|auto]|right; exists i', d'; split; [now right|auto]].
    + intros [H|(i' & d' & [->|Hi] & Hd & Ho)]; [auto|left; right; congruence|right; exists i', d'; auto].
Qed.
Lemma inv_empty : inv [] [] [].
Proof. constructor; try (now constructor); [intros [|i]; discriminate|intros n [|j]; cbn; split; discriminate|intros ? ? []]. Qed.

(** Forests whose siblings are in strictly increasing order of name. *)
Definition name_lt (a b : json) : Prop := String.compare (jname a) (jname b) = Lt.
Inductive ordered : list json -> Prop := Ordered js : StronglySorted name_lt js -> (forall n ch, In (Json n ch) js -> ordered ch) -> ordered js.
Lemma sorted_names_nodup js : StronglySorted name_lt js -> NoDup (map jname js).
Proof.
  induction 1 as [|j js S IH F]; cbn [map]; constructor; [|exact IH]. rewrite Forall_forall in F. intro H. apply in_map_iff in H as (j' & E & H). specialize (F _ H). unfold name_lt in F. rewrite E, compare_refl in F. discriminate.
Qed.
Lemma ordered_distinct j : forall ch, j = Json (jname j) ch -> ordered ch -> distinct ch.
Proof. induction j as [n ch0 IH] using json_ind'. intros ch E O. cbn in E. injection E as ->. inversion O as [? S C]; subst. constructor; [now apply sorted_names_nodup|]. intros m c Hi. apply (IH _ Hi c eq_refl). eapply C; exact Hi. Qed.
Lemma forest_distinct js : ordered js -> distinct js.
Proof. intro O. apply (ordered_distinct (Json "" js) js); [reflexivity|exact O]. Qed.
Lemma forall2_in {A B} (R : A -> B -> Prop) l l' : Forall2 R l l' -> (forall x, In x l -> exists y, In y l' /\ R x y) /\ (forall y, In y l' -> exists x, In x l /\ R x y).
Proof. induction 1 as [|x y l l' H F [I1 I2]]; [split; intros ? []|]. split; [intros z [<-|Hz]; [exists y; split; [now left|exact H]|destruct (I1 z Hz) as (w & Hw & Hr); exists w; split; [now right|exact Hr]]|intros z [<-|Hz]; [exists x; split; [now left|exact H]|destruct (I2 z Hz) as (w & Hw & Hr); exists w; split; [now right|exact Hr]]]. Qed.

(** Converting a node, or the whole trie: what the index map of a node (or of the top) turns into. *)
Section Convert.
Variable ts : list node.
Variable tp : list (string * nat).
Variable paths : list (list string).
Hypothesis I : inv ts tp paths.
(** [m] maps the names [n] with [pi ++ [n]] in the trie to their nodes. *)
Definition index (pi : list string) (m : list (string * nat)) : Prop := sorted m /\ forall n j, bget n m = Some j <-> nth_error paths j = Some (pi ++ [n]).
Lemma node_index i p pi : nth_error ts i = Some p -> nth_error paths i = Some pi -> index pi (idx p).
Proof. intros E E'. pose proof (i_node _ _ _ I _ _ _ E E') as Ok. split; apply Ok. Qed.
Definition good (j : json) : Prop := forall i pi ch, j = Json (jname j) ch -> to_json ts i j -> nth_error paths i = Some pi ->
  (exists pi0, pi = pi0 ++ [jname j]) /\ ordered ch /\ forall p, opens ch p <-> p <> [] /\ In (pi ++ p) paths.
Lemma prefix_in pi p : In (pi ++ p) paths -> pi <> [] -> In pi paths.
Proof.
  induction p as [|n p IH] using rev_ind; intros H N; [now rewrite app_nil_r in H|]. rewrite app_assoc in H. apply (i_closed _ _ _ I) in H; [auto|]. destruct pi; [contradiction|discriminate].
Qed.
Lemma forest_ok pi m js : (pi = [] \/ In pi paths) -> index pi m -> Forall2 (fun e j => to_json ts (snd e) j) m js -> (forall j, In j js -> good j) ->
  ordered js /\ forall p, opens js p <-> p <> [] /\ In (pi ++ p) paths.
Proof.
  intros Hpi [S Ix] F G. pose proof (sorted_nodup _ S) as N. destruct (forall2_in _ _ _ F) as [F1 F2].
  assert (Pair : forall e j, In e m -> In j js -> to_json ts (snd e) j -> fst e = jname j /\ forall ch, j = Json (jname j) ch -> ordered ch /\ forall p, opens ch p <-> p <> [] /\ In (pi ++ fst e :: p) paths).
  { intros [n i] j He Hj T. cbn [fst snd] in *. apply (bget_in _ N), Ix in He. destruct j as [nj cj]. destruct (G _ Hj i _ cj eq_refl T He) as ((pi0 & E) & O & P). cbn [jname] in *. apply app_inj_tail in E as [_ <-]. split; [reflexivity|]. intros ch E. injection E as <-. split; [exact O|]. intro p. rewrite P, <- app_assoc. reflexivity. }
  assert (Names : map fst m = map jname js).
  { clear Ix Hpi S N. induction F as [|e j m js T F IH]; [reflexivity|]. cbn [map]. f_equal; [now apply (Pair e j (or_introl eq_refl) (or_introl eq_refl) T)|]. apply IH; [intros j' H; apply G; now right|apply (forall2_in _ _ _ F)|apply (forall2_in _ _ _ F)|intros e' j' H H'; apply Pair; now right]. }
  split.
  - constructor.
    + assert (G2 : forall (m' : list (string * nat)) js', sorted m' -> map fst m' = map jname js' -> StronglySorted name_lt js').
      { induction m' as [|[k v] m' IH]; intros [|j js'] Sm E; try discriminate; [constructor|]. cbn [map fst] in E. injection E as E1 E2. inversion Sm as [|? ? S' F']; subst. constructor; [now apply IH|]. apply Forall_forall. intros j' Hj'. unfold name_lt. assert (Hk : In (jname j') (map fst m')) by (rewrite E2; now apply in_map). apply in_map_iff in Hk as (e' & Ek & He'). rewrite Forall_forall in F'. specialize (F' _ He'). unfold key_lt in F'. cbn [fst] in F'. now rewrite Ek in F'. }
      exact (G2 m js S Names).
    + intros n ch Hj. destruct (F2 _ Hj) as (e & He & T). destruct (Pair e _ He Hj T) as [_ H]. now destruct (H ch eq_refl).
  - intro p. split.
    + intro H. inversion H as [? n ch Hj|? n ch p' Hj Ho]; subst; clear H; (split; [discriminate|]).
      * destruct (F2 _ Hj) as (e & He & T). destruct (Pair e _ He Hj T) as [En Hc]. cbn [jname] in En. rewrite <- En. destruct e as [k i]. cbn [fst]. apply (bget_in _ N), Ix in He. eapply nth_error_In; exact He.
      * destruct (F2 _ Hj) as (e & He & T). destruct (Pair e _ He Hj T) as [En Hc]. cbn [jname] in En. destruct (Hc ch eq_refl) as [_ P]. pose proof (proj2 (proj1 (P _) Ho)) as Ho2. now rewrite En in Ho2.
    + intros [Np H]. destruct p as [|n p]; [contradiction|].
      assert (Hn : In (pi ++ [n]) paths). { apply (prefix_in (pi ++ [n]) p); [now rewrite <- app_assoc|now destruct pi]. }
      apply In_nth_error in Hn as [i Hn]. apply Ix, (bget_in _ N) in Hn. destruct (F1 _ Hn) as (j & Hj & T). destruct (Pair _ _ Hn Hj T) as [En Hc]. cbn [fst] in *. destruct j as [nj ch]. cbn [jname] in En. subst nj.
      destruct p as [|n' p]; [eapply OHere; exact Hj|]. eapply OInner; [exact Hj|]. destruct (Hc ch eq_refl) as [_ P]. apply P. split; [discriminate|exact H].
Qed.
Lemma all_good j : good j.
Proof.
  induction j as [n ch0 IH] using json_ind'. intros i pi ch E T Ep. cbn in E. injection E as ->. inversion T as [? p js Et F]; subst. cbn [jname].
  split; [apply (i_node _ _ _ I _ _ _ Et Ep)|]. apply (forest_ok pi (idx p) ch); [right; eapply nth_error_In; exact Ep|now apply (node_index i)|exact F|exact IH].
Qed.
Lemma convert_total : forall k i, List.length ts - i <= k -> i < List.length ts -> exists j, to_json ts i j.
Proof.
  induction k as [|k IH]; intros i Hk Hi; [lia|]. destruct (nth_error ts i) as [p|] eqn:Et; [|apply nth_error_None in Et; lia]. destruct (nth_error paths i) as [pi|] eqn:Ep; [|apply nth_error_None in Ep; rewrite (i_len _ _ _ I) in Ep; lia].
  pose proof (i_node _ _ _ I _ _ _ Et Ep) as Ok. pose proof (sorted_nodup _ (n_sorted _ _ _ _ Ok)) as N.
  assert (H : forall e, In e (idx p) -> exists j, to_json ts (snd e) j).
  { intros [n j] He. apply (bget_in _ N) in He. cbn [snd]. pose proof (n_later _ _ _ _ Ok _ _ He) as L. apply (n_kids _ _ _ _ Ok) in He. assert (j < List.length ts) by (rewrite <- (i_len _ _ _ I); apply nth_error_Some; congruence). apply IH; lia. }
  assert (Fs : exists js, Forall2 (fun e j => to_json ts (snd e) j) (idx p) js).
  { clear - H. induction (idx p) as [|e l IHl]; [exists []; constructor|]. destruct (H e (or_introl eq_refl)) as [j Hj]. destruct IHl as [js Hjs]; [intros e' He'; apply H; now right|]. exists (j :: js). now constructor. }
  destruct Fs as [js F]. eexists. econstructor; eassumption.
Qed.
Lemma top_total : exists js, Forall2 (fun e j => to_json ts (snd e) j) tp js.
Proof.
  pose proof (sorted_nodup _ (i_top_sorted _ _ _ I)) as N.
  assert (H : forall e, In e tp -> exists j, to_json ts (snd e) j).
  { intros [n j] He. apply (bget_in _ N), (i_top _ _ _ I) in He. cbn [snd]. assert (j < List.length ts) by (rewrite <- (i_len _ _ _ I); apply nth_error_Some; congruence). apply (convert_total (List.length ts)); lia. }
  clear - H. induction tp as [|e l IHl]; [exists []; constructor|]. destruct (H e (or_introl eq_refl)) as [j Hj]. destruct IHl as [js Hjs]; [intros e' He'; apply H; now right|]. exists (j :: js). now constructor.
Qed.
End Convert.

Lemma collect_ok target all items h : collect target all items h -> label h = target /\ ordered (namespaces h) /\ forall p, opens (namespaces h) p <-> target_opens target all items p.
Proof.
  intro C. inversion C as [t js A F]; subst. cbn [label namespaces]. destruct (insert_all_ok _ _ _ _ A [] inv_empty) as (paths & I & H). split; [reflexivity|].
  destruct (forest_ok (nodes t) (top t) paths I [] (top t) js) as [O P]; [now left|split; [apply I|intros; apply (i_top _ _ _ I)]|exact F|intros; now apply (all_good _ _ _ I)|]. split; [exact O|]. intro p. rewrite P. cbn [app]. rewrite H. unfold target_opens, kids_open. split; [intros (_ & [[]|Hk]); exact Hk|]. intro Hk. split; [|auto]. destruct Hk as (i & d & _ & _ & Ho). inversion Ho; discriminate.
Qed.

(** Ordered forests are determined by what they open. *)
Lemma sorted_lists_equal (l : list json) : forall l', StronglySorted name_lt l -> StronglySorted name_lt l' -> (forall n, In n (map jname l) <-> In n (map jname l')) -> map jname l = map jname l'.
Proof.
  induction l as [|a l IH]; intros [|b l'] S S' H.
  - reflexivity.
  - exfalso. apply (proj2 (H (jname b))). now left.
  - exfalso. apply (proj1 (H (jname a))). now left.
  - inversion S as [|? ? S1 F1]; subst. inversion S' as [|? ? S2 F2]; subst. pose proof (sorted_names_nodup _ S) as N. pose proof (sorted_names_nodup _ S') as N'. cbn [map] in N, N'. inversion N as [|? ? Na _]; subst. inversion N' as [|? ? Nb _]; subst. rewrite Forall_forall in F1, F2.
    assert (E : jname a = jname b).
    { assert (Ha : In (jname a) (map jname (b :: l'))) by (apply H; now left). assert (Hb : In (jname b) (map jname (a :: l))) by (apply H; now left). destruct Ha as [Ha|Ha]; [auto|]. destruct Hb as [Hb|Hb]; [auto|]. apply in_map_iff in Ha as (x & Ex & Hx), Hb as (y & Ey & Hy). apply F2 in Hx. apply F1 in Hy. unfold name_lt in Hx, Hy. rewrite Ex in Hx. rewrite Ey in Hy. pose proof (compare_lt_trans _ _ _ Hx Hy) as C. rewrite compare_refl in C. discriminate. }
    cbn [map]. f_equal; [exact E|]. apply IH; auto. intro n. specialize (H n). cbn [map In] in H. split; intro Hn.
    + destruct (proj1 H (or_intror Hn)) as [E'|Hn']; [|exact Hn']. exfalso. apply Na. now rewrite E, E'.
    + destruct (proj2 H (or_intror Hn)) as [E'|Hn']; [|exact Hn']. exfalso. apply Nb. now rewrite <- E, E'.
Qed.
Lemma opens_head js n : (opens js [n]) <-> In n (map jname js).
Proof.
  split; [intro H; inversion H as [? ? ch Hi|? ? ch ? Hi Ho]; subst; change n with (jname (Json n ch)); now apply in_map|]. intro H. apply in_map_iff in H as ([m ch] & E & Hi). cbn in E. subst. eapply OHere; exact Hi.
Qed.
Lemma opens_inner js n ch p : NoDup (map jname js) -> In (Json n ch) js -> p <> [] -> (opens js (n :: p) <-> opens ch p).
Proof.
  intros N Hi Np. split; [|intro; eapply OInner; eassumption]. intro H. inversion H as [|? ? ch' ? Hi' Ho]; subst; [contradiction|]. assert (ch' = ch); [|now subst].
  clear - N Hi Hi'. induction js as [|j js IH]; [destruct Hi|]. cbn [map] in N. inversion N as [|? ? N1 N2]; subst. destruct Hi as [->|Hi], Hi' as [E|Hi'].
  - congruence.
  - exfalso. apply N1. cbn. change n with (jname (Json n ch')). now apply in_map.
  - subst. exfalso. apply N1. cbn. change n with (jname (Json n ch)). now apply in_map.
  - auto.
Qed.
Lemma forest_unique j : forall ch ch', j = Json (jname j) ch -> ordered ch -> ordered ch' -> (forall p, opens ch p <-> opens ch' p) -> ch = ch'.
Proof.
  induction j as [n ch0 IH] using json_ind'. intros ch ch' E O O' H. cbn in E. injection E as ->. inversion O as [? S C]; subst. inversion O' as [? S' C']; subst.
  pose proof (sorted_names_nodup _ S) as N. pose proof (sorted_names_nodup _ S') as N'.
  assert (Names : map jname ch = map jname ch') by (apply sorted_lists_equal; auto; intro m; rewrite <- !opens_head; apply H).
  assert (Eq : forall m a b, In (Json m a) ch -> In (Json m b) ch' -> a = b).
  { intros m a b Ha Hb. apply (IH _ Ha a b eq_refl (C _ _ Ha) (C' _ _ Hb)). intro p. destruct p as [|x p]; [split; intro X; inversion X|]. rewrite <- (opens_inner ch m a _ N Ha) by discriminate. rewrite <- (opens_inner ch' m b _ N' Hb) by discriminate. apply H. }
  clear - Names Eq. revert ch' Names Eq. induction ch as [|[m a] ch IHc]; intros [|[m' b] ch'] Names Eq; try discriminate; [reflexivity|]. cbn [map jname] in Names. injection Names as <- Names. f_equal; [f_equal; eapply Eq; now left|]. apply IHc; [exact Names|]. intros k x y Hx Hy. eapply Eq; right; eassumption.
Qed.

(** Insertion always ends when declarations are nested properly. *)
Lemma resolve_id target all i d : resolve target all i = Some d -> id d = i.
Proof. unfold resolve. intro H. apply find_some in H as [_ H]. apply andb_prop in H as [H _]. now apply Z.eqb_eq in H. Qed.
Lemma child_total ts tp paths parent n pi : inv ts tp paths -> nth_error paths parent = Some pi -> exists ts1 j, child_of ts parent n ts1 j.
Proof.
  intros I Ep. destruct (nonempty _ _ _ _ _ I Ep) as (p & _ & Et & _). destruct (bget n (idx p)) as [j|] eqn:Eb; do 2 eexists; [eapply ChildOld; eassumption|eapply ChildNew; eassumption].
Qed.
Section Total.
Variable get : Z -> option decl.
Variable rank : Z -> nat.
Hypothesis Rank : forall i d j e, get i = Some d -> In j (kids d) -> get j = Some e -> rank (id e) < rank (id d).
Lemma kids_total : forall r is, (forall i d, In i is -> get i = Some d -> rank (id d) < r) -> forall ts tp paths j pi, inv ts tp paths -> nth_error paths j = Some pi -> exists ts', insert_kids get ts j is ts'.
Proof.
  induction r as [|r IHr]; induction is as [|i is IH]; intros Hr ts tp paths j pi I Ep; try (eexists; apply KNil).
  - destruct (get i) as [d|] eqn:Hg; [specialize (Hr i d (or_introl eq_refl) Hg); lia|]. destruct (IH (fun i' d' H => Hr i' d' (or_intror H)) ts tp paths j pi I Ep) as [ts' K]. eexists. eapply KSkip; eassumption.
  - destruct (get i) as [d|] eqn:Hg.
    + destruct (child_total _ _ _ _ (name d) _ I Ep) as (ts1 & j1 & C). destruct (child_of_ok _ _ _ _ _ _ _ _ I Ep C) as (e1 & I1 & E1 & _).
      assert (Hd := Hr i d (or_introl eq_refl) Hg). destruct (IHr (kids d) (fun i' d' Hi' Hg' => Nat.lt_le_trans _ _ _ (Rank i d i' d' Hg Hi' Hg') (proj1 (Nat.lt_succ_r _ _) Hd)) _ _ _ _ _ I1 E1) as [ts2 K2].
      assert (Node2 : insert_node get ts j d ts2) by (econstructor; eassumption). destruct (proj1 (insert_ok get tp) _ _ _ _ Node2 _ _ I Ep) as (e & I2 & _).
      assert (Ep2 : nth_error (paths ++ e) j = Some pi) by (rewrite nth_error_app1; [exact Ep|apply nth_error_Some; congruence]).
      destruct (IH (fun i' d' H => Hr i' d' (or_intror H)) _ _ _ _ _ I2 Ep2) as [ts3 K3]. eexists. eapply KNode; eassumption.
    + destruct (IH (fun i' d' H => Hr i' d' (or_intror H)) ts tp paths j pi I Ep) as [ts' K]. eexists. eapply KSkip; eassumption.
Qed.
End Total.
Lemma all_total get rank : (forall i d j e, get i = Some d -> In j (kids d) -> get j = Some e -> rank (id e) < rank (id d)) ->
  forall is t paths, inv (nodes t) (top t) paths -> exists t', insert_all get t is t'.
Proof.
  intros Rank. induction is as [|i is IH]; intros t paths I; [eexists; apply ANil|].
  destruct (get i) as [d|] eqn:Hg; [|destruct (IH _ _ I) as [t' A]; eexists; eapply ASkip; eassumption].
  assert (T : exists t1, insert_top get t d t1).
  { destruct (bget (name d) (top t)) as [j|] eqn:Eb.
    - assert (Ep : nth_error paths j = Some [name d]) by (now apply (i_top _ _ _ I)). destruct (kids_total get rank Rank (S (rank (id d))) (kids d)) with (ts := nodes t) (tp := top t) (paths := paths) (j := j) (pi := [name d]) as [ts' K]; auto.
      + intros i' d' Hi' Hg'. specialize (Rank _ _ _ _ Hg Hi' Hg'). lia.
      + eexists. eapply TopOld; eassumption.
    - pose proof (insert_top_ok get t (Decl (id d) (name d) (owner d) [])) as Ok.
      assert (T0 : insert_top get t (Decl (id d) (name d) (owner d) []) (Trie (nodes t ++ [Node (name d) []]) (bput (name d) (List.length (nodes t)) (top t)))) by exact (TopNew get t (Decl (id d) (name d) (owner d) []) _ Eb (KNil _ _ _)).
      destruct (Ok _ _ T0 I) as (p1 & I1 & H1). cbn [nodes top] in I1.
      assert (Ep : nth_error p1 (List.length (nodes t)) = Some [name d]) by (apply (i_top _ _ _ I1); rewrite bget_bput, String.eqb_refl; reflexivity).
      destruct (kids_total get rank Rank (S (rank (id d))) (kids d)) with (1 := fun i' d' Hi' Hg' => Nat.lt_lt_succ_r _ _ (Rank i d i' d' Hg Hi' Hg')) (2 := I1) (3 := Ep) as [ts' K].
      eexists. eapply TopNew; eassumption. }
  destruct T as [t1 T]. destruct (insert_top_ok _ _ _ _ _ T I) as (p1 & I1 & _). destruct (IH _ _ I1) as [t' A]. eexists. eapply AIns; eassumption.
Qed.
Lemma collect_total target all items : nested (resolve target all) -> exists h, collect target all items h.
Proof.
  intros [rank Rank]. destruct (all_total _ rank Rank items (Trie [] []) [] inv_empty) as [t A]. destruct (insert_all_ok _ _ _ _ A [] inv_empty) as (paths & I & _). destruct (top_total _ _ _ I) as [js F]. eexists. econstructor; eassumption.
Qed.
