(** Provenance records. *)
From Coq Require Import List NArith Bool Arith Lia Sorting.Sorted.
From Coq Require Import Strings.String.
From Verif.Common Require Import Str Replace.
From Verif.TokenPrinter Require Import Model Spec.
Import ListNotations.
Local Open Scope N_scope.
Local Open Scope list_scope.

Definition step (s : st) (e : event) : st :=
  match e with
  | Text x => emit s x
  | Tag a b c => capture_tag s a b c
  | Begin => capture_begin s
  | End => capture_end s
  end.
Lemma marks_of_app a b : marks_of (a ++ b) = marks_of a ++ marks_of b.
Proof. apply filter_app. Qed.
Lemma printed_app a b : printed (a ++ b) = printed a ++ printed b.
Proof. apply flat_map_app. Qed.
Lemma ntags_app a b : ntags (a ++ b) = (ntags a + ntags b)%nat.
Proof. unfold ntags. now rewrite filter_app, app_length. Qed.

Lemma ordinary_trace s prev k text rest : exists es, ordinary s prev k text rest = fold_left step es s /\ marks_of es = [].
Proof.
  unfold ordinary. destruct (peek rest) as [next|].
  - destruct (tokens_require_whitespace prev k next).
    + exists [Text text; Text (lit " ")]. split; reflexivity.
    + exists [Text text]. split; reflexivity.
  - exists [Text text]. split; reflexivity.
Qed.
Definition traced (s s' : st) (ms : list event) : Prop := exists es, s' = fold_left step es s /\ marks_of es = ms.
Lemma traced_cons s s1 s' e ms : step s e = s1 -> traced s1 s' ms ->
  traced s s' (match e with Text _ => ms | _ => e :: ms end).
Proof. intros <- (es & -> & <-). exists (e :: es). split; [reflexivity|]. destruct e; reflexivity. Qed.
Lemma traced_trans s s1 s' m1 m2 : traced s s1 m1 -> traced s1 s' m2 -> traced s s' (m1 ++ m2).
Proof. intros (e1 & -> & <-) (e2 & -> & <-). exists (e1 ++ e2). split; [now rewrite fold_left_app|apply marks_of_app]. Qed.

Lemma write_traced t : forall s prev s', write_stream s prev t = Some s' -> traced s s' (marks t).
Proof.
  assert (SZ : exists f : ts -> nat, forall t, match t with TNil => True | TIdent _ r | TPunct _ _ r | TLit _ r => f r < f t | TGroup _ i r => f i < f t /\ f r < f t end%nat).
  { exists (fix f t := match t with TNil => 0 | TIdent _ r | TPunct _ _ r | TLit _ r => S (f r) | TGroup _ i r => S (f i + f r) end)%nat.
    intros [| | | |]; cbn; auto; lia. }
  destruct SZ as [f Hf]. remember (f t) as n eqn:Hn. revert t Hn. induction n as [n IH] using lt_wf_ind. intros t -> s prev s' H.
  assert (IHt : forall r s prev s', (f r < f t)%nat -> write_stream s prev r = Some s' -> traced s s' (marks r)) by (intros; eapply IH; eauto). clear IH.
  pose proof (Hf t) as Ht. destruct t as [|id rest|c sp rest|text rest|d inner rest]; cbn in Ht; cbn [write_stream] in H.
  - injection H as <-. exists []. split; reflexivity.
  - destruct (str_eqb_spec id NEWLINE) as [->|N1].
    { change (marks (TIdent NEWLINE rest)) with (marks rest). apply (traced_cons _ _ _ (Text nl) _ eq_refl). eapply IHt; eauto. }
    destruct (str_eqb_spec id SPACE) as [->|N2].
    { change (marks (TIdent SPACE rest)) with (marks rest). apply (traced_cons _ _ _ (Text (lit " ")) _ eq_refl). eapply IHt; eauto. }
    destruct (str_eqb_spec id HASH) as [->|N3].
    { change (marks (TIdent HASH rest)) with (marks rest). apply (traced_cons _ _ _ (Text (lit "#")) _ eq_refl). eapply IHt; eauto. }
    destruct (str_eqb_spec id CAPTURE_TAG) as [->|N4].
    { destruct rest as [| | |la [| | |lb [| | |lc rest|]|]|]; try discriminate.
      pose proof (Hf (TLit la (TLit lb (TLit lc rest)))) as H1. pose proof (Hf (TLit lb (TLit lc rest))) as H2. pose proof (Hf (TLit lc rest)) as H3. cbn in H1, H2, H3.
      change (marks (TIdent CAPTURE_TAG (TLit la (TLit lb (TLit lc rest))))) with (Tag la lb lc :: marks rest).
      apply (traced_cons _ _ _ (Tag la lb lc) _ eq_refl). eapply IHt; [lia|eauto]. }
    destruct (str_eqb_spec id CAPTURE_BEGIN) as [->|N5].
    { change (marks (TIdent CAPTURE_BEGIN rest)) with (Begin :: marks rest). apply (traced_cons _ _ _ Begin _ eq_refl). eapply IHt; eauto. }
    destruct (str_eqb_spec id CAPTURE_END) as [->|N6].
    { change (marks (TIdent CAPTURE_END rest)) with (End :: marks rest). apply (traced_cons _ _ _ End _ eq_refl). eapply IHt; eauto. }
    assert (Em : marks (TIdent id rest) = marks rest).
    { cbn [marks]. destruct (str_eqb_spec id CAPTURE_TAG); [congruence|]. destruct (str_eqb_spec id CAPTURE_BEGIN); [congruence|].
      destruct (str_eqb_spec id CAPTURE_END); [congruence|reflexivity]. }
    rewrite Em. destruct (str_eqb_spec id COMMENT) as [->|N7].
    { destruct rest as [| | |la rest|]; try discriminate. pose proof (Hf (TLit la rest)) as H1. cbn in H1. cbn [marks].
      apply (traced_cons _ _ _ (Text (comment_text la)) _ eq_refl). eapply IHt; [lia|eauto]. }
    destruct (str_eqb_spec id LITERALLY) as [->|N8].
    { destruct rest as [| | |la rest|]; try discriminate. pose proof (Hf (TLit la rest)) as H1. cbn in H1. cbn [marks].
      apply (traced_cons _ _ _ (Text (literally_text la)) _ eq_refl). eapply IHt; [lia|eauto]. }
    apply (traced_trans _ _ _ [] _ (ordinary_trace s prev (KIdent id) id rest)). eapply IHt; eauto.
  - change (marks (TPunct c sp rest)) with (marks rest). apply (traced_trans _ _ _ [] _ (ordinary_trace s prev (KPunct c sp) [c] rest)). eapply IHt; eauto.
  - change (marks (TLit text rest)) with (marks rest). apply (traced_trans _ _ _ [] _ (ordinary_trace s prev KLit text rest)). eapply IHt; eauto.
  - destruct (delimiters d) as [o c]. destruct (write_stream (emit s o) None inner) as [s1|] eqn:E; [|discriminate].
    cbn [marks]. apply (traced_trans _ s1).
    + apply (traced_cons _ _ _ (Text o) _ eq_refl). eapply IHt; [apply Ht|eauto].
    + apply (traced_cons _ _ _ (Text c) _ eq_refl). eapply IHt; [apply Ht|eauto].
Qed.

(** ** The state after a history *)
Lemma map_get_insert {A} k k0 (v : A) m : map_get k (map_insert k0 v m) = if Nat.eqb k0 k then Some v else map_get k m.
Proof.
  unfold map_insert. cbn. destruct (Nat.eqb_spec k0 k) as [->|H]; [reflexivity|].
  induction m as [|[k' v'] m IH]; [reflexivity|]. cbn. destruct (Nat.eqb_spec k' k0) as [->|H']; cbn.
  - destruct (Nat.eqb_spec k0 k); [contradiction|exact IH].
  - destruct (Nat.eqb_spec k' k); [reflexivity|exact IH].
Qed.
Definition run (es : list event) : st := fold_left step es st_new.
Lemma run_snoc es e : run (es ++ [e]) = step (run es) e.
Proof. unfold run. now rewrite fold_left_app. Qed.
Lemma run_out es : out (run es) = printed es.
Proof.
  induction es as [|e es IH] using rev_ind; [reflexivity|]. rewrite run_snoc, printed_app. destruct e; cbn; rewrite ?app_nil_r, ?IH; try reflexivity.
  unfold capture_end. destruct (last_begin (run es)); exact IH.
Qed.
Lemma run_index es : index (run es) = ntags es.
Proof.
  induction es as [|e es IH] using rev_ind; [reflexivity|]. rewrite run_snoc, ntags_app. destruct e; cbn; rewrite ?IH; try lia.
  unfold capture_end. destruct (last_begin (run es)); cbn; lia.
Qed.
Lemma snoc_split {A} (es : list A) e u x v : es ++ [e] = u ++ x :: v ->
  (v = [] /\ es = u /\ e = x) \/ exists v', v = v' ++ [e] /\ es = u ++ x :: v'.
Proof.
  intro H. destruct v as [|y v _] using rev_ind.
  - apply app_inj_tail in H as [-> ->]. now left.
  - right. exists v. change (u ++ x :: v ++ [y]) with (u ++ (x :: v) ++ [y]) in H. rewrite app_assoc in H. apply app_inj_tail in H as [-> ->]. auto.
Qed.
Lemma run_begin es : match last_begin (run es) with
  | Some n => exists u v, es = u ++ Begin :: v /\ ~ In Begin v /\ n = List.length (printed u)
  | None => ~ In Begin es end.
Proof.
  induction es as [|e es IH] using rev_ind; [intros []|]. rewrite run_snoc.
  assert (G : e <> Begin -> last_begin (step (run es) e) = last_begin (run es)).
  { destruct e; cbn; try reflexivity; [congruence|]. intros _. unfold capture_end. destruct (last_begin (run es)) eqn:E; cbn; congruence. }
  destruct (match e with Begin => true | _ => false end) eqn:Eb.
  - destruct e; try discriminate. cbn. exists es, []. split; [reflexivity|]. split; [intros []|]. now rewrite run_out.
  - assert (Hne : e <> Begin) by (intros ->; discriminate). rewrite G by exact Hne. destruct (last_begin (run es)) as [n|].
    + destruct IH as (u & v & -> & Hv & ->). exists u, (v ++ [e]). split; [now rewrite <- app_assoc|]. split; [|reflexivity].
      intro X. apply in_app_or in X as [X|[X|[]]]; [contradiction|congruence].
    + intro X. apply in_app_or in X as [X|[X|[]]]; [contradiction|congruence].
Qed.
Lemma run_tag es : exists p a b c, last_tag es p a b c /\
  search_start (entry (run es)) = List.length p /\ o_path (entry (run es)) = clean_literal a /\
  o_start (entry (run es)) = clean_literal b /\ o_end (entry (run es)) = clean_literal c.
Proof.
  induction es as [|e es (p & a & b & c & L & E1 & E2 & E3 & E4)] using rev_ind.
  - exists [], [], [], []. split; [left; auto|]. auto.
  - rewrite run_snoc. destruct (is_tag e) eqn:Et.
    + destruct e as [|x y z| |]; try discriminate. exists (printed es), x, y, z. split; [right; exists es, []; auto|]. cbn. rewrite run_out. auto.
    + exists p, a, b, c. split.
      * destruct L as [(L & L2)|(u & v & -> & L2 & ->)].
        -- left. split; [|exact L2]. rewrite ntags_app, L. unfold ntags. cbn. now rewrite Et.
        -- right. exists u, (v ++ [e]). split; [now rewrite <- app_assoc|]. split; [|reflexivity]. rewrite ntags_app, L2. unfold ntags. cbn. now rewrite Et.
      * assert (G : entry (step (run es) e) = entry (run es)); [|rewrite G; auto].
        destruct e; try reflexivity; [discriminate|]. cbn. unfold capture_end. destruct (last_begin (run es)); reflexivity.
Qed.
Lemma ntags_tag u a b c v : ntags (u ++ Tag a b c :: v) = S (ntags u + ntags v).
Proof. rewrite ntags_app. unfold ntags. cbn. lia. Qed.
Lemma last_tag_unique es p a b c p' a' b' c' : last_tag es p a b c -> last_tag es p' a' b' c' -> p = p' /\ a = a' /\ b = b' /\ c = c'.
Proof.
  intros [(L & -> & -> & -> & ->)|(u & v & E & Hv & ->)] [(L' & -> & -> & -> & ->)|(u' & v' & E' & Hv' & ->)]; auto.
  - subst es. rewrite ntags_tag in L. discriminate.
  - subst es. rewrite ntags_tag in L'. discriminate.
  - assert (X : u = u' /\ Tag a b c = Tag a' b' c').
    { subst es. clear - E' Hv Hv'. revert v v' Hv Hv' u' E'. induction u as [|x u IH]; intros v v' Hv Hv' [|x' u'] E'; cbn in E'.
      - injection E' as -> -> -> _. auto.
      - injection E' as _ E'. exfalso. rewrite E' in Hv. rewrite ntags_tag in Hv. discriminate.
      - injection E' as _ E'. exfalso. rewrite <- E' in Hv'. rewrite ntags_tag in Hv'. discriminate.
      - injection E' as -> E'. destruct (IH _ _ Hv Hv' _ E') as [-> X]. auto. }
    destruct X as [-> X]. injection X as -> -> ->. auto.
Qed.

Definition record (before body p a b c : str) : gen :=
  Gen (List.length p) (List.length before) (List.length (before ++ body)) (clean_literal a) (clean_literal b) (clean_literal c).

Lemma captures_snoc_other es e k bf bd p a b c : e <> End ->
  captures (es ++ [e]) k bf bd p a b c <-> captures es k bf bd p a b c.
Proof.
  intro He. split.
  - intros (pre & post & E & Hk & L & B & N). destruct (snoc_split _ _ _ _ _ E) as [(_ & _ & X)|(post' & -> & E')]; [congruence|].
    exists pre, post'. split; [exact E'|]. split; [exact Hk|]. split; [exact L|]. split; [exact B|].
    intros u v ->. apply (N u (v ++ [e])). now rewrite <- app_assoc.
  - intros (pre & post & E & Hk & L & B & N). exists pre, (post ++ [e]). split; [subst es; now rewrite <- app_assoc|].
    split; [exact Hk|]. split; [exact L|]. split; [exact B|].
    intros u v X. destruct (snoc_split _ _ _ _ _ X) as [(_ & _ & Y)|(v' & _ & Y)]; [congruence|]. now apply (N u v').
Qed.
Lemma captures_snoc_end es k bf bd p a b c :
  captures (es ++ [End]) k bf bd p a b c <->
  (k = ntags es /\ last_tag es p a b c /\ exists u v, es = u ++ Begin :: v /\ ~ In Begin v /\ bf = printed u /\ bd = printed v) \/
  (k <> ntags es /\ captures es k bf bd p a b c).
Proof.
  split.
  - intros (pre & post & E & Hk & L & B & N). destruct (snoc_split _ _ _ _ _ E) as [(_ & -> & _)|(post' & -> & E')]; [left; auto|].
    right. split.
    + assert (X : ntags post' <> 0%nat) by (apply (N post' []); reflexivity). subst es. rewrite ntags_app.
      change (ntags (End :: post')) with (ntags post'). lia.
    + exists pre, post'. split; [exact E'|]. split; [exact Hk|]. split; [exact L|]. split; [exact B|].
      intros u v ->. apply (N u (v ++ [End])). now rewrite <- app_assoc.
  - intros [(Hk & L & B)|(Hne & pre & post & E & Hk & L & B & N)].
    + exists es, []. split; [reflexivity|]. split; [exact Hk|]. split; [exact L|]. split; [exact B|]. intros u v X. destruct u; discriminate.
    + exists pre, (post ++ [End]). split; [subst es; now rewrite <- app_assoc|]. split; [exact Hk|]. split; [exact L|]. split; [exact B|].
      intros u v X. destruct (snoc_split _ _ _ _ _ X) as [(_ & -> & _)|(v' & _ & Y)]; [|now apply (N u v')].
      intro Z. apply Hne. subst es. rewrite ntags_app. change (ntags (End :: u)) with (ntags u). lia.
Qed.
Lemma captures_begin es k bf bd p a b c : captures es k bf bd p a b c -> In Begin es.
Proof. intros (pre & post & -> & _ & _ & (u & v & -> & _) & _). apply in_or_app. left. apply in_or_app. right. now left. Qed.

Lemma run_records es k v : map_get k (pmap (run es)) = Some v <->
  exists bf bd p a b c, captures es k bf bd p a b c /\ v = record bf bd p a b c.
Proof.
  revert k v. induction es as [|e es IH] using rev_ind; intros k v.
  - split; [discriminate|]. intros (bf & bd & p & a & b & c & (pre & post & E & _) & _). destruct pre; discriminate.
  - rewrite run_snoc. destruct (match e with End => true | _ => false end) eqn:Ee.
    + destruct e; try discriminate. clear Ee. cbn. unfold capture_end.
      pose proof (run_begin es) as HB. destruct (last_begin (run es)) as [n|] eqn:En.
      * cbn [pmap]. rewrite map_get_insert, run_index, run_out. destruct (run_tag es) as (p & a & b & c & L & E1 & E2 & E3 & E4).
        destruct HB as (u & w & Hu & Hw & ->). rewrite E1, E2, E3, E4.
        assert (Epr : printed es = printed u ++ printed w) by (rewrite Hu, printed_app; reflexivity).
        destruct (Nat.eqb_spec (ntags es) k) as [<-|Hne].
        -- split.
           ++ intro H. injection H as <-. exists (printed u), (printed w), p, a, b, c. split; [|unfold record; now rewrite Epr].
              apply captures_snoc_end. left. split; [reflexivity|]. split; [exact L|]. now exists u, w.
           ++ intros (bf & bd & p' & a' & b' & c' & C & ->). apply captures_snoc_end in C as [(_ & L' & u' & w' & Hu' & Hw' & -> & ->)|[C _]]; [|contradiction].
              destruct (last_tag_unique _ _ _ _ _ _ _ _ _ L L') as (-> & -> & -> & ->).
              assert (X : u = u' /\ w = w').
              { rewrite Hu in Hu'. clear - Hu' Hw Hw'. revert u' Hu'. induction u as [|x u IHu]; intros [|x' u'] H; cbn in H.
                - injection H as ->. auto.
                - injection H as _ H. exfalso. apply Hw. rewrite H. apply in_or_app. right. now left.
                - injection H as _ H. exfalso. apply Hw'. rewrite <- H. apply in_or_app. right. now left.
                - injection H as -> H. destruct (IHu _ H) as [-> ->]. auto. }
              destruct X as [-> ->]. unfold record. now rewrite Epr.
        -- rewrite IH. split; intros (bf & bd & p' & a' & b' & c' & C & ->); exists bf, bd, p', a', b', c'; (split; [|reflexivity]).
           ++ apply captures_snoc_end. right. split; [congruence|exact C].
           ++ apply captures_snoc_end in C as [(X & _)|[_ C]]; [congruence|exact C].
      * rewrite IH. split; intros (bf & bd & p' & a' & b' & c' & C & ->).
        -- exfalso. apply HB. now apply captures_begin in C.
        -- exfalso. apply captures_begin in C. apply in_app_or in C as [C|[C|[]]]; [contradiction|discriminate].
    + assert (He : e <> End) by (intros ->; discriminate). assert (G : pmap (step (run es) e) = pmap (run es)) by (destruct e; try reflexivity; contradiction).
      rewrite G, IH. split; intros (bf & bd & p' & a' & b' & c' & C & ->); exists bf, bd, p', a', b', c'; (split; [|reflexivity]).
      * now apply captures_snoc_other.
      * now apply captures_snoc_other in C.
Qed.
Lemma captures_printed es k bf bd p a b c : captures es k bf bd p a b c ->
  exists rest, printed es = bf ++ bd ++ rest /\ exists q, bf ++ bd = p ++ q.
Proof.
  intros (pre & post & -> & _ & L & (u & v & E & _ & -> & ->) & _). exists (printed post). rewrite printed_app. cbn [printed flat_map app].
  assert (Ep : printed pre = printed u ++ printed v) by (rewrite E, printed_app; reflexivity).
  split; [rewrite Ep, <- app_assoc; reflexivity|]. rewrite <- Ep. destruct L as [(_ & -> & _)|(u' & v' & -> & _ & ->)].
  - exists (printed pre). reflexivity.
  - exists (printed v'). rewrite printed_app. reflexivity.
Qed.

(** ** Finding the token again *)
Section Find.
  Variable ws : char -> bool.
  Lemma trim_start_ws_spec s : exists lead, s = lead ++ trim_start_ws ws s /\ forallb ws lead = true /\
    (trim_start_ws ws s = [] \/ exists c r, trim_start_ws ws s = c :: r /\ ws c = false).
  Proof.
    induction s as [|c s (lead & E & F & G)]; cbn; [exists []; auto|]. destruct (ws c) eqn:Ec.
    - exists (c :: lead). cbn. rewrite Ec, <- E. auto.
    - exists []. split; [reflexivity|]. split; [reflexivity|]. right. eauto.
  Qed.
  Lemma forallb_rev (l : str) : forallb ws (rev l) = forallb ws l.
  Proof. induction l as [|c l IH]; [reflexivity|]. cbn. rewrite forallb_app, IH. cbn. rewrite andb_true_r. apply andb_comm. Qed.
  Lemma trim_ws_spec bf s : exists lead trail, stands_at ws bf s lead (trim_ws ws s) trail.
  Proof.
    unfold trim_ws. destruct (trim_start_ws_spec s) as (lead & E & F & G).
    destruct (trim_start_ws_spec (rev (trim_start_ws ws s))) as (tl & E2 & F2 & G2).
    exists lead, (rev tl). unfold stands_at. set (m := trim_start_ws ws s) in *. set (r := trim_start_ws ws (rev m)) in *.
    assert (Em : m = rev r ++ rev tl) by (rewrite <- (rev_involutive m), E2, rev_app_distr; reflexivity).
    split; [rewrite <- Em; exact E|]. split; [exact F|]. split; [rewrite forallb_rev; exact F2|].
    destruct G2 as [G2|(d & r' & G2 & Hd)]; [left; now rewrite G2|]. right.
    destruct G as [G|(c & s' & G & Hc)]; [rewrite G in Em; rewrite G2 in Em; cbn in Em; destruct (rev r'); discriminate|].
    rewrite G2 in Em |- *. cbn [rev] in Em |- *. rewrite G in Em.
    destruct (rev r' ++ [d]) as [|c' s''] eqn:E3; [destruct (rev r'); discriminate|]. cbn in Em. injection Em as <- _.
    exists c, s'', d, (rev r'). auto.
  Qed.

  Lemma match_indices_empty n : forall pos s, (List.length s < n)%nat -> match_indices_n n [] pos s = seq pos (S (List.length s)).
  Proof.
    induction n as [|n IH]; intros pos s H; [lia|]. cbn. destruct s as [|c s]; [reflexivity|]. cbn in H. rewrite IH by lia. reflexivity.
  Qed.
  (** A match that nothing straddles is found. *)
  Lemma match_found n p : p <> [] -> forall x y pos, clean_start p x -> (List.length (x ++ p ++ y) < n)%nat ->
    In (pos + List.length x)%nat (match_indices_n n p pos (x ++ p ++ y)).
  Proof.
    intro Hp. induction n as [n IH] using lt_wf_ind. intros x y pos Hx Hn. destruct n as [|n]; [lia|]. cbn [match_indices_n].
    destruct p as [|p0 p']; [contradiction|]. set (p := p0 :: p') in *.
    destruct Hx as [->|(x' & c & -> & Hc)].
    - cbn [app List.length]. rewrite expect_app_eq. left. lia.
    - destruct (expect p ((x' ++ [c]) ++ p ++ y)) as [rest|] eqn:E.
      + apply expect_spec in E. right.
        (* the match lies inside x' *)
        assert (X : exists x'', x' = p ++ x'').
        { clear - E Hc. revert x' E Hc. generalize (p ++ y) as tl. generalize p as q. induction q as [|q0 q IHq]; intros tl x' E Hc; [now exists x'|].
          destruct x' as [|z x']; cbn in E.
          - injection E as -> _. exfalso. apply Hc. now left.
          - injection E as -> E. destruct (IHq tl x' E) as [x'' ->]; [intro; apply Hc; now right|]. now exists x''. }
        destruct X as [x'' ->]. rewrite <- !app_assoc in E. apply app_inv_head in E. subst rest.
        assert (Ln : (pos + List.length ((p ++ x'') ++ [c]) = (pos + List.length p) + List.length (x'' ++ [c]))%nat) by (rewrite !app_length; lia).
        rewrite Ln. replace (x'' ++ [c] ++ p ++ y) with ((x'' ++ [c]) ++ p ++ y) by now rewrite <- app_assoc.
        apply IH; [lia|right; now exists x'', c|]. assert (Lp : (1 <= List.length p)%nat) by (unfold p; cbn; lia). repeat rewrite app_length in Hn. repeat rewrite app_length. lia.
      + destruct ((x' ++ [c]) ++ p ++ y) as [|z r] eqn:Er; [destruct x'; discriminate|].
        destruct x' as [|z' x'].
        * cbn in Er. injection Er as _ Er. subst r. cbn [app List.length].
          replace (pos + 1)%nat with (S pos + List.length (@nil N))%nat by (cbn; lia). apply (IH n ltac:(lia) [] y); [now left|]. cbn in Hn |- *. lia.
        * cbn in Er. injection Er as _ Er. rewrite <- Er. cbn [app List.length].
          replace (pos + S (List.length (x' ++ [c])))%nat with (S pos + List.length (x' ++ [c]))%nat by lia.
          change (p0 :: p' ++ y) with (p ++ y) in *. apply IH; [lia|right; now exists x', c|]. rewrite Er. cbn in Hn. lia.
  Qed.
  Lemma position_found {A} (f : A -> bool) l x : In x l -> f x = true ->
    exists i y, position f l = Some i /\ nth_error l i = Some y /\ f y = true.
  Proof.
    induction l as [|z l IH]; [intros []|]. intros Hin Hx. cbn. destruct (f z) eqn:Ez.
    - exists 0%nat, z. auto.
    - destruct Hin as [->|Hin]; [congruence|]. destruct (IH Hin Hx) as (i & y & -> & Hn & Hy). exists (S i), y. auto.
  Qed.

  Lemma match_indices_n_sorted n p : forall pos s,
    StronglySorted lt (match_indices_n n p pos s) /\ Forall (le pos) (match_indices_n n p pos s).
  Proof.
    induction n as [|n IH]; intros pos s; [split; constructor|]. cbn [match_indices_n].
    assert (W : forall q r, (pos < q)%nat -> StronglySorted lt (pos :: match_indices_n n p q r) /\ Forall (le pos) (pos :: match_indices_n n p q r)).
    { intros q r Hq. destruct (IH q r) as [S F]. split.
      - constructor; [exact S|]. eapply Forall_impl; [|exact F]. cbn. intros; lia.
      - constructor; [lia|]. eapply Forall_impl; [|exact F]. cbn. intros; lia. }
    assert (V : forall r, StronglySorted lt (match_indices_n n p (S pos) r) /\ Forall (le pos) (match_indices_n n p (S pos) r)).
    { intro r. destruct (IH (S pos) r) as [S F]. split; [exact S|]. eapply Forall_impl; [|exact F]. cbn. intros; lia. }
    destruct p as [|c p].
    - destruct s as [|x s]; [split; repeat constructor|]. apply W. lia.
    - destruct (expect (c :: p) s) as [rest|]; [apply W; cbn; lia|]. destruct s; [split; constructor|apply V].
  Qed.
  Lemma match_indices_sorted p s : StronglySorted lt (match_indices p s).
  Proof. apply match_indices_n_sorted. Qed.
  Lemma position_min (f : nat -> bool) l : StronglySorted lt l -> forall i y q,
    position f l = Some i -> nth_error l i = Some y -> In q l -> f q = true -> (y <= q)%nat.
  Proof.
    induction 1 as [|h l S IH F]; intros i y q Hp Hn Hq Hf; [destruct Hq|]. cbn in Hp. destruct (f h) eqn:Eh.
    - injection Hp as <-. cbn in Hn. injection Hn as <-. destruct Hq as [->|Hq]; [lia|]. rewrite Forall_forall in F. specialize (F _ Hq). lia.
    - destruct (position f l) as [k|]; [|discriminate]. injection Hp as <-. cbn in Hn. destruct Hq as [->|Hq]; [congruence|]. eapply IH; eauto.
  Qed.

  Lemma skipn_app_len {A} (p q : list A) : skipn (List.length p) (p ++ q) = q.
  Proof. induction p; [reflexivity|assumption]. Qed.
  Lemma slice_mid (x y z : str) : slice (List.length x) (List.length (x ++ y)) (x ++ y ++ z) = y.
  Proof.
    unfold slice. rewrite skipn_app_len, app_length. replace (List.length x + List.length y - List.length x)%nat with (List.length y) by lia.
    rewrite firstn_app, Nat.sub_diag, firstn_all. cbn. apply app_nil_r.
  Qed.

  (** Resolving one record. *)
  Lemma resolve_found p mid body rest a b c lead trail :
    body <> [] -> stands_at ws (p ++ mid) body lead (trim_ws ws body) trail ->
    (trim_ws ws body <> [] -> clean_start (trim_ws ws body) (mid ++ lead)) ->
    exists i, resolve ws (p ++ mid ++ body ++ rest) (record (p ++ mid) body p a b c) =
                Some (Some (Sub (trim_ws ws body) i (clean_literal a) (clean_literal b) (clean_literal c))) /\
              (trim_ws ws body <> [] ->
               nth_error (match_indices (trim_ws ws body) (skipn (List.length p) (p ++ mid ++ body ++ rest))) i = Some (List.length (mid ++ lead))).
  Proof.
    intros Hb (E & Fl & Ft & G) HC. unfold resolve, record. cbn [dest_start dest_end search_start o_path o_start o_end].
    assert (L1 : (List.length ((p ++ mid) ++ body) <=? List.length (p ++ mid))%nat = false).
    { apply Nat.leb_gt. rewrite (app_length (p ++ mid)). destruct body; [contradiction|]. cbn. lia. }
    assert (L2 : (List.length (p ++ mid) <? List.length p)%nat = false) by (apply Nat.ltb_ge; rewrite app_length; lia).
    rewrite L1, L2. cbn [orb].
    replace (p ++ mid ++ body ++ rest) with ((p ++ mid) ++ body ++ rest) by now rewrite <- app_assoc.
    rewrite slice_mid. replace ((p ++ mid) ++ body ++ rest) with (p ++ mid ++ body ++ rest) by now rewrite <- app_assoc.
    rewrite skipn_app_len. set (tok := trim_ws ws body) in *. clearbody tok.
    set (f := fun ix : nat => ((List.length (p ++ mid) - List.length p <=? ix)%nat && (ix <? List.length ((p ++ mid) ++ body) - List.length p)%nat)%bool).
    assert (HF : exists x, In x (match_indices tok (mid ++ body ++ rest)) /\ f x = true).
    { destruct tok as [|c0 tok'] eqn:Et.
      - exists (List.length mid). split.
        + unfold match_indices. rewrite match_indices_empty by lia. apply in_seq. rewrite !app_length. lia.
        + unfold f. apply andb_true_intro. split; [apply Nat.leb_le|apply Nat.ltb_lt]; rewrite ?app_length; [lia|]. destruct body; [contradiction|]. cbn. lia.
      - rewrite <- Et in *. assert (Hne : tok <> []) by (rewrite Et; discriminate). exists (List.length (mid ++ lead)). split.
        + unfold match_indices. rewrite E. replace (mid ++ (lead ++ tok ++ trail) ++ rest) with ((mid ++ lead) ++ tok ++ (trail ++ rest)) by now rewrite <- !app_assoc.
          apply (match_found _ tok Hne (mid ++ lead) (trail ++ rest) 0); [now apply HC|lia].
        + unfold f. apply andb_true_intro. rewrite E, !app_length. split; [apply Nat.leb_le|apply Nat.ltb_lt]; [lia|]. rewrite Et. cbn. lia. }
    destruct HF as (x & Hin & Hx). destruct (position_found f _ x Hin Hx) as (i & y & Hp & Hn & Hy). rewrite Hp.
    exists i. split; [reflexivity|]. intro Hne. rewrite Hn. f_equal.
    (* the match found starts where the token starts *)
    assert (Hyl : In y (match_indices tok (mid ++ body ++ rest))) by (eapply nth_error_In; exact Hn).
    unfold f in Hy. apply andb_prop in Hy as [Y1 Y2]. apply Nat.leb_le in Y1. apply Nat.ltb_lt in Y2.
    rewrite !app_length in Y1, Y2.
    (* it is the first match in range, so not after the token's own start *)
    assert (Hle : (y <= List.length (mid ++ lead))%nat \/ (List.length (mid ++ lead) < y)%nat) by lia.
    destruct (match_indices_sound _ _ _ Hyl) as (u & w & Eu & ->).
    destruct G as [G|(c1 & t1 & d1 & r1 & Et & _ & Hc1 & _)]; [contradiction|].
    destruct Hle as [Hle|Hgt].
    - destruct (Nat.eq_dec (List.length u) (List.length (mid ++ lead))) as [|Hlt]; [assumption|]. exfalso.
      (* it would start with white space *)
      assert (X : exists u', u = mid ++ u').
      { exists (skipn (List.length mid) u). assert (Z : firstn (List.length mid) u = mid).
        { assert (Q : firstn (List.length mid) (mid ++ body ++ rest) = firstn (List.length mid) (u ++ tok ++ w)) by now rewrite Eu.
          rewrite firstn_app, Nat.sub_diag, firstn_all in Q. cbn in Q. rewrite app_nil_r in Q. etransitivity; [|symmetry; exact Q].
          rewrite firstn_app. replace (List.length mid - List.length u)%nat with 0%nat by lia. cbn. now rewrite app_nil_r. }
        transitivity (firstn (List.length mid) u ++ skipn (List.length mid) u); [symmetry; apply firstn_skipn|now rewrite Z]. }
      destruct X as [u' ->]. rewrite <- app_assoc in Eu. apply app_inv_head in Eu. rewrite !app_length in Hle, Hlt. rewrite E in Eu. rewrite <- !app_assoc in Eu.
      assert (Hc : nth_error (lead ++ tok ++ trail ++ rest) (List.length u') = Some c1).
      { rewrite Eu, nth_error_app2 by lia. rewrite Nat.sub_diag, Et. reflexivity. }
      rewrite nth_error_app1 in Hc by lia. apply nth_error_In in Hc. rewrite forallb_forall in Fl. specialize (Fl _ Hc). congruence.
    - exfalso.
      assert (own : In (List.length (mid ++ lead)) (match_indices tok (mid ++ body ++ rest))).
      { unfold match_indices. rewrite E. replace (mid ++ (lead ++ tok ++ trail) ++ rest) with ((mid ++ lead) ++ tok ++ (trail ++ rest)) by now rewrite <- !app_assoc.
        apply (match_found _ tok Hne (mid ++ lead) (trail ++ rest) 0); [now apply HC|lia]. }
      assert (Q : (List.length u <= List.length (mid ++ lead))%nat); [|lia].
      eapply (position_min f); [apply match_indices_sorted|exact Hp|exact Hn|exact own|].
      unfold f. apply andb_true_intro. rewrite E, !app_length. split; [apply Nat.leb_le|apply Nat.ltb_lt]; [lia|]. rewrite Et. cbn. lia.
  Qed.
End Find.
