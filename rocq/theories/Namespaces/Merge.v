(** C35: merging the hierarchies of several targets. *)
From Coq Require Import List Arith ZArith Bool Lia Strings.String.
From Verif.Common Require Import Btree.
From Verif.Namespaces Require Import Model Spec.
Import ListNotations.

(** Induction over trees. *)
Section NsInd.
Variable P : ns -> Prop.
Hypothesis H : forall n ch ls, (forall k c, In (k, c) ch -> P c) -> P (Ns n ch ls).
Fixpoint ns_ind' (t : ns) : P t :=
  match t with
  | Ns n ch ls => H n ch ls ((fix go (ch : list (string * ns)) : forall k c, In (k, c) ch -> P c :=
      match ch with
      | [] => fun k c (h : In (k, c) []) => match h with end
      | (k0, c0) :: ch' => fun k c h => match h with or_introl e => eq_ind c0 P (ns_ind' c0) c (f_equal snd e) | or_intror h' => go ch' k c h' end
      end) ch)
  end.
End NsInd.
Section JsonInd.
Variable P : json -> Prop.
Hypothesis H : forall n ch, (forall c, In c ch -> P c) -> P (Json n ch).
Fixpoint json_ind' (j : json) : P j :=
  match j with
  | Json n ch => H n ch ((fix go (ch : list json) : forall c, In c ch -> P c :=
      match ch with
      | [] => fun c (h : In c []) => match h with end
      | c0 :: ch' => fun c h => match h with or_introl e => eq_ind c0 P (json_ind' c0) c e | or_intror h' => go ch' c h' end
      end) ch)
  end.
End JsonInd.

(** The node at a path; a tree whose maps are sorted and keyed by name. *)
Fixpoint sub (t : ns) (p : list string) : option ns :=
  match p with [] => Some t | n :: p' => match bget n (children t) with Some c => sub c p' | None => None end end.
Definition ex (t : ns) (p : list string) : Prop := sub t p <> None.
Definition lab (t : ns) (p : list string) (l : string) : Prop := exists s, sub t p = Some s /\ In l (map fst (labels s)).
Inductive wf : ns -> Prop := Wf n ch ls : sorted ch -> (forall k c, In (k, c) ch -> nsname c = k) -> (forall k c, In (k, c) ch -> wf c) -> wf (Ns n ch ls).

Lemma append_in t : forall s l, In l (map fst (append s t)) <-> In l (map fst s) \/ In l (map fst t).
Proof.
  unfold append. induction t as [|[k []] t IH]; intros s l; cbn [fold_left map fst In]; [tauto|]. rewrite IH, <- bget_known, bget_bput. destruct (String.eqb_spec l k) as [->|N]; [split; [auto|left; discriminate]|]. rewrite bget_known. intuition congruence.
Qed.
Definition add_all (t : ns) (l : list (string * ns)) : ns := fold_left (fun t e => add_child t (snd e)) l t.
Lemma add_child_eq sn sch sls n ch ls : add_child (Ns sn sch sls) (Ns n ch ls) =
  match bget n sch with
  | Some child => Ns sn (bput n (add_all child ch) sch) (append sls ls)
  | None => Ns sn (bput n (Ns n ch ls) sch) (append sls ls)
  end.
Proof.
  cbn [add_child]. destruct (bget n sch) as [child|]; [|reflexivity]. f_equal. f_equal. unfold add_all. generalize child. induction ch as [|[k x] ch IH]; intro t; [reflexivity|]. cbn [fold_left snd]. apply IH.
Qed.
Lemma sub_cons t n p : sub t (n :: p) = match bget n (children t) with Some c => sub c p | None => None end.
Proof. reflexivity. Qed.
Lemma ex_cons t n p : ex t (n :: p) <-> exists c, bget n (children t) = Some c /\ ex c p.
Proof. unfold ex. rewrite sub_cons. destruct (bget n (children t)) as [c|]; (split; [|intros (d & E & H)]); [eauto|injection E as <-; exact H|congruence|discriminate]. Qed.
Lemma lab_cons t n p l : lab t (n :: p) l <-> exists c, bget n (children t) = Some c /\ lab c p l.
Proof. unfold lab. rewrite sub_cons. destruct (bget n (children t)) as [c|]; (split; [|intros (d & E & H)]); [eauto|injection E as <-; exact H|intros (s & E & _); discriminate|discriminate]. Qed.
Lemma lab_nil t l : lab t [] l <-> In l (map fst (labels t)).
Proof. unfold lab. cbn. split; [intros (s & E & H); congruence|eauto]. Qed.
Lemma ex_nil t : ex t [].
Proof. discriminate. Qed.
Lemma lab_ex t p l : lab t p l -> ex t p.
Proof. unfold lab, ex. intros (s & E & _). congruence. Qed.
Lemma ex_dec t p : ex t p \/ ~ ex t p.
Proof. unfold ex. destruct (sub t p); [left; discriminate|right; congruence]. Qed.

(** What merging children adds: paths, and labels. *)
Definition new_ex (l : list (string * ns)) (p : list string) : Prop := exists k c p', In (k, c) l /\ p = k :: p' /\ ex c p'.
Definition new_lab (t : ns) (l : list (string * ns)) (p : list string) (x : string) : Prop :=
  (p = [] /\ exists k c, In (k, c) l /\ lab c [] x) \/
  exists k c p', In (k, c) l /\ p = k :: p' /\ ((~ ex t p /\ lab c p' x) \/ (ex t p /\ exists y, lab c (p' ++ [y]) x)).
Definition step (c : ns) : Prop := wf c -> forall t,
  nsname (add_child t c) = nsname t /\ (wf t -> wf (add_child t c)) /\
  (forall p, ex (add_child t c) p <-> ex t p \/ new_ex [(nsname c, c)] p) /\
  (forall p x, lab (add_child t c) p x <-> lab t p x \/ new_lab t [(nsname c, c)] p x).
Lemma add_all_spec l : (forall k c, In (k, c) l -> step c /\ wf c /\ nsname c = k) -> NoDup (map fst l) -> forall t,
  nsname (add_all t l) = nsname t /\ (wf t -> wf (add_all t l)) /\
  (forall p, ex (add_all t l) p <-> ex t p \/ new_ex l p) /\
  (forall p x, lab (add_all t l) p x <-> lab t p x \/ new_lab t l p x).
Proof.
  induction l as [|[k c] l IH]; intros Hc N t.
  - cbn. split; [reflexivity|]. split; [auto|]. split; intros; (split; [auto|]).
    + intros [H|(k & c & p' & [] & _)]. exact H.
    + intros [H|[(_ & k & c & [] & _)|(k & c & p' & [] & _)]]. exact H.
  - destruct (Hc k c (or_introl eq_refl)) as (Sc & Wc & Ec). destruct (Sc Wc t) as (A1 & A2 & A3 & A4). cbn [map fst] in N. inversion N as [|? ? N1 N2]; subst.
    destruct (IH (fun k c H => Hc k c (or_intror H)) N2 (add_child t c)) as (B1 & B2 & B3 & B4). change (add_all t ((nsname c, c) :: l)) with (add_all (add_child t c) l).
    split; [congruence|]. split; [auto|].
    assert (Old : forall k' c' p', In (k', c') l -> (ex (add_child t c) (k' :: p') <-> ex t (k' :: p'))).
    { intros k' c' p' Hi. rewrite A3. split; [|auto]. intros [H|(k2 & c2 & p2 & [E|[]] & E2 & _)]; [exact H|]. injection E as <- <-. injection E2 as -> _. exfalso. apply N1. change (nsname c) with (fst (nsname c, c')). now apply in_map. }
    split.
    + intro p. rewrite B3, A3. unfold new_ex. split.
      * intros [[H|(k' & c' & p' & [E|[]] & H)]|(k' & c' & p' & Hi & H)]; [auto|right; exists k', c', p'; split; [left; exact E|exact H]|right; exists k', c', p'; split; [now right|exact H]].
      * intros [H|(k' & c' & p' & [E|Hi] & H)]; [auto|left; right; exists k', c', p'; split; [left; exact E|exact H]|right; exists k', c', p'; auto].
    + intros p x. rewrite B4, A4. unfold new_lab. split.
      * intros [[H|[(-> & k' & c' & [E|[]] & H)|(k' & c' & p' & [E|[]] & H)]]|[(-> & k' & c' & Hi & H)|(k' & c' & p' & Hi & -> & H)]].
        -- auto.
        -- right; left. split; [reflexivity|]. exists k', c'. split; [left; exact E|exact H].
        -- right; right. exists k', c', p'. split; [left; exact E|exact H].
        -- right; left. split; [reflexivity|]. exists k', c'. split; [now right|exact H].
        -- right; right. exists k', c', p'. split; [now right|]. split; [reflexivity|]. rewrite (Old k' c' p' Hi) in H. exact H.
      * intros [H|[(-> & k' & c' & [E|Hi] & H)|(k' & c' & p' & [E|Hi] & -> & H)]].
        -- auto.
        -- left; right; left. split; [reflexivity|]. exists k', c'. split; [left; exact E|exact H].
        -- right; left. split; [reflexivity|]. exists k', c'. auto.
        -- left; right; right. exists k', c', p'. split; [left; exact E|]. split; [reflexivity|exact H].
        -- right; right. exists k', c', p'. split; [exact Hi|]. split; [reflexivity|]. rewrite (Old k' c' p' Hi). exact H.
Qed.
Lemma wf_children t : wf t -> NoDup (map fst (children t)) /\ (forall k c, bget k (children t) = Some c <-> In (k, c) (children t)) /\ forall k c, In (k, c) (children t) -> wf c /\ nsname c = k.
Proof. intro W. inversion W as [n ch ls S E C]; subst. cbn. pose proof (sorted_nodup _ S) as N. split; [exact N|]. split; [intros; now apply bget_in|]. intros k c H. split; [eapply C; exact H|now apply E]. Qed.
Lemma put_wf sn n c sch ls : sorted sch -> (forall k c, In (k, c) sch -> nsname c = k) -> (forall k c, In (k, c) sch -> wf c) -> nsname c = n -> wf c -> wf (Ns sn (bput n c sch) ls).
Proof.
  intros S E C Ec Wc. constructor; [now apply bput_sorted| |]; intros k d H; apply bput_in in H as [H|H]; try (injection H as -> ->; assumption); [now apply E|eapply C; exact H].
Qed.
Lemma add_child_spec c : step c.
Proof.
  induction c as [n ch ls IH] using ns_ind'. intros Wc [sn sch sls]. rewrite add_child_eq. cbn [nsname].
  destruct (wf_children _ Wc) as (Nd & _ & Cw). cbn [children] in Nd, Cw.
  assert (Hc : forall k c, In (k, c) ch -> step c /\ wf c /\ nsname c = k) by (intros k c H; destruct (Cw k c H); eauto).
  assert (Sing : forall p, new_ex [(n, Ns n ch ls)] p <-> exists p', p = n :: p' /\ ex (Ns n ch ls) p').
  { intro p. split; [intros (k & c & p' & [E|[]] & H); injection E as <- <-; eauto|]. intros (p' & H). exists n, (Ns n ch ls), p'. split; [now left|exact H]. }
  assert (SingL : forall t p x, new_lab t [(n, Ns n ch ls)] p x <-> (p = [] /\ In x (map fst ls)) \/ exists p', p = n :: p' /\ ((~ ex t p /\ lab (Ns n ch ls) p' x) \/ (ex t p /\ exists y, lab (Ns n ch ls) (p' ++ [y]) x))).
  { intros t p x. unfold new_lab. split.
    - intros [(E & k & c & [Ec|[]] & H)|(k & c & p' & [Ec|[]] & H)]; injection Ec as <- <-; [left; split; [exact E|now apply lab_nil in H]|right; eauto].
    - intros [(E & H)|(p' & H)]; [left; split; [exact E|]; exists n, (Ns n ch ls); split; [now left|now apply lab_nil]|right; exists n, (Ns n ch ls), p'; split; [now left|exact H]]. }
  destruct (bget n sch) as [child|] eqn:Eb.
  - destruct (add_all_spec ch Hc Nd child) as (B1 & B2 & B3 & B4).
    split; [reflexivity|]. split; [|split].
    + intro W. inversion W as [? ? ? S E C]; subst. assert (Hin : In (n, child) sch) by (apply bget_in; [now apply sorted_nodup|exact Eb]). apply put_wf; auto; [rewrite B1; now apply E|apply B2; eapply C; exact Hin].
    + intro p. rewrite Sing. destruct p as [|m p]; [split; [intros _; left; apply ex_nil|intros _; apply ex_nil]|]. rewrite !ex_cons. cbn [children]. rewrite bget_bput. destruct (String.eqb_spec m n) as [->|Hne].
      * rewrite Eb. split.
        -- intros (d & E & H). injection E as <-. apply B3 in H as [H|(k & c & p' & Hi & -> & H)]; [left; eauto|]. right. eexists. split; [reflexivity|]. apply ex_cons. exists c. split; [|exact H]. cbn. now apply bget_in.
        -- intros [(d & E & H)|(p' & E & H)]; eexists; (split; [reflexivity|]); apply B3; [left; congruence|]. injection E as <-. destruct p as [|k p]; [left; apply ex_nil|]. right. apply ex_cons in H as (c & Ec & H). cbn in Ec. apply bget_in in Ec; [|exact Nd]. exists k, c, p. auto.
      * split; [auto|]. intros [H|(p' & E & _)]; [exact H|congruence].
    + intros p x. rewrite SingL. destruct p as [|m p].
      * rewrite !lab_nil. cbn [labels]. rewrite append_in. split; [intros [H|H]; auto|]. intros [H|[[_ H]|(p' & E & _)]]; [auto|auto|discriminate].
      * rewrite !lab_cons. cbn [children]. rewrite bget_bput. destruct (String.eqb_spec m n) as [->|Hne].
        -- rewrite Eb. assert (Exs : ex (Ns sn sch sls) (n :: p) <-> ex child p) by (rewrite ex_cons; cbn [children]; rewrite Eb; split; [intros (d & E & H); congruence|eauto]). split.
           ++ intros (d & E & H). injection E as <-. apply B4 in H as [H|[(-> & k & c & Hi & H)|(k & c & p' & Hi & -> & H)]].
              ** left. eauto.
              ** right. right. exists []. split; [reflexivity|]. right. split; [apply Exs, ex_nil|]. exists k. apply lab_cons. exists c. split; [cbn; now apply bget_in|exact H].
              ** right. right. exists (k :: p'). split; [reflexivity|]. rewrite Exs. destruct H as [(H1 & H2)|(H1 & y & H2)]; [left|right]; (split; [exact H1|]); [|exists y]; apply lab_cons; exists c; (split; [cbn; now apply bget_in|assumption]).
           ++ intros [(d & E & H)|[(E & _)|(p' & E & H)]]; [|discriminate|].
              ** eexists. split; [reflexivity|]. apply B4. left. congruence.
              ** injection E as <-. eexists. split; [reflexivity|]. apply B4. rewrite Exs in H. right. destruct p as [|k p].
                 --- left. split; [reflexivity|]. destruct H as [(H1 & _)|(_ & y & H)]; [exfalso; apply H1, ex_nil|]. cbn [app] in H. apply lab_cons in H as (c & Ec & H). cbn in Ec. apply bget_in in Ec; [|exact Nd]. eauto.
                 --- right. destruct H as [(H1 & H)|(H1 & y & H)].
                     +++ apply lab_cons in H as (c & Ec & H). cbn in Ec. apply bget_in in Ec; [|exact Nd]. exists k, c, p. split; [exact Ec|]. split; [reflexivity|]. left. auto.
                     +++ cbn [app] in H. apply lab_cons in H as (c & Ec & H). cbn in Ec. apply bget_in in Ec; [|exact Nd]. exists k, c, p. split; [exact Ec|]. split; [reflexivity|]. right. eauto.
        -- split; [auto|]. intros [H|[(E & _)|(p' & E & _)]]; [exact H|discriminate|congruence].
  - split; [reflexivity|]. split; [|split].
    + intro W. inversion W as [? ? ? S E C]; subst. apply put_wf; auto.
    + intro p. rewrite Sing. destruct p as [|m p]; [split; [intros _; left; apply ex_nil|intros _; apply ex_nil]|]. rewrite !ex_cons. cbn [children]. rewrite bget_bput. destruct (String.eqb_spec m n) as [->|Hne].
      * rewrite Eb. split; [intros (d & E & H); injection E as <-; right; eauto|]. intros [(d & E & _)|(p' & E & H)]; [discriminate|]. injection E as <-. eauto.
      * split; [auto|]. intros [H|(p' & E & _)]; [exact H|congruence].
    + intros p x. rewrite SingL. destruct p as [|m p].
      * rewrite !lab_nil. cbn [labels]. rewrite append_in. split; [intros [H|H]; auto|]. intros [H|[[_ H]|(p' & E & _)]]; [auto|auto|discriminate].
      * rewrite !lab_cons. cbn [children]. rewrite bget_bput. destruct (String.eqb_spec m n) as [->|Hne].
        -- rewrite Eb. assert (Nex : ~ ex (Ns sn sch sls) (n :: p)) by (rewrite ex_cons; cbn [children]; rewrite Eb; intros (d & E & _); discriminate). split.
           ++ intros (d & E & H). injection E as <-. right. right. eauto.
           ++ intros [(d & E & _)|[(E & _)|(p' & E & [(_ & H)|(H & _)])]]; [discriminate|discriminate| |contradiction]. injection E as <-. eauto.
        -- split; [auto|]. intros [H|[(E & _)|(p' & E & _)]]; [exact H|discriminate|congruence].
Qed.

(** * Hierarchies *)
Definition hex (m : merged) (p : list string) : Prop := match p with [] => False | n :: p' => exists c, bget n m = Some c /\ ex c p' end.
Definition hlab (m : merged) (p : list string) (l : string) : Prop := match p with [] => False | n :: p' => exists c, bget n m = Some c /\ lab c p' l end.
Definition hwf (m : merged) : Prop := sorted m /\ forall k c, In (k, c) m -> wf c /\ nsname c = k.
Definition uniform (l : string) (t : ns) : Prop := forall p x, lab t p x <-> ex t p /\ x = l.
Lemma hlab_hex m p l : hlab m p l -> hex m p.
Proof. destruct p; [auto|]. intros (c & E & H). exists c. split; [exact E|]. eapply lab_ex; exact H. Qed.
Lemma merge_ok t o : wf t -> wf o -> nsname t = nsname o -> exists r, merge t o = Some r /\ wf r /\ nsname r = nsname t /\
  (forall p, ex r p <-> ex t p \/ ex o p) /\
  (forall l, uniform l o -> forall p x, lab r p x <-> lab t p x \/ (x = l /\ ex o p /\ (p = [] \/ ~ ex t p \/ exists y, ex o (p ++ [y])))).
Proof.
  intros Wt Wo En. unfold merge. rewrite En, String.eqb_refl. eexists. split; [reflexivity|]. destruct (wf_children _ Wo) as (Nd & Bi & Cw).
  set (t' := Ns (nsname o) (children t) (append (labels t) (labels o))).
  assert (Wt' : wf t') by (destruct t; inversion Wt; subst; constructor; assumption).
  destruct (add_all_spec (children o) (fun k c H => conj (add_child_spec c) (Cw k c H)) Nd t') as (B1 & B2 & B3 & B4). fold (add_all t' (children o)).
  split; [auto|]. split; [rewrite B1; reflexivity|]. assert (Ext : forall p, ex t' p <-> ex t p) by (intros [|n p]; [split; intros; apply ex_nil|]; rewrite !ex_cons; reflexivity).
  split.
  - intro p. rewrite B3, Ext. destruct p as [|n p]; [split; intros; left; apply ex_nil|]. apply or_iff_compat_l. unfold new_ex. rewrite ex_cons. split.
    + intros (k & c & p' & Hi & E & H). injection E as -> ->. exists c. split; [now apply Bi|exact H].
    + intros (c & E & H). exists n, c, p. split; [now apply Bi|auto].
  - intros l U p x. rewrite B4. destruct p as [|n p].
    + rewrite !lab_nil. unfold t'. cbn [labels]. rewrite append_in. unfold new_lab. rewrite <- (lab_nil o), (U [] x). split.
      * intros [[H|[H ->]]|[(_ & k & c & Hi & H)|(k & c & p' & _ & E & _)]]; [auto|right; auto using ex_nil| |discriminate].
        right. assert (L : lab o [k] x) by (apply lab_cons; exists c; split; [now apply Bi|exact H]). apply U in L as [_ ->]. auto using ex_nil.
      * intros [H|(-> & H & _)]; auto.
    + assert (E1 : lab t' (n :: p) x <-> lab t (n :: p) x) by (rewrite !lab_cons; reflexivity). rewrite E1. apply or_iff_compat_l. unfold new_lab. split.
      * intros [(E & _)|(k & c & p' & Hi & E & H)]; [discriminate|]. injection E as <- <-. rewrite Ext in H. apply Bi in Hi. destruct H as [(H1 & H2)|(H1 & y & H2)].
        -- assert (L : lab o (n :: p) x) by (apply lab_cons; eauto). apply U in L as [H ->]. auto.
        -- assert (L : lab o (n :: p ++ [y]) x) by (apply lab_cons; eauto). apply U in L as [H ->]. split; [reflexivity|]. split; [|right; right; exists y; exact H]. apply ex_cons in H as (d & Ed & H). apply ex_cons. exists d. split; [exact Ed|]. clear - H. revert d H. induction p as [|m p IH]; intros d H; [apply ex_nil|]. cbn [app] in H. apply ex_cons in H as (e & Ee & H). apply ex_cons. eauto.
      * intros (-> & Ho & H). right. apply ex_cons in Ho as Ho'. destruct Ho' as (c & Ec & Hc). exists n, c, p. split; [now apply Bi|]. split; [reflexivity|]. rewrite Ext. destruct (ex_dec t (n :: p)) as [Ht|Ht].
        -- right. split; [exact Ht|]. destruct H as [E|[H|(y & H)]]; [discriminate|contradiction|]. exists y. assert (L : lab o (n :: p ++ [y]) l) by (apply U; auto). apply lab_cons in L as (d & Ed & L). assert (d = c) by congruence. now subst.
        -- left. split; [exact Ht|]. assert (L : lab o (n :: p) l) by (apply U; auto). apply lab_cons in L as (d & Ed & L). assert (d = c) by congruence. now subst.
Qed.
(** One target's hierarchy. *)
Definition target_tree (l : string) (o : merged) : Prop := hwf o /\ forall k c, In (k, c) o -> uniform l c.
Lemma merge_loop_ok l o : forall m, NoDup (map fst o) -> (forall k c, In (k, c) o -> wf c /\ nsname c = k /\ uniform l c) -> hwf m ->
  exists r, merge_loop m o = Some r /\ hwf r /\
  (forall n p, hex r (n :: p) <-> hex m (n :: p) \/ exists c, In (n, c) o /\ ex c p) /\
  (forall n p x, hlab r (n :: p) x <-> hlab m (n :: p) x \/ (x = l /\ exists c, In (n, c) o /\ ex c p /\ (p = [] \/ ~ hex m (n :: p) \/ exists y, ex c (p ++ [y])))).
Proof.
  induction o as [|[k t] o IH]; intros m Nd Ho [Sm Hm].
  - exists m. split; [reflexivity|]. split; [now split|]. split; intros; (split; [auto|]); [intros [H|(c & [] & _)]; exact H|intros [H|(_ & c & [] & _)]; exact H].
  - cbn [map fst] in Nd. inversion Nd as [|? ? N1 N2]; subst. destruct (Ho k t (or_introl eq_refl)) as (Wt & Et & Ut). cbn [merge_loop].
    assert (Step : exists m1, (match bget k m with Some child => match merge child t with Some child' => merge_loop (bput k child' m) o | None => None end | None => merge_loop (bput k t m) o end) = merge_loop m1 o /\ hwf m1 /\
      (forall n p, hex m1 (n :: p) <-> hex m (n :: p) \/ (n = k /\ ex t p)) /\
      (forall n p x, hlab m1 (n :: p) x <-> hlab m (n :: p) x \/ (n = k /\ x = l /\ ex t p /\ (p = [] \/ ~ hex m (n :: p) \/ exists y, ex t (p ++ [y]))))).
    { destruct (bget k m) as [child|] eqn:Eb.
      - assert (Hi : In (k, child) m) by (apply bget_in; [now apply sorted_nodup|exact Eb]). destruct (Hm _ _ Hi) as [Wc Ec]. destruct (merge_ok child t Wc Wt ltac:(congruence)) as (r & -> & Wr & Er & R1 & R2). exists (bput k r m). split; [reflexivity|]. split; [|split].
        + split; [now apply bput_sorted|]. intros k' c' H. apply bput_in in H as [H|H]; [injection H as -> ->; split; [exact Wr|congruence]|now apply Hm].
        + intros n p. cbn [hex]. rewrite bget_bput. destruct (String.eqb_spec n k) as [->|Hne].
          * rewrite Eb. split; [intros (d & E & H); injection E as <-; apply R1 in H as [H|H]; eauto|]. intros [(d & E & H)|(_ & H)]; eexists; (split; [reflexivity|]); apply R1; [left; congruence|auto].
          * split; [auto|]. intros [H|(E & _)]; [exact H|contradiction].
        + intros n p x. cbn [hlab]. rewrite bget_bput. destruct (String.eqb_spec n k) as [->|Hne].
          * rewrite Eb. assert (Hx : hex m (k :: p) <-> ex child p) by (cbn [hex]; rewrite Eb; split; [intros (d & E & H); congruence|eauto]). rewrite Hx. split.
            -- intros (d & E & H). injection E as <-. apply (R2 l Ut) in H as [H|(-> & H)]; [left; eauto|right; split; [reflexivity|split; [reflexivity|exact H]]].
            -- intros [(d & E & H)|(_ & -> & H)]; eexists; (split; [reflexivity|]); apply (R2 l Ut); [left; congruence|auto].
          * split; [auto|]. intros [H|(E & _)]; [exact H|contradiction].
      - exists (bput k t m). split; [reflexivity|]. split; [|split].
        + split; [now apply bput_sorted|]. intros k' c' H. apply bput_in in H as [H|H]; [injection H as -> ->; auto|now apply Hm].
        + intros n p. cbn [hex]. rewrite bget_bput. destruct (String.eqb_spec n k) as [->|Hne].
          * rewrite Eb. split; [intros (d & E & H); injection E as <-; auto|]. intros [(d & E & _)|(_ & H)]; [discriminate|eauto].
          * split; [auto|]. intros [H|(E & _)]; [exact H|contradiction].
        + intros n p x. cbn [hlab]. rewrite bget_bput. destruct (String.eqb_spec n k) as [->|Hne].
          * rewrite Eb. assert (Hx : ~ hex m (k :: p)) by (cbn [hex]; rewrite Eb; intros (d & E & _); discriminate). split.
            -- intros (d & E & H). injection E as <-. apply Ut in H as [H ->]. right. repeat (split; [reflexivity|]). split; [exact H|right; left; exact Hx].
            -- intros [(d & E & _)|(_ & -> & H & _)]; [discriminate|]. eexists. split; [reflexivity|]. now apply Ut.
          * split; [auto|]. intros [H|(E & _)]; [exact H|contradiction]. }
    destruct Step as (m1 & -> & W1 & X1 & L1). destruct (IH m1 N2 (fun k c H => Ho k c (or_intror H)) W1) as (r & Er & Wr & Xr & Lr). exists r. split; [exact Er|]. split; [exact Wr|]. split.
    + intros n p. rewrite Xr, X1. split.
      * intros [[H|(-> & H)]|(c & Hi & H)]; [auto|right; exists t; split; [now left|exact H]|right; exists c; split; [now right|exact H]].
      * intros [H|(c & [E|Hi] & H)]; [auto|injection E as -> ->; auto|right; eauto].
    + intros n p x. rewrite Lr, L1.
      assert (Old : forall c, In (n, c) o -> (hex m1 (n :: p) <-> hex m (n :: p))).
      { intros c Hi. rewrite X1. split; [|auto]. intros [H|(-> & _)]; [exact H|]. exfalso. apply N1. change k with (fst (k, c)). now apply in_map. }
      split.
      * intros [[H|(-> & -> & H)]|(-> & c & Hi & H)]; [auto|right; split; [reflexivity|]; exists t; split; [now left|exact H]|right; split; [reflexivity|]; exists c; split; [now right|]]. now rewrite (Old c Hi) in H.
      * intros [H|(-> & c & [E|Hi] & H)]; [auto|injection E as -> ->; auto|right; split; [reflexivity|]; exists c; split; [exact Hi|]]. now rewrite (Old c Hi).
Qed.

(** * From JSON *)
Definition put_all (l : string) (ch : list json) (m : list (string * ns)) : list (string * ns) := fold_left (fun m j => bput (jname j) (from_json l j) m) ch m.
Lemma from_json_eq l n ch : from_json l (Json n ch) = Ns n (put_all l ch []) [(l, tt)].
Proof. cbn [from_json]. f_equal. unfold put_all. generalize (@nil (string * ns)). induction ch as [|c ch IH]; intro m; [reflexivity|]. cbn [fold_left]. apply IH. Qed.
Lemma put_all_get l ch : NoDup (map jname ch) -> forall m k t, bget k (put_all l ch m) = Some t <->
  (exists c, In c ch /\ jname c = k /\ t = from_json l c) \/ (~ In k (map jname ch) /\ bget k m = Some t).
Proof.
  unfold put_all. induction ch as [|c ch IH]; intros N m k t; cbn [fold_left map]; [split; [right; split; [intros []|assumption]|intros [(c & [] & _)|[_ H]]; exact H]|]. cbn [map] in N. inversion N as [|? ? N1 N2]; subst. rewrite (IH N2), bget_bput. destruct (String.eqb_spec k (jname c)) as [->|Hne].
  - split.
    + intros [(c' & Hi & E & H)|[H1 H2]]; [exfalso; apply N1; rewrite <- E; now apply in_map|]. left. exists c. injection H2 as <-. split; [now left|auto].
    + intros [(c' & [->|Hi] & E & ->)|[H _]]; [right; auto|exfalso; apply N1; rewrite <- E; now apply in_map|exfalso; apply H; now left].
  - split.
    + intros [(c' & Hi & H)|[H1 H2]]; [left; exists c'; split; [now right|exact H]|right; split; [|exact H2]; intros [E|H]; [congruence|contradiction]].
    + intros [(c' & [->|Hi] & E & H)|[H1 H2]]; [congruence|left; eauto|right; split; [|exact H2]; intro H; apply H1; now right].
Qed.
Lemma put_all_sorted l ch : forall m, sorted m -> sorted (put_all l ch m).
Proof. unfold put_all. induction ch as [|c ch IH]; intros m S; [exact S|]. cbn [fold_left]. apply IH, bput_sorted, S. Qed.
Lemma put_all_in l ch : forall m x, In x (put_all l ch m) -> In x m \/ exists c, In c ch /\ x = (jname c, from_json l c).
Proof. unfold put_all. induction ch as [|c ch IH]; intros m x H; [auto|]. cbn [fold_left] in H. apply IH in H as [H|(c' & Hi & E)]; [apply bput_in in H as [->|H]; [right; exists c; split; [now left|reflexivity]|auto]|right; exists c'; split; [now right|exact E]]. Qed.
Lemma from_json_name l j : nsname (from_json l j) = jname j.
Proof. destruct j. reflexivity. Qed.
Lemma from_json_wf l j : wf (from_json l j).
Proof.
  induction j as [n ch IH] using json_ind'. rewrite from_json_eq. constructor; [apply put_all_sorted; constructor| |]; intros k c H; apply put_all_in in H as [[]|(c' & Hi & E)]; injection E as -> ->; [apply from_json_name|now apply IH].
Qed.
Lemma from_json_uniform l j : uniform l (from_json l j).
Proof.
  induction j as [n ch IH] using json_ind'. rewrite from_json_eq. intros p x. destruct p as [|m p].
  - rewrite lab_nil. cbn. split; [intros [<-|[]]; split; [apply ex_nil|reflexivity]|intros [_ ->]; now left].
  - rewrite lab_cons, ex_cons. cbn [children]. assert (G : forall c, bget m (put_all l ch []) = Some c -> uniform l c).
    { intros c E. apply bget_in in E; [|apply sorted_nodup, put_all_sorted; constructor]. apply put_all_in in E as [[]|(c' & Hi & E)]. injection E as -> ->. now apply IH. }
    split; [intros (c & E & H); apply (G c E) in H as [H ->]; eauto|]. intros [(c & E & H) ->]. exists c. split; [exact E|]. apply (G c E). auto.
Qed.
Lemma from_json_ex l j : forall ch, j = Json (jname j) ch -> distinct ch -> forall p, ex (from_json l j) p <-> p = [] \/ opens ch p.
Proof.
  induction j as [n ch0 IH] using json_ind'. intros ch E D p. cbn in E. injection E as ->. rewrite from_json_eq. inversion D as [? Nd Dc]; subst. destruct p as [|m p]; [split; intros; [now left|apply ex_nil]|]. rewrite ex_cons. cbn [children]. split.
  - intros (c & E & H). right. apply (put_all_get l ch Nd) in E as [(c' & Hi & En & ->)|[_ E]]; [|discriminate]. destruct c' as [n' ch']. cbn in En. subst n'. apply (IH _ Hi ch' eq_refl (Dc _ _ Hi)) in H as [->|H]; [eapply OHere; exact Hi|eapply OInner; eassumption].
  - intros [E|H]; [discriminate|]. inversion H as [? ? ch' Hi|? ? ch' ? Hi H']; subst; (exists (from_json l (Json m ch')); split; [apply (put_all_get l ch Nd); left; exists (Json m ch'); auto|]); apply (IH _ Hi ch' eq_refl (Dc _ _ Hi)); auto.
Qed.
Lemma from_hierarchy_spec h : distinct (namespaces h) ->
  NoDup (map fst (from_hierarchy h)) /\ (forall k c, In (k, c) (from_hierarchy h) -> wf c /\ nsname c = k /\ uniform (label h) c) /\ hwf (from_hierarchy h) /\
  (forall n p, (exists c, In (n, c) (from_hierarchy h) /\ ex c p) <-> opens (namespaces h) (n :: p)).
Proof.
  intro D. inversion D as [? Nd Dc]; subst. assert (S : sorted (from_hierarchy h)) by (apply (put_all_sorted (label h) (namespaces h) []); constructor). pose proof (sorted_nodup _ S) as N.
  assert (C : forall k c, In (k, c) (from_hierarchy h) -> wf c /\ nsname c = k /\ uniform (label h) c).
  { intros k c H. apply (put_all_in (label h) (namespaces h) []) in H as [[]|(c' & Hi & E)]. injection E as -> ->. split; [apply from_json_wf|]. split; [apply from_json_name|apply from_json_uniform]. }
  split; [exact N|]. split; [exact C|]. split; [split; [exact S|]; intros k c H; apply C in H; tauto|]. intros n p. split.
  - intros (c & Hi & H). apply (bget_in _ N) in Hi. apply (put_all_get (label h) (namespaces h) Nd []) in Hi as [(c' & Hc & E & ->)|[_ E]]; [|discriminate]. destruct c' as [n' ch']. cbn in E. subst n'. apply (from_json_ex _ (Json n ch') ch' eq_refl (Dc _ _ Hc)) in H as [->|H]; [eapply OHere; exact Hc|eapply OInner; eassumption].
  - intro H. inversion H as [? ? ch' Hi|? ? ch' ? Hi H']; subst; (exists (from_json (label h) (Json n ch')); split; [apply (bget_in _ N), (put_all_get (label h) (namespaces h) Nd []); left; exists (Json n ch'); auto|]); apply (from_json_ex _ (Json n ch') ch' eq_refl (Dc _ _ Hi)); auto.
Qed.

(** * Merging all targets *)
Lemma reduce_ok hs : (forall h, In h hs -> distinct (namespaces h)) -> forall done m, hwf m ->
  (forall p, hex m p <-> all_open done p) -> (forall p x, hlab m p x <-> kept done p x) ->
  exists r, reduce m hs = Some r /\ hwf r /\ (forall p, hex r p <-> all_open (done ++ hs) p) /\ (forall p x, hlab r p x <-> kept (done ++ hs) p x).
Proof.
  induction hs as [|h hs IH]; intros D done m Wm Xm Lm; cbn [reduce]; [rewrite app_nil_r; eauto|].
  destruct (from_hierarchy_spec h (D h (or_introl eq_refl))) as (N & C & W & O). destruct (merge_loop_ok (label h) _ m N C Wm) as (r & -> & Wr & Xr & Lr).
  assert (Nil : forall js, ~ opens js []) by (intros js H; inversion H).
  assert (X1 : forall p, hex r p <-> all_open (done ++ [h]) p).
  { intros [|n p]; [split; [intros []|intros (h' & _ & H); now apply Nil in H]|]. rewrite Xr, O, Xm. unfold all_open. split.
    - intros [(h' & Hi & H)|H]; [exists h'; split; [apply in_or_app; now left|exact H]|exists h; split; [apply in_or_app; right; now left|exact H]].
    - intros (h' & Hi & H). apply in_app_or in Hi as [Hi|[<-|[]]]; [left; eauto|now right]. }
  assert (L1 : forall p x, hlab r p x <-> kept (done ++ [h]) p x).
  { intros [|n p] x; [split; [intros []|intros (b & h' & a & _ & _ & H & _); now apply Nil in H]|]. rewrite Lr, Lm. split.
    - intros [(b & h' & a & -> & H)|(-> & c & Hi & Hc & H)].
      + exists b, h', (a ++ [h]). split; [now rewrite <- app_assoc|exact H].
      + exists done, h, []. split; [reflexivity|]. split; [reflexivity|]. split; [apply O; eauto|]. destruct H as [->|[H|(y & H)]]; [now left|right; left; rewrite <- Xm; exact H|]. right; right. exists y. cbn [app]. apply O. eauto.
    - intros (b & h' & a & E & El & Ho & H). destruct (rev a) as [|z a'] eqn:Ea.
      + assert (a = []) by (rewrite <- (rev_involutive a), Ea; reflexivity). subst a. apply app_inj_tail in E as [-> ->]. right. split; [auto|]. apply O in Ho as (c & Hi & Hc). exists c. split; [exact Hi|]. split; [exact Hc|]. destruct H as [H|[H|(y & H)]].
        * left. destruct p; [reflexivity|discriminate].
        * right; left. rewrite Xm. exact H.
        * right; right. exists y. cbn [app] in H. apply O in H as (c' & Hi' & H). apply (bget_in _ N) in Hi, Hi'. assert (c' = c) by congruence. now subst.
      + assert (Ea' : a = rev a' ++ [z]) by (rewrite <- (rev_involutive a), Ea; reflexivity). subst a. rewrite app_comm_cons, app_assoc in E. apply app_inj_tail in E as [-> ->]. left. exists b, h', (rev a'). auto. }
  destruct (IH (fun h' H => D h' (or_intror H)) (done ++ [h]) r Wr X1 L1) as (r' & E & H). rewrite <- app_assoc in H. exists r'. auto.
Qed.
Lemma get_hierarchy_ok h hs : (forall x, In x (h :: hs) -> distinct (namespaces x)) ->
  exists m, get_hierarchy (h :: hs) = Some m /\ hwf m /\ (forall p, hex m p <-> all_open (h :: hs) p) /\ (forall p x, hlab m p x <-> kept (h :: hs) p x).
Proof.
  intro D. cbn [get_hierarchy]. destruct (from_hierarchy_spec h (D h (or_introl eq_refl))) as (N & C & W & O).
  assert (Nil : forall js, ~ opens js []) by (intros js H; inversion H).
  assert (X : forall n p, hex (from_hierarchy h) (n :: p) <-> opens (namespaces h) (n :: p)).
  { intros n p. rewrite <- O. cbn [hex]. split; intros (c & E & H); exists c; (split; [now apply (bget_in _ N)|exact H]). }
  apply (reduce_ok hs (fun x H => D x (or_intror H)) [h] (from_hierarchy h) W).
  - intros [|n p]; [split; [intros []|intros (h' & _ & H); now apply Nil in H]|]. rewrite X. split; [intro H; exists h; split; [now left|exact H]|intros (h' & [<-|[]] & H); exact H].
  - intros [|n p] x; [split; [intros []|intros (b & h' & a & _ & _ & H & _); now apply Nil in H]|]. split.
    + intros (c & E & H). apply (bget_in _ N) in E as Hi. destruct (C _ _ Hi) as (_ & _ & U). apply U in H as [H ->]. exists [], h, []. split; [reflexivity|]. split; [reflexivity|]. split; [apply X; cbn; eauto|]. right; left. intros (h' & [] & _).
    + intros (b & h' & a & E & El & Ho & _). assert (h' = h). { destruct b as [|b0 b]; [cbn in E; congruence|]. destruct b; discriminate E. } subst h'. apply O in Ho as (c & Hi & Hc). exists c. split; [now apply (bget_in _ N)|]. destruct (C _ _ Hi) as (_ & _ & U). apply U. auto.
Qed.

(** * The generated modules *)
Lemma to_use_shape : forall t outer, exists inner, to_use_stmts outer t = Mod (nsname t) inner.
Proof. intros [n ch ls] outer. cbn. eauto. Qed.
Lemma to_use_spec t : wf t -> forall outer inner, to_use_stmts outer t = Mod (nsname t) inner ->
  (forall p, p <> [] -> (has_mod inner p <-> ex t p)) /\
  (forall l q, In (Use l q) inner <-> In l (map fst (labels t)) /\ q = outer ++ [nsname t]) /\
  (forall p l q, p <> [] -> (imports inner p l q <-> lab t p l /\ q = outer ++ nsname t :: p)).
Proof.
  induction t as [n ch ls IH] using ns_ind'. intros W outer inner E. destruct (wf_children _ W) as (Nd & Bi & Cw). cbn [children nsname labels] in *. cbn in E. injection E as <-.
  assert (Sub : forall m inn, In (Mod m inn) (map (fun e => Use (fst e) (outer ++ [n])) ls ++ map (fun e => to_use_stmts (outer ++ [n]) (snd e)) ch) <-> exists c, In (m, c) ch /\ to_use_stmts (outer ++ [n]) c = Mod m inn).
  { intros m inn. rewrite in_app_iff, !in_map_iff. split.
    - intros [(e & E & _)|([k c] & E & Hi)]; [discriminate|]. cbn [snd] in E. destruct (to_use_shape c (outer ++ [n])) as [i2 E2]. rewrite E in E2. injection E2 as -> <-. destruct (Cw _ _ Hi) as [_ Ec]. exists c. rewrite Ec. split; [exact Hi|]. now rewrite <- Ec at 1.
    - intros (c & Hi & E). right. exists (m, c). auto. }
  split; [|split].
  - intros p Np. destruct p as [|m p]; [contradiction|]. rewrite ex_cons. split.
    + intro H. inversion H as [? ? inn Hi|? ? inn ? Hi H']; subst; apply Sub in Hi as (c & Hc & Ec); (exists c; split; [now apply Bi|]).
      * apply ex_nil.
      * destruct (Cw _ _ Hc) as [Wc En]. rewrite <- En in Ec. destruct p as [|m' p]; [apply ex_nil|]. apply (proj1 (IH _ _ Hc Wc _ _ Ec)); [discriminate|exact H'].
    + intros (c & Hc & H). apply Bi in Hc. destruct (Cw _ _ Hc) as [Wc En]. destruct (to_use_shape c (outer ++ [n])) as [inn Ei]. assert (Hi : exists c, In (m, c) ch /\ to_use_stmts (outer ++ [n]) c = Mod m inn) by (exists c; split; [exact Hc|congruence]). apply Sub in Hi.
      destruct p as [|m' p]; [eapply MHere; exact Hi|]. eapply MInner; [exact Hi|]. apply (proj1 (IH _ _ Hc Wc _ _ Ei)); [discriminate|exact H].
  - intros l q. rewrite in_app_iff, !in_map_iff. split.
    + intros [([k []] & E & Hi)|([k c] & E & Hi)]; [injection E as <- <-; split; [exists (k, tt); auto|reflexivity]|]. cbn [snd] in E. destruct (to_use_shape c (outer ++ [n])) as [inn Ei]. congruence.
    + intros [(e & <- & Hi) ->]. left. eauto.
  - intros p l q Np. destruct p as [|m p]; [contradiction|]. rewrite lab_cons. split.
    + intro H. inversion H as [? ? inn ? ? Hi Hu|? ? inn ? ? ? Hi H']; subst; apply Sub in Hi as (c & Hc & Ec); destruct (Cw _ _ Hc) as [Wc En]; rewrite <- En in Ec; destruct (IH _ _ Hc Wc _ _ Ec) as (I1 & I2 & I3).
      * apply I2 in Hu as [Hl ->]. split; [exists c; split; [now apply Bi|now apply lab_nil]|]. rewrite <- app_assoc. cbn. now rewrite En.
      * assert (Np' : p <> []) by (intros ->; inversion H'). apply (I3 p l q Np') in H' as [H' ->]. split; [exists c; split; [now apply Bi|exact H']|]. rewrite <- app_assoc. cbn. now rewrite En.
    + intros [(c & Hc & H) ->]. apply Bi in Hc. destruct (Cw _ _ Hc) as [Wc En]. destruct (to_use_shape c (outer ++ [n])) as [inn Ei]. assert (Hi : exists c, In (m, c) ch /\ to_use_stmts (outer ++ [n]) c = Mod m inn) by (exists c; split; [exact Hc|congruence]). apply Sub in Hi. destruct (IH _ _ Hc Wc _ _ Ei) as (I1 & I2 & I3).
      destruct p as [|m' p].
      * eapply IHere; [exact Hi|]. apply I2. split; [now apply lab_nil|]. rewrite <- app_assoc. cbn. now rewrite En.
      * eapply IInner; [exact Hi|]. apply I3; [discriminate|]. split; [exact H|]. rewrite <- app_assoc. cbn. now rewrite En.
Qed.
Lemma to_tokens_spec m : hwf m -> (forall p, has_mod (to_tokens m) p <-> hex m p) /\ (forall p l q, imports (to_tokens m) p l q <-> hlab m p l /\ q = p).
Proof.
  intros [S C]. pose proof (sorted_nodup _ S) as N.
  assert (Sub : forall n inn, In (Mod n inn) (to_tokens m) <-> exists c, bget n m = Some c /\ to_use_stmts [] c = Mod n inn).
  { intros n inn. unfold to_tokens. rewrite in_map_iff. split.
    - intros ([k c] & E & Hi). cbn [snd] in E. destruct (C _ _ Hi) as [_ Ec]. destruct (to_use_shape c []) as [i2 E2]. assert (n = k) by congruence. subst. exists c. split; [now apply bget_in|exact E].
    - intros (c & E & Ei). exists (n, c). split; [exact Ei|]. now apply bget_in. }
  split.
  - intros [|n p]; [split; [intro H; inversion H|intros []]|]. cbn [hex]. split.
    + intro H. inversion H as [? ? inn Hi|? ? inn ? Hi H']; subst; apply Sub in Hi as (c & Ec & Ei); (exists c; split; [exact Ec|]); [apply ex_nil|]. destruct (C n c) as [Wc En]; [now apply bget_in|]. rewrite <- En in Ei. destruct p; [apply ex_nil|]. apply (proj1 (to_use_spec c Wc _ _ Ei)); [discriminate|exact H'].
    + intros (c & Ec & H). destruct (C n c) as [Wc En]; [now apply bget_in|]. destruct (to_use_shape c []) as [inn Ei]. assert (Hi : In (Mod n inn) (to_tokens m)) by (apply Sub; exists c; split; [exact Ec|congruence]). destruct p as [|m' p]; [eapply MHere; exact Hi|]. eapply MInner; [exact Hi|]. apply (proj1 (to_use_spec c Wc _ _ Ei)); [discriminate|exact H].
  - intros [|n p] l q; [split; [intro H; inversion H|intros [[] _]]|]. cbn [hlab]. split.
    + intro H. inversion H as [? ? inn ? ? Hi Hu|? ? inn ? ? ? Hi H']; subst; apply Sub in Hi as (c & Ec & Ei); (destruct (C n c) as [Wc En]; [now apply bget_in|]); rewrite <- En in Ei; destruct (to_use_spec c Wc _ _ Ei) as (I1 & I2 & I3).
      * apply I2 in Hu as [Hl ->]. split; [exists c; split; [exact Ec|now apply lab_nil]|]. cbn. now rewrite En.
      * assert (Np' : p <> []) by (intros ->; inversion H'). apply (I3 p l q Np') in H' as [H' ->]. split; [eauto|]. cbn. now rewrite En.
    + intros [(c & Ec & H) ->]. destruct (C n c) as [Wc En]; [now apply bget_in|]. destruct (to_use_shape c []) as [inn Ei]. assert (Hi : In (Mod n inn) (to_tokens m)) by (apply Sub; exists c; split; [exact Ec|congruence]). destruct (to_use_spec c Wc _ _ Ei) as (I1 & I2 & I3). destruct p as [|m' p].
      * eapply IHere; [exact Hi|]. apply I2. split; [now apply lab_nil|]. cbn. now rewrite En.
      * eapply IInner; [exact Hi|]. apply I3; [discriminate|]. split; [exact H|]. cbn. now rewrite En.
Qed.

Lemma opens_dec_tree j : forall ch, j = Json (jname j) ch -> forall p, opens ch p \/ ~ opens ch p.
Proof.
  induction j as [n ch0 IH] using json_ind'. intros ch E p. cbn in E. injection E as ->. destruct p as [|m p]; [right; intro H; inversion H|].
  induction ch as [|[k c] ch IHc]; [right; intro H; inversion H; subst; contradiction|].
  destruct IHc as [O|O]; [intros x Hx; apply IH; right; exact Hx|left; inversion O; subst; [eapply OHere|eapply OInner]; try (right; eassumption); eassumption|].
  destruct (string_dec k m) as [->|Nk].
  - destruct p as [|m' p]; [left; eapply OHere; left; reflexivity|]. destruct (IH (Json m c) (or_introl eq_refl) c eq_refl (m' :: p)) as [Oc|Oc]; [left; eapply OInner; [left; reflexivity|exact Oc]|].
    right. intro H. inversion H as [|? ? c' ? Hi Ho]; subst. destruct Hi as [Ec|Hi]; [injection Ec as <-; contradiction|]. apply O. eapply OInner; eassumption.
  - right. intro H. inversion H as [? ? c' Hi|? ? c' ? Hi Ho]; subst; (destruct Hi as [Ec|Hi]; [congruence|]); apply O; [eapply OHere|eapply OInner]; eassumption.
Qed.
Lemma opens_dec js p : opens js p \/ ~ opens js p.
Proof. exact (opens_dec_tree (Json EmptyString js) js eq_refl p). Qed.
