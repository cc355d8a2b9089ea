(** C48: applying the constraints to a function's lifetimes. *)
From Coq Require Import List Arith ZArith Bool Lia Relations.
From Verif.Lifetimes Require Import Model Spec Reach Subst.
Import ListNotations.
Local Open Scope Z_scope.

(** * Union-find *)
Inductive rooted (p : zmap) : lifetime -> lifetime -> Prop :=
| RRoot l : assoc l p = Some l -> rooted p l l
| RStep l q r : assoc l p = Some q -> l <> q -> rooted p q r -> rooted p l r.
Lemma rooted_det p l r r' : rooted p l r -> rooted p l r' -> r = r'.
Proof. intro H. revert r'. induction H as [l E|l q r E N H IH]; intros r' H'; inversion H'; subst; try congruence. apply IH. congruence. Qed.
Lemma rooted_root p l r : rooted p l r -> assoc r p = Some r.
Proof. induction 1; auto. Qed.
(** The forest [p] gives the lifetimes in [K] the representatives [f]. *)
Definition repr (p : zmap) (K : list lifetime) (f : lifetime -> lifetime) : Prop := forall x, In x K -> rooted p x (f x) /\ In (f x) K.
Lemma compress p l r x y : rooted p l r -> l <> r -> rooted p x y -> rooted (put l r p) x y.
Proof.
  intros Hl N H. assert (Er : assoc r (put l r p) = Some r) by (rewrite assoc_put; destruct (Z.eqb_spec r l); [congruence|eapply rooted_root; exact Hl]).
  assert (L : rooted (put l r p) l r) by (eapply RStep; [rewrite assoc_put, Z.eqb_refl; reflexivity|exact N|now apply RRoot]).
  induction H as [x E|x q y E Ne H IH].
  - destruct (Z.eq_dec x l) as [->|Hne]; [exfalso; apply N; exact (rooted_det p l l r (RRoot p l E) Hl)|]. apply RRoot. rewrite assoc_put. destruct (Z.eqb_spec x l); [contradiction|exact E].
  - destruct (Z.eq_dec x l) as [->|Hne]; [rewrite (rooted_det p l y r (RStep p l q y E Ne H) Hl); exact L|]. eapply RStep; [|exact Ne|exact IH]. rewrite assoc_put. destruct (Z.eqb_spec x l); [contradiction|exact E].
Qed.
Lemma find_spec p l r p' : find p l r p' -> rooted p l r /\ forall x y, rooted p x y -> rooted p' x y.
Proof.
  induction 1 as [l E|l q r p' E N F [IH1 IH2]]; [split; [now apply RRoot|auto]|]. assert (Hl : rooted p l r) by (eapply RStep; eassumption). split; [exact Hl|]. intros x y H.
  destruct (Z.eq_dec l r) as [->|Hne].
  - (* r would be its own, non-trivial ancestor *)
    apply rooted_root in Hl. congruence.
  - apply compress; [now apply IH2|exact Hne|now apply IH2].
Qed.
Lemma find_repr p K f l r p' : repr p K f -> In l K -> find p l r p' -> r = f l /\ repr p' K f.
Proof.
  intros R Hl F. apply find_spec in F as [F1 F2]. split; [eapply rooted_det; [exact F1|now apply R]|]. intros x Hx. destruct (R x Hx) as [A B]. auto.
Qed.
Lemma find_total p l r : rooted p l r -> exists p', find p l r p'.
Proof. induction 1 as [l E|l q r E N H [p' IH]]; eexists; [now apply FRoot|eapply FStep; eassumption]. Qed.
Lemma repr_idem p K f x : repr p K f -> In x K -> f (f x) = f x.
Proof. intros R Hx. destruct (R x Hx) as [A B]. destruct (R (f x) B) as [C _]. eapply rooted_det; [exact C|]. apply RRoot. eapply rooted_root; exact A. Qed.
Lemma union_repr p K f a b p' : repr p K f -> In a K -> In b K -> union p a b p' -> repr p' K (fun x => if f x =? f a then f b else f x).
Proof.
  intros R Ha Hb U. inversion U as [r p1 p2 F1 F2|ra rb p1 p2 F1 F2 N]; subst.
  - destruct (find_repr _ _ _ _ _ _ R Ha F1) as [-> R1]. destruct (find_repr _ _ _ _ _ _ R1 Hb F2) as [E R2]. intros x Hx. destruct (Z.eqb_spec (f x) (f a)) as [Ex|]; [|now apply R2]. rewrite <- E, <- Ex. now apply R2.
  - destruct (find_repr _ _ _ _ _ _ R Ha F1) as [-> R1]. destruct (find_repr _ _ _ _ _ _ R1 Hb F2) as [-> R2]. intros x Hx.
    assert (Era : assoc (f a) p2 = Some (f a)) by (eapply rooted_root; apply (R2 a Ha)). assert (Erb : assoc (f b) p2 = Some (f b)) by (eapply rooted_root; apply (R2 b Hb)).
    assert (G : forall x y, rooted p2 x y -> rooted (put (f a) (f b) p2) x (if y =? f a then f b else y)).
    { intros u y H. assert (Rb : rooted (put (f a) (f b) p2) (f b) (f b)) by (apply RRoot; rewrite assoc_put; destruct (Z.eqb_spec (f b) (f a)); [congruence|exact Erb]).
      induction H as [u E|u q y E Ne H IH].
      - destruct (Z.eqb_spec u (f a)) as [->|Hne]; [eapply RStep; [rewrite assoc_put, Z.eqb_refl; reflexivity|exact N|exact Rb]|]. apply RRoot. rewrite assoc_put. destruct (Z.eqb_spec u (f a)); [contradiction|exact E].
      - eapply RStep; [|exact Ne|exact IH]. rewrite assoc_put. destruct (Z.eqb_spec u (f a)); [congruence|exact E]. }
    destruct (R2 x Hx) as [A B]. split; [now apply G|]. destruct (f x =? f a); [now apply (R2 b Hb)|exact B].
Qed.
Lemma union_total p K f a b : repr p K f -> In a K -> In b K -> exists p', union p a b p'.
Proof.
  intros R Ha Hb. destruct (find_total p a (f a)) as [p1 F1]; [now apply R|]. destruct (find_repr _ _ _ _ _ _ R Ha F1) as [_ R1]. destruct (find_total p1 b (f b)) as [p2 F2]; [now apply R1|].
  destruct (Z.eq_dec (f a) (f b)) as [E|N]; eexists; [eapply USame; [exact F1|rewrite E; exact F2]|eapply UDiff; eassumption].
Qed.
(** [f] identifies exactly what the pairs joined so far connect. *)
Definition classes (f : lifetime -> lifetime) (pairs : list (lifetime * lifetime)) : Prop :=
  forall x y, f x = f y <-> clos_refl_sym_trans _ (fun a b => In (a, b) pairs) x y.
Lemma crst_mono (R R' : lifetime -> lifetime -> Prop) x y : (forall a b, R a b -> R' a b) -> clos_refl_sym_trans _ R x y -> clos_refl_sym_trans _ R' x y.
Proof. intros H C. induction C as [a b E|a|a b _ IH|a b d _ IH1 _ IH2]; [apply rst_step; auto|apply rst_refl|now apply rst_sym|eapply rst_trans; eassumption]. Qed.
Lemma classes_union f pairs a b : classes f pairs -> classes (fun x => if f x =? f a then f b else f x) ((a, b) :: pairs).
Proof.
  intros C x y. assert (Mono : forall u v, f u = f v -> clos_refl_sym_trans _ (fun a0 b0 => In (a0, b0) ((a, b) :: pairs)) u v).
  { intros u v E. apply C in E. eapply crst_mono; [|exact E]. intros; now right. }
  assert (AB : clos_refl_sym_trans _ (fun a0 b0 => In (a0, b0) ((a, b) :: pairs)) a b) by (apply rst_step; now left). split.
  - destruct (Z.eqb_spec (f x) (f a)) as [Ex|Nx], (Z.eqb_spec (f y) (f a)) as [Ey|Ny]; intro E.
    + apply Mono. congruence.
    + eapply rst_trans; [apply Mono; exact Ex|]. eapply rst_trans; [exact AB|]. now apply Mono.
    + eapply rst_trans; [apply Mono; exact E|]. eapply rst_trans; [apply rst_sym; exact AB|]. apply Mono. congruence.
    + now apply Mono.
  - intro H. induction H as [u v Hi|u|u v _ IH|u v w _ IH1 _ IH2]; [|reflexivity|now symmetry|congruence]. destruct Hi as [E|Hi].
    + injection E as -> ->. rewrite Z.eqb_refl. destruct (Z.eqb_spec (f v) (f u)); reflexivity.
    + assert (E : f u = f v) by (apply C; now apply rst_step). now rewrite E.
Qed.

(** * The loops *)
Section Run.
Variable c : constraints.
Variable all : list lifetime.
Hypothesis Sig : signature all.
Hypothesis NoLocalStatic : forall x, is_local x = true -> ~ outlives c Static x.
Let K := Static :: all.

Lemma sig_not_local l : In l all -> is_local l = false.
Proof. intro H. destruct Sig as [_ S]. unfold is_local, is_variable, Static in *. destruct (S l H) as [E|E]; [apply Z.ltb_lt in E|]; apply Z.leb_gt; lia. Qed.
Lemma out_spec l out : outliving c l = Some out -> NoDup out /\ forall m, In m out <-> m <> l /\ outlives c l m.
Proof. intro E. destruct (C33_outliving_is_transitive_closure c l) as (o & E' & N & H). assert (o = out) by congruence. subst. auto. Qed.
(** The lifetimes that have their substitution. *)
Definition settled (done : list lifetime) (k : lifetime) : Prop := (k <> Static /\ forced_static c k) \/ (In k done /\ forced_local c k).
(** What a substitution entry may say before representatives are added. *)
Definition entry (k v : lifetime) : Prop :=
  (k <> Static /\ forced_static c k /\ v = Static) \/ (In k all /\ forced_local c k /\ ~ forced_static c k /\ is_local v = true /\ outlives c k v).
Record inv (done : list lifetime) (st : state) (f : lifetime -> lifetime) (pairs : list (lifetime * lifetime)) : Prop := Inv {
  i_entry : forall k v, assoc k (subs st) = Some v -> entry k v;
  i_dom : forall k, settled done k -> assoc k (subs st) <> None;
  i_already : forall k, In k (already st) <-> settled done k;
  i_repr : repr (dsu st) K f;
  i_classes : classes f pairs;
  i_sound : forall m l, In (m, l) pairs -> linked c all l m;
  i_complete : forall l m, In l done -> linked c all l m -> m <> l -> In (m, l) pairs }.

Lemma forced_static_not_local k : forced_static c k -> ~ forced_local c k.
Proof. intros H (x & Hx & _ & Ho). apply (NoLocalStatic x Hx). eapply rt_trans; eassumption. Qed.
Lemma linked_settled l m : linked c all l m -> ~ settled all m /\ m <> Static /\ ~ forced_static c l.
Proof.
  intros (Hl & Hm & Ho & Hs & Hf). split; [|split].
  - intros [[_ H]|[_ (x & Hx & _ & Hox)]]; [contradiction|]. apply Hf. exists x. split; [exact Hx|]. split; [intros ->; rewrite (sig_not_local l Hl) in Hx; discriminate|]. eapply rt_trans; eassumption.
  - intros ->. apply Hs. apply rt_refl.
  - intro H. apply Hs. eapply rt_trans; eassumption.
Qed.
Lemma settled_mono done done' k : incl done done' -> settled done k -> settled done' k.
Proof. intros H [S|[S1 S2]]; [now left|right; auto]. Qed.
Lemma entry_value k v : entry k v -> v = Static \/ is_local v = true.
Proof. intros [(_ & _ & ->)|(_ & _ & _ & H & _)]; auto. Qed.
Lemma entry_key k v : entry k v -> k <> Static /\ is_local k = false.
Proof.
  intros [(N & F & _)|(H & F & NF & _)].
  - split; [exact N|]. destruct (is_local k) eqn:E; [|reflexivity]. exfalso. now apply (NoLocalStatic k E).
  - split; [|now apply sig_not_local]. intros ->. apply NF. apply rt_refl.
Qed.
Lemma add_free m v s m' : assoc s m = None -> add m v s m' -> m' = if v =? s then m else put v s m.
Proof.
  intros E A. inversion A as [s' H Ev|s' H N]; subst; inversion H; subst; try congruence.
  - now rewrite Z.eqb_refl.
  - destruct (Z.eqb_spec v s'); [contradiction|reflexivity].
Qed.
Lemma const_free (m : zmap) : (forall k v, assoc k m = Some v -> entry k v) -> forall s, s = Static \/ is_local s = true -> assoc s m = None.
Proof.
  intros H s Hs. destruct (assoc s m) as [v|] eqn:E; [|reflexivity]. apply H in E. apply entry_key in E as [E1 E2]. destruct Hs as [->|Hs]; congruence.
Qed.

Lemma unions_spec al l : In l K -> forall ms p p' f pairs, unions all al l ms p p' -> repr p K f -> classes f pairs ->
  exists f' pairs', repr p' K f' /\ classes f' pairs' /\ (forall q, In q pairs' <-> In q pairs \/ exists m, q = (m, l) /\ In m ms /\ ~ In m al /\ In m all).
Proof.
  intros Hl ms p p' f pairs U. revert f pairs. induction U as [p|m ms p p' Hs U IH|m ms p p1 p' H1 H2 Hu U IH]; intros f pairs R C.
  - exists f, pairs. split; [exact R|]. split; [exact C|]. intro q. split; [auto|]. intros [H|(m & _ & [] & _)]; exact H.
  - destruct (IH f pairs R C) as (f' & pairs' & R' & C' & H). exists f', pairs'. split; [exact R'|]. split; [exact C'|]. intro q. rewrite H. apply or_iff_compat_l. split; intros (m' & E & Hm & Hn & Ha); exists m'; (split; [exact E|]); (split; [|auto]); [now right|]. destruct Hm as [->|Hm]; [destruct Hs; contradiction|exact Hm].
  - assert (Hm : In m K) by (now right). destruct (IH _ ((m, l) :: pairs) (union_repr _ _ _ _ _ _ R Hm Hl Hu) (classes_union _ _ _ _ C)) as (f' & pairs' & R' & C' & H). exists f', pairs'. split; [exact R'|]. split; [exact C'|]. intro q. rewrite H. cbn [In]. split.
    + intros [[<-|Hq]|(m' & E & Hm' & Hr)]; [right; exists m; repeat split; auto; now left|now left|right; exists m'; split; [exact E|]; split; [now right|exact Hr]].
    + intros [Hq|(m' & -> & [->|Hm'] & Hr)]; [left; now right|left; now left|right; exists m'; auto].
Qed.
Lemma main_spec : forall ls st st', main_loop c all ls st st' -> forall done f pairs, incl ls all -> incl done all -> inv done st f pairs ->
  exists f' pairs', inv (rev ls ++ done) st' f' pairs'.
Proof.
  induction 1 as [st|l ls out longer x st m st' Eo En Hx Lx A M IH|l ls out longer st p st' Eo En NL U M IH]; intros done f pairs Il Id I.
  - exists f, pairs. exact I.
  - destruct (out_spec _ _ Eo) as [_ Ho]. destruct En as [_ En]. assert (Hl : In l all) by (apply Il; now left).
    apply En, erase_spec in Hx as [Hx Nx]. apply Ho in Hx as [Hne Hx].
    assert (FL : forced_local c l) by (exists x; auto). assert (NS : ~ forced_static c l) by (intro H; apply forced_static_not_local in H; contradiction).
    assert (Fx : assoc x (subs st) = None) by (eapply const_free; [apply I|now right]). apply add_free in A; [|exact Fx]. destruct (Z.eqb_spec l x) as [E|_]; [congruence|]. subst m.
    cbn [rev]. rewrite <- app_assoc. cbn [app]. apply (IH (l :: done) f pairs); [intros y Hy; apply Il; now right|intros y [<-|Hy]; auto|]. constructor; cbn [subs already dsu].
    + intros k v. rewrite assoc_put. destruct (Z.eqb_spec k l) as [->|]; [|apply I]. intro E. injection E as <-. right. auto.
    + intros k. rewrite assoc_put. destruct (Z.eqb_spec k l) as [->|Hk]; [discriminate|]. intros [S|[[->|S1] S2]]; [apply I; now left|contradiction|apply I; right; auto].
    + intro k. cbn [In]. rewrite (i_already _ _ _ _ I k). unfold settled. cbn [In]. intuition congruence.
    + apply I.
    + apply I.
    + apply I.
    + intros l' m' [->|Hd] Hlk; [|now apply (i_complete _ _ _ _ I)]. exfalso. destruct Hlk as (_ & _ & _ & _ & NF). contradiction.
  - destruct (out_spec _ _ Eo) as [_ Ho]. destruct En as [_ En]. assert (Hl : In l all) by (apply Il; now left).
    assert (NF : ~ forced_local c l).
    { intros (x & Lx & Hne & Hx). assert (Hi : In x longer) by (apply En, erase_spec; split; [now apply Ho|intros ->; discriminate Lx]). rewrite (NL x Hi) in Lx. discriminate. }
    destruct (unions_spec (already st) l (or_intror Hl) _ _ _ f pairs U (i_repr _ _ _ _ I) (i_classes _ _ _ _ I)) as (f' & pairs' & R' & C' & Hp).
    cbn [rev]. rewrite <- app_assoc. cbn [app]. apply (IH (l :: done) f' pairs'); [intros y Hy; apply Il; now right|intros y [<-|Hy]; auto|]. constructor; cbn [subs already dsu].
    + apply I.
    + intros k [S|[[->|S1] S2]]; [apply I; now left|contradiction|apply I; right; auto].
    + intro k. rewrite (i_already _ _ _ _ I k). unfold settled. cbn [In]. split; [intros [S|S]; tauto|]. intros [S|[[->|S1] S2]]; [tauto|contradiction|tauto].
    + exact R'.
    + exact C'.
    + intros m l' H. apply Hp in H as [H|(m' & E & Hm & Na & Ha)]; [now apply I|]. injection E as -> ->. apply En, erase_spec in Hm as [Hm Ns]. apply Ho in Hm as [Hne Hm].
      split; [exact Hl|]. split; [exact Ha|]. split; [exact Hm|]. split; [|exact NF]. intro F. apply Na. apply (i_already _ _ _ _ I). left. auto.
    + intros l' m Hd Hlk Hne. apply Hp. destruct Hd as [->|Hd]; [|left; now apply (i_complete _ _ _ _ I)]. right. exists m. split; [reflexivity|]. destruct (linked_settled _ _ Hlk) as (Ns & Nst & _). destruct Hlk as (_ & Hm & Hom & _).
      split; [apply En, erase_spec; split; [now apply Ho|exact Nst]|]. split; [|exact Hm]. intro Hal. apply Ns. apply (i_already _ _ _ _ I) in Hal. eapply settled_mono; [|exact Hal]. exact Id.
Qed.
Lemma add_static_spec : forall ls m m', add_static ls m m' -> (forall x, In x ls -> x <> Static /\ forced_static c x) ->
  (forall k v, assoc k m = Some v -> entry k v) -> (forall k v, assoc k m' = Some v -> entry k v) /\ forall k, In k ls \/ assoc k m <> None -> assoc k m' <> None.
Proof.
  induction 1 as [m|l ls m m1 m' A S IH]; intros HS He; [split; [exact He|]; intros k [[]|H]; exact H|].
  destruct (HS l (or_introl eq_refl)) as [N F]. apply add_free in A; [|eapply const_free; [exact He|now left]]. destruct (Z.eqb_spec l Static); [contradiction|]. subst m1.
  destruct IH as [I1 I2]; [intros x Hx; apply HS; now right| |].
  - intros k v. rewrite assoc_put. destruct (Z.eqb_spec k l) as [->|]; [|apply He]. intro E. injection E as <-. left. auto.
  - split; [exact I1|]. intros k Hk. apply I2. rewrite assoc_put. destruct (Z.eqb_spec k l) as [->|Hne]; [right; discriminate|]. destruct Hk as [[->|Hk]|Hk]; [contradiction|now left|now right].
Qed.
Lemma make_sets_spec : forall ls p f, repr p K f -> (forall x, f x = x) -> incl ls K -> repr (fold_left (fun p l => make_set l p) ls p) K f.
Proof.
  induction ls as [|l ls IH]; intros p f R Hf Hi; [exact R|]. cbn [fold_left]. apply IH; [|exact Hf|intros y Hy; apply Hi; now right]. intros x Hx. destruct (R x Hx) as [A B]. split; [|exact B]. rewrite Hf in *. apply RRoot. unfold make_set. rewrite assoc_put. destruct (Z.eqb_spec x l) as [->|]; [reflexivity|]. eapply rooted_root; exact A.
Qed.
(** All lifetimes are singletons at first. *)
Lemma make_sets_init order : incl all order -> incl order K -> repr (fold_left (fun p l => make_set l p) order (make_set Static [])) K (fun x => x).
Proof.
  intros I1 I2 x Hx. split; [|exact Hx]. apply RRoot. assert (G : forall ls p, In x ls \/ assoc x p = Some x -> assoc x (fold_left (fun p l => make_set l p) ls p) = Some x).
  { induction ls as [|l ls IH]; intros p H; [destruct H as [[]|H]; exact H|]. cbn [fold_left]. apply IH. unfold make_set. rewrite assoc_put. destruct (Z.eqb_spec x l) as [->|Hne]; [now right|]. destruct H as [[->|H]|H]; [contradiction|now left|now right]. }
  apply G. destruct Hx as [<-|Hx]; [right; reflexivity|left; now apply I1].
Qed.
(** The result of the last loop. *)
Lemma final_spec al cc : forall ls m p m', final_loop al cc ls m p m' -> forall f, repr p K f -> incl ls all ->
  (forall l, In l ls -> ~ In l al -> is_variable l = true -> f l <> cc /\ ~ In (f l) al) ->
  (forall k, assoc k m <> None -> In k al \/ f k <> k) ->
  (forall k v, assoc k m' = Some v -> assoc k m = Some v \/ (In k ls /\ ~ In k al /\ v = f k /\ f k <> k)) /\
  (forall k, assoc k m <> None \/ (In k ls /\ ~ In k al /\ is_variable k = true /\ f k <> k) -> assoc k m' <> None).
Proof.
  induction 1 as [m p|l ls m p m' Hs F IH|l ls m p cc' p' m1 m' Hn Hv Fi A F IH]; intros f R Hi Hst Hkey.
  - split; [auto|]. intros k [H|([] & _)]. exact H.
  - destruct (IH f R) as [I1 I2]; auto; [intros y Hy; apply Hi; now right|intros y Hy; apply Hst; now right|]. split.
    + intros k v E. destruct (I1 k v E) as [H|(H & Hr)]; [auto|right; split; [now right|exact Hr]].
    + intros k H. apply I2. destruct H as [H|([->|H] & Hr & Hv & Hf)]; [auto| |auto]. destruct Hs as [Hs|Hs]; [contradiction|congruence].
  - assert (Hl : In l all) by (apply Hi; now left). destruct (find_repr _ _ _ _ _ _ R (or_intror Hl) Fi) as [-> R'].
    destruct (Hst l (or_introl eq_refl) Hn Hv) as [Hne Good].
    assert (Hfl : f (f l) = f l) by (eapply repr_idem; [exact R|now right]).
    destruct (Z.eqb_spec (f l) cc); [contradiction|].
    assert (Free : assoc (f l) m = None) by (destruct (assoc (f l) m) eqn:E; [destruct (Hkey (f l)) as [H|H]; [congruence|contradiction|congruence]|reflexivity]).
    apply add_free in A; [|exact Free].
    assert (Hm1 : forall k, assoc k m1 = if (k =? l) && negb (l =? f l) then Some (f l) else assoc k m).
    { intro k. subst m1. destruct (Z.eqb_spec l (f l)) as [E|E]; [now rewrite andb_false_r|]. rewrite assoc_put, andb_true_r. reflexivity. }
    destruct (IH f R') as [I1 I2]; [intros y Hy; apply Hi; now right|intros y Hy; apply Hst; now right| |].
    { intros k. rewrite Hm1. destruct (Z.eqb_spec k l) as [->|]; [|apply Hkey]. destruct (Z.eqb_spec l (f l)) as [E|E]; [apply Hkey|]. intros _. right. congruence. }
    split.
    + intros k v E. destruct (I1 k v E) as [H|(H & Hr)]; [|right; split; [now right|exact Hr]]. rewrite Hm1 in H. destruct (Z.eqb_spec k l) as [->|]; [|now left]. destruct (Z.eqb_spec l (f l)) as [E'|E']; [now left|]. right. injection H as <-. split; [now left|]. split; [exact Hn|]. split; [reflexivity|congruence].
    + intros k H. apply I2. rewrite Hm1. destruct (Z.eqb_spec k l) as [->|Hk]; [destruct (Z.eqb_spec l (f l)) as [E|E]|].
      * left. destruct H as [H|(_ & _ & _ & H)]; [exact H|congruence].
      * left. discriminate.
      * destruct H as [H|([->|H] & Hr)]; [now left|contradiction|right; auto].
Qed.

Lemma connected_ends x y : connected c all x y -> x = y \/ ((~ settled all x /\ x <> Static) /\ (~ settled all y /\ y <> Static)).
Proof.
  induction 1 as [l m H|x|x y _ IH|x y z _ IH1 _ IH2].
  - right. destruct (linked_settled _ _ H) as (A & B & D). destruct H as (Hl & Hm & Ho & Hs & Hf). repeat split; auto.
    + intros [[_ S]|[_ S]]; contradiction.
    + intros ->. apply D. apply rt_refl.
  - now left.
  - destruct IH as [->|[? ?]]; auto.
  - destruct IH1 as [->|[? ?]]; [exact IH2|]. destruct IH2 as [->|[? ?]]; auto.
Qed.

Lemma init_inv out statics m0 order : outliving c Static = Some out -> enum statics out -> add_static statics [] m0 -> enum order all ->
  inv [] (State m0 statics (fold_left (fun p l => make_set l p) order (make_set Static []))) (fun x => x) [].
Proof.
  intros Eo [_ En] S [No Hor]. destruct (out_spec _ _ Eo) as [_ Ho].
  destruct (add_static_spec _ _ _ S) as [A B]; [intros x Hx; apply En, Ho in Hx; exact Hx|discriminate|].
  constructor; cbn [subs already dsu].
  - exact A.
  - intros k [[N F]|[[] _]]. apply B. left. apply En, Ho. auto.
  - intro k. rewrite En, Ho. unfold settled, forced_static. cbn [In]. tauto.
  - apply make_sets_init; [intros x Hx; now apply Hor|intros x Hx; right; now apply Hor].
  - intros x y. split; [intros ->; apply rst_refl|]. induction 1 as [a b []|a|a b _ IH|a b d _ IH1 _ IH2]; congruence.
  - intros m l [].
  - intros l m [].
Qed.

(** What a successful run yields. *)
Lemma apply_spec m : apply c all (Some m) ->
  exists f, (forall x y, f x = f y <-> connected c all x y) /\ (forall l, In l all -> ~ settled all l -> l <> Static -> In (f l) all /\ f l <> Static /\ connected c all l (f l)) /\
  forall l, In l all -> 
    (forced_static c l -> substitute m l Static) /\
    (forced_local c l -> exists r, is_local r = true /\ outlives c l r /\ substitute m l r) /\
    (~ forced_static c l -> ~ forced_local c l -> substitute m l (f l)).
Proof.
  intro H. inversion H as [|out statics order m0 p st cc p1 m' Eo NL En S Eor Ep M Fi Fl]; subst.
  pose proof (init_inv _ _ _ _ Eo En S Eor) as I0. destruct Eor as [No Hor].
  destruct (main_spec _ _ _ M [] _ _ (fun x Hx => proj1 (Hor x) Hx) (incl_nil_l _) I0) as (f & pairs & I). rewrite app_nil_r in I.
  destruct I as [Ie Id Ia Ir Ic Is Icp].
  assert (Eq : forall x, settled (rev order) x <-> settled all x).
  { intro x. unfold settled. rewrite <- in_rev, Hor. tauto. }
  assert (Cn : forall x y, f x = f y <-> connected c all x y).
  { intros x y. rewrite (Ic x y). split; intro C.
    - induction C as [a b E|a|a b _ IH|a b d _ IH1 _ IH2]; [apply rst_sym, rst_step, Is; exact E|apply rst_refl|now apply rst_sym|eapply rst_trans; eassumption].
    - induction C as [a b E|a|a b _ IH|a b d _ IH1 _ IH2]; [|apply rst_refl|now apply rst_sym|eapply rst_trans; eassumption].
      destruct (Z.eq_dec b a) as [->|Hne]; [apply rst_refl|]. apply rst_sym, rst_step, Icp; [rewrite <- in_rev; apply Hor, E|exact E|exact Hne]. }
  assert (Sf : forall x, In x K -> connected c all x (f x)).
  { intros x Hx. apply Cn. symmetry. eapply repr_idem; [exact Ir|exact Hx]. }
  assert (Neu : forall l, In l all -> ~ settled all l -> l <> Static -> ~ settled all (f l) /\ f l <> Static).
  { intros l Hl Ns Nst. destruct (connected_ends _ _ (Sf l (or_intror Hl))) as [<-|[_ E]]; auto. }
  destruct (find_repr _ _ _ _ _ _ Ir (or_introl eq_refl) Fi) as [-> R1].
  assert (Hstep : forall l, In l order -> ~ In l (already st) -> is_variable l = true -> f l <> f Static /\ ~ In (f l) (already st)).
  { intros l Hl Na Hv. rewrite Ia, Eq in Na. assert (Nst : l <> Static) by (intros ->; discriminate Hv). destruct (Neu l (proj1 (Hor l) Hl) Na Nst) as [A B]. split.
    - intro E. apply Cn, connected_ends in E as [E|[_ [_ E]]]; contradiction.
    - rewrite Ia, Eq. exact A. }
  assert (Hkeys : forall k, assoc k (subs st) <> None -> In k (already st) \/ f k <> k).
  { intros k Hk. left. rewrite Ia, Eq. destruct (assoc k (subs st)) as [v|] eqn:E; [|contradiction]. apply Ie in E. destruct E as [(A & B & _)|(A & B & _)]; [left|right]; auto. }
  destruct (final_spec _ _ _ _ _ _ Fl f R1 (fun x Hx => proj1 (Hor x) Hx) Hstep Hkeys) as [F1 F2].
  assert (Free : forall s, s = Static \/ is_local s = true -> assoc s m = None).
  { intros s Hs. destruct (assoc s m) as [v|] eqn:E; [|reflexivity]. exfalso. apply F1 in E as [E|(Hk & Na & _ & Hf)]; [|].
    - apply Ie, entry_key in E as [A B]. destruct Hs as [->|Hs]; congruence.
    - apply Hor in Hk. destruct Hs as [->|Hs]; [|rewrite (sig_not_local s Hk) in Hs; discriminate].
      apply Hf. destruct (connected_ends _ _ (Sf Static (or_introl eq_refl))) as [E|[[_ E] _]]; congruence. }
  exists f. split; [exact Cn|]. split; [intros l Hl Ns Nst; destruct (Neu l Hl Ns Nst) as [_ Nf]; split; [destruct (Ir l (or_intror Hl)) as [_ [E|HIn]]; [congruence|exact HIn]|split; [exact Nf|apply Sf; now right]]|]. intros l Hl. split; [|split].
  - intro Fs. destruct (Z.eq_dec l Static) as [->|Nst]; [apply SDone, Free; now left|].
    assert (Hk : assoc l (subs st) <> None) by (apply Id; left; auto). assert (Hm : assoc l m <> None) by (apply F2; now left). destruct (assoc l m) as [v|] eqn:E; [|contradiction].
    assert (v = Static).
    { apply F1 in E as [E|(_ & Na & _)]; [|exfalso; apply Na, Ia; left; auto]. apply Ie in E as [(_ & _ & ->)|(_ & _ & Nf & _)]; [reflexivity|contradiction]. }
    subst v. eapply SStep; [exact E|apply SDone, Free; now left].
  - intro Fl'. assert (Hs : settled (rev order) l) by (right; split; [rewrite <- in_rev; now apply Hor|exact Fl']). assert (Hk : assoc l (subs st) <> None) by (apply Id, Hs). assert (Hm : assoc l m <> None) by (apply F2; now left). destruct (assoc l m) as [v|] eqn:E; [|contradiction].
    assert (V : is_local v = true /\ outlives c l v).
    { apply F1 in E as [E|(_ & Na & _)]; [|exfalso; apply Na, Ia, Hs]. apply Ie in E as [(_ & Fs & _)|(_ & _ & _ & A)]; [|exact A]. apply forced_static_not_local in Fs. contradiction. }
    exists v. destruct V as [V1 V2]. split; [exact V1|]. split; [exact V2|]. eapply SStep; [exact E|apply SDone, Free; now right].
  - intros Nfs Nfl. assert (Ns : ~ settled all l) by (intros [[_ ?]|[_ ?]]; contradiction). assert (Nst : l <> Static) by (intros ->; apply Nfs, rt_refl).
    assert (Na : ~ In l (already st)) by (rewrite Ia, Eq; exact Ns). destruct (Neu l Hl Ns Nst) as [A B]. assert (Hv : is_variable l = true) by (destruct Sig as [_ Sg]; destruct (Sg l Hl); [assumption|contradiction]).
    assert (Kf : forall k, ~ settled all k -> f k = k -> assoc k m = None).
    { intros k Nk Ek. destruct (assoc k m) as [v|] eqn:E; [|reflexivity]. exfalso. apply F1 in E as [E|(_ & _ & _ & Hf)]; [|contradiction]. destruct (Hkeys k) as [Hh|Hh]; [congruence| |contradiction]. rewrite Ia, Eq in Hh. contradiction. }
    assert (Ef : f (f l) = f l) by (eapply repr_idem; [exact Ir|now right]).
    destruct (Z.eq_dec (f l) l) as [E|Hne]; [rewrite E; apply SDone, Kf; [exact Ns|exact E]|].
    assert (Hm : assoc l m <> None) by (apply F2; right; repeat split; auto; now apply Hor). destruct (assoc l m) as [v|] eqn:E; [|contradiction].
    assert (v = f l). { apply F1 in E as [E|(_ & _ & V & _)]; [|exact V]. exfalso. destruct (Hkeys l) as [Hh|Hh]; [congruence|contradiction|]. apply Ie in E. destruct E as [(_ & ? & _)|(_ & ? & _)]; contradiction. }
    subst v. eapply SStep; [exact E|]. apply SDone, Kf; assumption.
Qed.

(** Every step can be taken. *)
Lemma add_free_total (m : zmap) v s : assoc s m = None -> exists m', add m v s m'.
Proof. intro E. destruct (Z.eq_dec v s) as [->|N]; eexists; [eapply ASame; [apply SDone; exact E|reflexivity]|eapply APut; [apply SDone; exact E|exact N]]. Qed.
Lemma unions_total al l : In l K -> forall ms p f, repr p K f -> exists p', unions all al l ms p p'.
Proof.
  intros Hl. induction ms as [|m ms IH]; intros p f R; [eexists; apply UsNil|].
  destruct (in_dec Z.eq_dec m al) as [Ha|Ha]; [destruct (IH p f R) as [p' U]; eexists; eapply UsSkip; [now left|exact U]|].
  destruct (in_dec Z.eq_dec m all) as [Hb|Hb]; [|destruct (IH p f R) as [p' U]; eexists; eapply UsSkip; [now right|exact U]].
  destruct (union_total p K f m l R (or_intror Hb) Hl) as [p1 U1]. destruct (IH p1 _ (union_repr _ _ _ _ _ _ R (or_intror Hb) Hl U1)) as [p' U]. eexists. eapply UsJoin; eassumption.
Qed.
Lemma main_total : forall ls st done f pairs, incl ls all -> incl done all -> inv done st f pairs -> exists st', main_loop c all ls st st'.
Proof.
  induction ls as [|l ls IH]; intros st done f pairs Il Id I; [eexists; apply MNil|]. assert (Hl : In l all) by (apply Il; now left).
  destruct (C33_outliving_is_transitive_closure c l) as (out & Eo & Nd & Ho). set (longer := erase Static out).
  assert (En : enum longer (erase Static out)) by (split; [apply NoDup_filter; exact Nd|reflexivity]).
  assert (One : exists st1, (forall st', main_loop c all ls st1 st' -> main_loop c all (l :: ls) st st') /\ main_loop c all [l] st st1).
  { destruct (existsb is_local longer) eqn:Ex.
    - apply existsb_exists in Ex as (x & Hx & Lx). destruct (add_free_total (subs st) l x) as [m A]; [eapply const_free; [apply I|now right]|]. eexists. split; [intros st' M; eapply MLocal; eassumption|eapply MLocal; try eassumption; apply MNil].
    - assert (NL : forall x, In x longer -> is_local x = false) by (intros x Hx; destruct (is_local x) eqn:Lx; [|reflexivity]; rewrite <- Ex; symmetry; apply existsb_exists; eauto).
      destruct (unions_total (already st) l (or_intror Hl) longer (dsu st) f (i_repr _ _ _ _ I)) as [p' U]. eexists. split; [intros st' M; eapply MUnion; eassumption|eapply MUnion; try eassumption; apply MNil]. }
  destruct One as (st1 & Hgo & M1).
  destruct (main_spec _ _ _ M1 done f pairs) as (f1 & pairs1 & I1); auto; [intros y [<-|[]]; exact Hl|].
  destruct (IH st1 (rev [l] ++ done) f1 pairs1) as [st' M]; [intros y Hy; apply Il; now right|intros y [<-|Hy]; auto|exact I1|]. eauto.
Qed.
Lemma add_static_total : forall ls m, (forall x, In x ls -> x <> Static) -> assoc Static m = None -> exists m', add_static ls m m'.
Proof.
  induction ls as [|l ls IH]; intros m H E; [eexists; apply StNil|]. destruct (add_free_total m l Static E) as [m1 A]. pose proof (add_free _ _ _ _ E A) as Em.
  assert (N : l <> Static) by (apply H; now left). destruct (Z.eqb_spec l Static); [contradiction|]. subst m1.
  destruct (IH (put l Static m)) as [m' S]; [intros x Hx; apply H; now right|rewrite assoc_put; destruct (Z.eqb_spec Static l); [congruence|exact E]|]. eexists. eapply StCons; eassumption.
Qed.
Lemma final_total al cc : forall ls m p f, repr p K f -> incl ls all ->
  (forall l, In l ls -> ~ In l al -> is_variable l = true -> f l <> cc /\ ~ In (f l) al) ->
  (forall k, assoc k m <> None -> In k al \/ f k <> k) -> exists m', final_loop al cc ls m p m'.
Proof.
  induction ls as [|l ls IH]; intros m p f R Hi Hst Hkey; [eexists; apply FinNil|].
  assert (Hl : In l all) by (apply Hi; now left).
  destruct (in_dec Z.eq_dec l al) as [Ha|Ha]; [destruct (IH m p f R) as [m' F]; auto; [intros y Hy; apply Hi; now right|intros y Hy; apply Hst; now right|eexists; eapply FinSkip; [now left|exact F]]|].
  destruct (is_variable l) eqn:Hv; [|destruct (IH m p f R) as [m' F]; auto; [intros y Hy; apply Hi; now right|intros y Hy; apply Hst; now right|eexists; eapply FinSkip; [now right|exact F]]].
  destruct (find_total p l (f l)) as [p' Fi]; [apply R; now right|]. destruct (find_repr _ _ _ _ _ _ R (or_intror Hl) Fi) as [_ R'].
  destruct (Hst l (or_introl eq_refl) Ha Hv) as [Hne Good]. assert (Hfl : f (f l) = f l) by (eapply repr_idem; [exact R|now right]).
  assert (Free : assoc (f l) m = None) by (destruct (assoc (f l) m) eqn:E; [destruct (Hkey (f l)) as [H|H]; [congruence|contradiction|congruence]|reflexivity]).
  destruct (add_free_total m l (f l) Free) as [m1 A]. pose proof (add_free _ _ _ _ Free A) as Em.
  destruct (IH m1 p' f R') as [m' F]; [intros y Hy; apply Hi; now right|intros y Hy; apply Hst; now right| |].
  { intros k. subst m1. destruct (Z.eqb_spec l (f l)) as [E|E]; [apply Hkey|]. rewrite assoc_put. destruct (Z.eqb_spec k l) as [->|]; [intros _; right; congruence|apply Hkey]. }
  eexists. eapply FinAdd; [exact Ha|exact Hv|exact Fi| |exact F]. destruct (Z.eqb_spec (f l) cc); [contradiction|exact A].
Qed.
Lemma apply_total : exists m, apply c all (Some m).
Proof.
  destruct (C33_outliving_is_transitive_closure c Static) as (out & Eo & Nd & Ho).
  assert (NL : forall x, In x out -> is_local x = false) by (intros x Hx; destruct (is_local x) eqn:L; [|reflexivity]; apply Ho in Hx as [_ Hx]; exfalso; eapply NoLocalStatic; eassumption).
  assert (En : enum out out) by (split; [exact Nd|reflexivity]).
  destruct (add_static_total out []) as [m0 S]; [intros x Hx; now apply Ho in Hx as [Hx _]|reflexivity|].
  assert (Eor : enum all all) by (split; [apply Sig|reflexivity]).
  pose proof (init_inv _ _ _ _ Eo En S Eor) as I0.
  destruct (main_total all _ [] _ _ (incl_refl _) (incl_nil_l _) I0) as [st M].
  destruct (main_spec _ _ _ M [] _ _ (incl_refl _) (incl_nil_l _) I0) as (f & pairs & I). rewrite app_nil_r in I.
  destruct I as [Ie Id Ia Ir Ic Is Icp].
  assert (Eq : forall x, settled (rev all) x <-> settled all x) by (intro x; unfold settled; rewrite <- in_rev; tauto).
  assert (Cn : forall x y, f x = f y -> connected c all x y).
  { intros x y E. apply (Ic x y) in E. induction E as [a b E|a|a b _ IH|a b d _ IH1 _ IH2]; [apply rst_sym, rst_step, Is; exact E|apply rst_refl|now apply rst_sym|eapply rst_trans; eassumption]. }
  destruct (find_total (dsu st) Static (f Static)) as [p1 Fi]; [apply Ir; now left|].
  destruct (find_repr _ _ _ _ _ _ Ir (or_introl eq_refl) Fi) as [_ R1].
  destruct (final_total (already st) (f Static) all (subs st) p1 f R1 (incl_refl _)) as [m F].
  - intros l Hl Na Hv. rewrite Ia, Eq in Na. assert (Nst : l <> Static) by (intros ->; discriminate Hv). split.
    + intro E. apply Cn, connected_ends in E as [E|[_ [_ E]]]; contradiction.
    + rewrite Ia, Eq. assert (C : connected c all l (f l)) by (apply Cn; symmetry; eapply repr_idem; [exact Ir|now right]). apply connected_ends in C as [C|[_ [C _]]]; [rewrite <- C; exact Na|exact C].
  - intros k Hk. left. rewrite Ia, Eq. destruct (assoc k (subs st)) as [v|] eqn:E; [|contradiction]. apply Ie in E. destruct E as [(A & B & _)|(A & B & _)]; [left|right]; auto.
  - exists m. eapply ApOk; try eassumption. reflexivity.
Qed.
End Run.

Lemma substitute_det m l r r' : substitute m l r -> substitute m l r' -> r = r'.
Proof. intro H. revert r'. induction H as [l E|l l' r E H IH]; intros r' H'; inversion H'; subst; try congruence. apply IH. congruence. Qed.
Lemma dec_local c : (exists x, is_local x = true /\ outlives c Static x) \/ (forall x, is_local x = true -> ~ outlives c Static x).
Proof.
  destruct (C33_outliving_is_transitive_closure c Static) as (out & Eo & Nd & Ho). destruct (existsb is_local out) eqn:E.
  - left. apply existsb_exists in E as (x & Hx & L). exists x. split; [exact L|]. now apply Ho in Hx.
  - right. intros x L H. assert (Hx : In x out) by (apply Ho; split; [intros ->; discriminate L|exact H]). assert (existsb is_local out = true) by (apply existsb_exists; eauto). congruence.
Qed.
Lemma ok_no_local c all m : apply c all (Some m) -> forall x, is_local x = true -> ~ outlives c Static x.
Proof.
  intros A x L H. inversion A as [|out statics order m0 p st cc p1 m' Eo NL]; subst. destruct (C33_outliving_is_transitive_closure c Static) as (o & Eo' & _ & Ho). assert (o = out) by congruence. subst.
  assert (Hx : In x out) by (apply Ho; split; [intros ->; discriminate L|exact H]). rewrite (NL x Hx) in L. discriminate.
Qed.
Lemma dec_forced_static c l : forced_static c l \/ ~ forced_static c l.
Proof.
  destruct (C33_outliving_is_transitive_closure c Static) as (out & _ & _ & Ho). destruct (Z.eq_dec l Static) as [->|N]; [left; apply rt_refl|]. destruct (in_dec Z.eq_dec l out) as [H|H]; [left; now apply Ho|]. right. intro F. apply H, Ho. auto.
Qed.
Lemma dec_forced_local c l : forced_local c l \/ ~ forced_local c l.
Proof.
  destruct (C33_outliving_is_transitive_closure c l) as (out & _ & _ & Ho). destruct (existsb is_local out) eqn:E.
  - left. apply existsb_exists in E as (x & Hx & L). apply Ho in Hx as [N O]. exists x. auto.
  - right. intros (x & L & N & O). assert (existsb is_local out = true) by (apply existsb_exists; exists x; split; [apply Ho; auto|exact L]). congruence.
Qed.

(** C48 (1): whatever order the sets are iterated in, the call ends; it reports the error exactly when the
    constraints make a local lifetime outlive 'static. *)
Theorem C48_error_exactly_when_local_outlives_static c all : signature all ->
  (exists o, apply c all o) /\ (apply c all None <-> exists x, is_local x = true /\ outlives c Static x) /\
  ((exists m, apply c all (Some m)) <-> ~ exists x, is_local x = true /\ outlives c Static x).
Proof.
  intro S. assert (E : (exists x, is_local x = true /\ outlives c Static x) -> apply c all None).
  { intros (x & L & O). destruct (C33_outliving_is_transitive_closure c Static) as (out & Eo & _ & Ho). eapply ApError; [exact Eo| |exact L]. apply Ho. split; [intros ->; discriminate L|exact O]. }
  assert (T : ~ (exists x, is_local x = true /\ outlives c Static x) -> exists m, apply c all (Some m)).
  { intro N. apply apply_total; [exact S|]. intros x L O. apply N. eauto. }
  split; [|split; split].
  - destruct (dec_local c) as [H|H]; [eauto|]. destruct T as [m A]; [intros (x & L & O); exact (H x L O)|eauto].
  - intro A. inversion A as [out x Eo Hx L|]; subst. destruct (C33_outliving_is_transitive_closure c Static) as (o & Eo' & _ & Ho). assert (o = out) by congruence. subst. exists x. split; [exact L|]. now apply Ho in Hx.
  - exact E.
  - intros (m & A) (x & L & O). exact (ok_no_local _ _ _ A x L O).
  - exact T.
Qed.
Print Assumptions C48_error_exactly_when_local_outlives_static.

(** C48 (2): on success every lifetime of the signature is replaced by exactly one lifetime: 'static if it has
    to outlive 'static, one of the locals that outlive it if there is one, and otherwise a lifetime of the signature
    it is tied to. *)
Theorem C48_what_each_lifetime_becomes c all m : signature all -> apply c all (Some m) -> forall l, In l all ->
  exists r, (forall r', substitute m l r' <-> r' = r) /\
  (forced_static c l -> r = Static) /\
  (forced_local c l -> is_local r = true /\ outlives c l r) /\
  (~ forced_static c l -> ~ forced_local c l -> In r all /\ is_variable r = true /\ connected c all l r).
Proof.
  intros S A l Hl. pose proof (ok_no_local _ _ _ A) as NL. destruct (apply_spec c all S NL m A) as (f & Cn & Fin & H). destruct (H l Hl) as (H1 & H2 & H3).
  assert (U : forall r, substitute m l r -> forall r', substitute m l r' <-> r' = r) by (intros r Hr r'; split; [intro; eapply substitute_det; eassumption|intros ->; exact Hr]).
  destruct (dec_forced_static c l) as [Fs|Fs].
  - exists Static. split; [apply U; auto|]. split; [auto|]. split; [|contradiction]. intro Fl. exfalso. eapply forced_static_not_local; eassumption.
  - destruct (dec_forced_local c l) as [Fl|Fl].
    + destruct (H2 Fl) as (r & L & O & Sr). exists r. split; [now apply U|]. split; [contradiction|]. split; [auto|contradiction].
    + exists (f l). split; [now apply U, H3|]. split; [contradiction|]. split; [contradiction|]. intros _ _.
      assert (Ns : ~ settled c all l) by (intros [[_ ?]|[_ ?]]; contradiction). assert (Nst : l <> Static) by (intros ->; apply Fs, rt_refl).
      destruct (Fin l Hl Ns Nst) as (Hf & Nf & C). split; [exact Hf|]. split; [|exact C]. destruct S as [_ S]. destruct (S _ Hf); [assumption|contradiction].
Qed.
Print Assumptions C48_what_each_lifetime_becomes.

(** C48 (3): two lifetimes that are neither forced to be 'static nor local become the same lifetime exactly when the
    constraints tie them together; this does not depend on the order of iteration. *)
Theorem C48_identified_exactly_when_connected c all m : signature all -> apply c all (Some m) -> forall l l' r r', In l all -> In l' all ->
  ~ forced_static c l -> ~ forced_local c l -> ~ forced_static c l' -> ~ forced_local c l' ->
  substitute m l r -> substitute m l' r' -> (r = r' <-> connected c all l l').
Proof.
  intros S A l l' r r' Hl Hl' A1 A2 B1 B2 Hr Hr'. pose proof (ok_no_local _ _ _ A) as NL. destruct (apply_spec c all S NL m A) as (f & Cn & _ & H).
  destruct (H l Hl) as (_ & _ & H3). destruct (H l' Hl') as (_ & _ & H3').
  rewrite (substitute_det _ _ _ _ Hr (H3 A1 A2)), (substitute_det _ _ _ _ Hr' (H3' B1 B2)). apply Cn.
Qed.
Print Assumptions C48_identified_exactly_when_connected.

(** C48 (4): the result respects every constraint, also the implied ones: where [l'] has to outlive [l], the
    substituted lifetimes are equal, or that of [l'] is 'static, or that of [l] is local. *)
Theorem C48_constraints_hold_afterwards c all m : signature all -> apply c all (Some m) -> forall l l' r r', In l all -> In l' all ->
  outlives c l l' -> substitute m l r -> substitute m l' r' -> r = r' \/ r' = Static \/ is_local r = true.
Proof.
  intros S A l l' r r' Hl Hl' O Hr Hr'. pose proof (ok_no_local _ _ _ A) as NL. destruct (apply_spec c all S NL m A) as (f & Cn & _ & H).
  destruct (H l Hl) as (_ & H2 & H3). destruct (H l' Hl') as (H1' & H2' & H3').
  destruct (dec_forced_static c l') as [Fs|Fs]; [right; left; eapply substitute_det; eauto|].
  destruct (dec_forced_local c l) as [Fl|Fl]; [destruct (H2 Fl) as (x & L & _ & Sx); right; right; rewrite (substitute_det _ _ _ _ Hr Sx); exact L|].
  left. assert (Ns : ~ forced_static c l) by (intro F; apply Fs; eapply rt_trans; eassumption).
  assert (Nl : ~ forced_local c l') by (intros (x & L & N & Ox); apply Fl; exists x; split; [exact L|]; split; [intros ->; rewrite (sig_not_local all S l Hl) in L; discriminate|eapply rt_trans; eassumption]).
  rewrite (substitute_det _ _ _ _ Hr (H3 Ns Fl)), (substitute_det _ _ _ _ Hr' (H3' Fs Nl)). apply Cn. apply rst_step. unfold linked. auto.
Qed.
Print Assumptions C48_constraints_hold_afterwards.

(** The hypotheses are met and the outcomes differ: 'b outlives 'a, 'c outlives 'static, 'd is outlived by a local. *)
Definition ex_c : constraints := [(2, 3); (Static, 4); (5, -7)].
Definition ex_all : list lifetime := [2; 3; 4; 5; 6].
Example ex_signature : signature ex_all.
Proof. split; [repeat constructor; cbn; intuition lia|]. intros l H. left. cbn in H. unfold is_variable. destruct H as [<-|[<-|[<-|[<-|[<-|[]]]]]]; reflexivity. Qed.
Example ex_static : outliving ex_c Static = Some [4].
Proof. reflexivity. Qed.
Example ex_succeeds : exists m, apply ex_c ex_all (Some m).
Proof.
  apply (C48_error_exactly_when_local_outlives_static ex_c ex_all ex_signature). intros (x & L & O).
  destruct (C33_outliving_is_transitive_closure ex_c Static) as (o & E & _ & H). rewrite ex_static in E. injection E as <-.
  assert (Hx : In x [4]) by (apply H; split; [intros ->; discriminate L|exact O]). destruct Hx as [<-|[]]. discriminate L.
Qed.
Example ex_fails : apply [(2, -5); (Static, 2)] [2] None.
Proof. eapply ApError; [reflexivity|now left|reflexivity]. Qed.
Example ex_forced : forced_static ex_c 4 /\ forced_local ex_c 5 /\ connected ex_c ex_all 2 3.
Proof.
  assert (G : forall l o, outliving ex_c l = Some o -> forall m, m <> l -> (outlives ex_c l m <-> In m o)).
  { intros l o E m N. destruct (C33_outliving_is_transitive_closure ex_c l) as (o' & E' & _ & H). assert (o' = o) by congruence. subst. rewrite H. tauto. }
  split; [apply rt_step; cbn; auto|]. split; [exists (-7); split; [reflexivity|split; [discriminate|apply rt_step; cbn; auto]]|].
  apply rst_step. split; [cbn; auto|]. split; [cbn; auto|]. split; [apply rt_step; cbn; auto|]. split.
  - intro F. unfold forced_static in F. apply (proj1 (G Static [4] eq_refl 3 ltac:(discriminate))) in F. destruct F as [F|[]]. discriminate F.
  - intros (x & L & N & O). apply (proj1 (G 2 [3] eq_refl x N)) in O. destruct O as [<-|[]]. discriminate L.
Qed.
