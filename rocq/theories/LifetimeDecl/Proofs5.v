(** Elision. *)
From Coq Require Import List NArith ZArith Ascii String Bool Lia.
From Verif.Lifetimes Require Import Model.
From Verif.FnLifetimes Require Import Model.
From Verif.FnLifetimes Require Spec Proofs.
From Verif.LifetimeDecl Require Import Model Spec Proofs Proofs2 Proofs3 Proofs4.
Import ListNotations.
Local Open Scope list_scope.

Lemma trav_lifetimes :
  (forall v va, map fst (trav_v va v) = FnLifetimes.Spec.lifetimes_v v) /\
  (forall o va, map fst (trav_o va o) = FnLifetimes.Spec.lifetimes_o o) /\
  (forall a va, map fst (trav_args va a) = FnLifetimes.Spec.lifetimes_args a) /\
  (forall f, map fst (trav_f f) = FnLifetimes.Spec.lifetimes_f f).
Proof.
  apply FnLifetimes.Proofs.tree_ind; intros; cbn [trav_v trav_o trav_args trav_f FnLifetimes.Spec.lifetimes_v FnLifetimes.Spec.lifetimes_o FnLifetimes.Spec.lifetimes_args FnLifetimes.Spec.lifetimes_f];
    rewrite ?map_app, ?map_map; cbn [map fst]; auto; repeat match goal with H : _ |- _ => rewrite H end; auto.
Qed.
Lemma to_traverse_counts o x : In x (to_traverse o) <-> counts o x.
Proof.
  assert (Q : forall v, (forall q l f, v <> VPtr q l (VFun f)) -> (In x (map fst (trav_v Covariant v)) <-> counts (OSome v) x)).
  { intros v H. rewrite (proj1 trav_lifetimes). split; [intro I; now apply counts_other|]. intro C. inversion C; subst; [exfalso; eapply H; reflexivity|assumption]. }
  destruct o as [|v]; [split; [intros []|intro C; inversion C]|]. destruct v as [q|q l v|q ta lps|f].
  - apply Q. discriminate.
  - destruct v as [q'|q' l' v'|q' ta lps|f]; [apply Q; discriminate|apply Q; discriminate|apply Q; discriminate|].
    unfold to_traverse. rewrite (proj1 trav_lifetimes). cbn [FnLifetimes.Spec.lifetimes_v]. split; [apply counts_fun|]. intro C. inversion C as [? ? ? ? I|? ? H ?]; subst; [exact I|].
    exfalso. eapply H. reflexivity.
  - apply Q. discriminate.
  - apply Q. discriminate.
Qed.
Lemma input_counts ps x : In x (input_lifetimes ps) <-> counts_any ps x.
Proof.
  induction ps as [|o r IH]; cbn [input_lifetimes]; [split; [intros []|intro C; inversion C]|].
  rewrite in_app_iff, to_traverse_counts, IH. split; [intros [H|H]; [now apply counts_here|now apply counts_later]|]. intro C. inversion C; subst; auto.
Qed.
Lemma single_spec th ps l : (th = ONone \/ exists q l v, th = OSome (VPtr q l v)) -> (single_input th ps = Some l <-> elided th ps l).
Proof.
  intros [->|(q & l' & v & ->)].
  - unfold single_input. split.
    + intro E. destruct (nodup Z.eq_dec (input_lifetimes ps)) as [|a [|b r]] eqn:N; try discriminate. injection E as ->.
      assert (K : forall x, counts_any ps x <-> x = l).
      { intro x. rewrite <- input_counts, <- (nodup_In Z.eq_dec), N. cbn [In]. split; [intros [H|[]]; auto|auto]. }
      apply elided_param; [now apply K|]. intros x H. now apply K.
    + intro C. inversion C as [|? ? H U]; subst.
      assert (K : forall x, In x (nodup Z.eq_dec (input_lifetimes ps)) <-> x = l).
      { intro x. rewrite nodup_In, input_counts. split; [apply U|intros ->; exact H]. }
      pose proof (NoDup_nodup Z.eq_dec (input_lifetimes ps)) as D. destruct (nodup Z.eq_dec (input_lifetimes ps)) as [|a [|b r]].
      * exfalso. exact (proj2 (K l) eq_refl).
      * f_equal. apply K. now left.
      * exfalso. inversion D as [|? ? D1 _]; subst. apply D1. left. rewrite (proj1 (K a) (or_introl eq_refl)). apply K. right. now left.
  - cbn [single_input]. split; [intro E; injection E as ->; apply elided_this|]. intro C. inversion C; subst. reflexivity.
Qed.

(** ** States whose lifetimes are older than the counter *)
Definition older (t : table) (c : Z) : Prop :=
  (forall n l, In (n, l) (n2l t) -> (l < c)%Z) /\ (forall l n, In (l, n) (l2n t) -> (l < c)%Z) /\ (2 <= c)%Z.
Lemma older_name n t c l t' c' : older t c -> lifetime_for n t c = (l, t', c') -> older t' c' /\ (l < c')%Z /\ (c <= c')%Z.
Proof.
  intros (A & B & C) E. unfold lifetime_for in E. destruct (text_eqb n static_name).
  { injection E as <- <- <-. unfold Static. split; [repeat split; auto|lia]. }
  destruct (find_name n (n2l t)) as [x|] eqn:F; injection E as <- <- <-.
  { apply find_name_in in F. apply A in F. split; [repeat split; auto|lia]. }
  split; [|lia]. split; [|split; [|lia]]; cbn [n2l l2n].
  - intros m x [E|I]; [injection E as <- <-; lia|apply A in I; lia].
  - intros m x [E|I]; [injection E as <- <-; lia|apply B in I; lia].
Qed.
Lemma name_for_fresh t c : older t c -> exists n, word n /\ ~ In n (map fst (n2l t)) /\
  snd (name_for c t) = Table ((n, c) :: n2l t) ((c, n) :: l2n t) (next (snd (name_for c t))).
Proof.
  intros (A & B & C). assert (N : c <> Static) by (unfold Static; lia).
  assert (F : find_lifetime c (l2n t) = None).
  { apply find_lifetime_none. intro I. apply in_fst_ex in I. destruct I as (n & I). apply B in I. lia. }
  destruct (name_for_new t c N F) as (i & E & _ & H & _). exists (name_from_index i). split; [apply name_place|]. split; [exact H|]. rewrite E. reflexivity.
Qed.
Lemma older_new t c : older t c -> older (snd (name_for c t)) (c + 1).
Proof.
  intro O. destruct (name_for_fresh t c O) as (n & _ & _ & ->). destruct O as (A & B & C). split; [|split; [|lia]]; cbn [n2l l2n].
  - intros m x [E|I]; [injection E as <- <-; lia|apply A in I; lia].
  - intros m x [E|I]; [injection E as <- <-; lia|apply B in I; lia].
Qed.
Lemma new_keeps t c m x : older t c -> lookup_name t m = Some x -> lookup_name (snd (name_for c t)) m = Some x.
Proof. intros _ E. destruct (name_for c t) as [n t'] eqn:F. exact (name_for_keeps t c n t' m x F E). Qed.
Lemma new_only t c m : older t c -> lookup_name (snd (name_for c t)) m = Some c -> word m /\ lookup_name t m = None.
Proof.
  intro O. destruct (name_for_fresh t c O) as (n & W & F & ->). unfold lookup_name. cbn [n2l find_name].
  destruct (text_eqb m static_name); [intro E; injection E as E; destruct O as (_ & _ & O); unfold Static in E; lia|].
  destruct (text_eqb_spec m n) as [->|_]; [intros _; split; [exact W|now apply find_name_none]|].
  intro E. apply find_name_in in E. apply (proj1 O) in E. lia.
Qed.
Lemma new_inv t c m x : older t c -> lookup_name (snd (name_for c t)) m = Some x -> lookup_name t m = Some x \/ x = c.
Proof.
  intro O. destruct (name_for_fresh t c O) as (n & W & F & ->). unfold lookup_name. cbn [n2l find_name].
  destruct (text_eqb m static_name); [auto|]. destruct (text_eqb_spec m n) as [->|_]; [|auto]. intro E. injection E as <-. auto.
Qed.

Lemma uses_older t c : uses t c -> older t c.
Proof.
  induction 1 as [c C|t c n l t' c' U IH E|t c l n t' U IH L E|t c n l t' U IH L S N F E|t c U IH].
  - split; [intros ? ? []|]. split; [intros ? ? []|exact C].
  - exact (proj1 (older_name n t c l t' c' IH E)).
  - unfold name_for in E. destruct (Z.eqb l Static); [injection E as <- <-; exact IH|].
    destruct (find_lifetime l (l2n t)); injection E as <- <-; [exact IH|]. destruct IH as (A & B & C). split; [|split; [|exact C]]; cbn [n2l l2n].
    + intros m x [E|I]; [injection E as <- <-; exact L|exact (A _ _ I)].
    + intros m x [E|I]; [injection E as <- <-; exact L|exact (B _ _ I)].
  - unfold add_name in E. destruct (find_name n (n2l t)); [discriminate|]. injection E as <-. destruct IH as (A & B & C). split; [|split; [|exact C]]; cbn [n2l l2n].
    + intros m x [E|I]; [injection E as <- <-; exact L|exact (A _ _ I)].
    + intros m x [E|I]; [injection E as <- <-; exact L|exact (B _ _ I)].
  - destruct IH as (A & B & C). split; [|split; [|lia]]; [intros n l I; apply A in I; lia|intros n l I; apply B in I; lia].
Qed.

(** ** Inputs *)
Definition lifetime_of_slot (st st' : state) (n : option text) (l : lifetime) : Prop :=
  match n with Some n => lookup_name (tab st') n = Some l | None => (counter st <= l < counter st')%Z end.
Definition keeps (st st' : state) : Prop :=
  (forall n l, lookup_name (tab st) n = Some l -> lookup_name (tab st') n = Some l) /\ (counter st <= counter st')%Z.
Lemma keeps_refl st : keeps st st. Proof. split; [auto|lia]. Qed.
Lemma keeps_trans a b c : keeps a b -> keeps b c -> keeps a c.
Proof. intros (A & B) (C & D). split; [auto|lia]. Qed.
Definition ok_state (st : state) : Prop := older (tab st) (counter st).
(** The source gives a written name its lifetime. *)
Lemma from_name_spec n st : ok_state st -> exists l st1, from_name n st = Ok (l, st1) /\ ok_state st1 /\ keeps st st1 /\
  lookup_name (tab st1) n = Some l /\ (l < counter st1)%Z /\ (uses (tab st) (counter st) -> uses (tab st1) (counter st1)) /\
  (forall m x, lookup_name (tab st1) m = Some x -> lookup_name (tab st) m = Some x \/ (counter st <= x)%Z).
Proof.
  intro O. unfold from_name. destruct (lifetime_for n (tab st) (counter st)) as [[l t] c] eqn:E. exists l, (State t c). split; [reflexivity|].
  destruct (older_name _ _ _ _ _ _ O E) as (O' & L & C). destruct (lifetime_for_spec _ _ _ _ _ _ E) as (A & B1 & B2 & B3).
  split; [exact O'|]. split; [split; [exact B1|exact C]|]. split; [exact A|]. split; [exact L|]. split; [intro U; exact (u_name _ _ _ _ _ _ U E)|].
  intros m x H. destruct (B2 m x H) as [?|(_ & ?)]; [auto|right; cbn in *; lia].
Qed.
Lemma from_none_spec elision dtor st : ok_state st -> elision = true \/ dtor = true -> exists st1,
  param_factory elision dtor None st = Ok (counter st, st1) /\ ok_state st1 /\ keeps st st1 /\ counter st1 = (counter st + 1)%Z /\
  (uses (tab st) (counter st) -> uses (tab st1) (counter st1)) /\
  (forall m, lookup_name (tab st1) m = Some (counter st) -> word m /\ lookup_name (tab st) m = None) /\
  (forall m x, lookup_name (tab st1) m = Some x -> lookup_name (tab st) m = Some x \/ x = counter st).
Proof.
  intros O H. exists (State (snd (name_for (counter st) (tab st))) (counter st + 1)). split.
  { unfold param_factory. destruct H as [->| ->]; [reflexivity|now rewrite Bool.andb_false_r]. }
  split; [exact (older_new _ _ O)|]. split; [split; [intros m x; apply (new_keeps _ _ m x O)|cbn; lia]|]. split; [reflexivity|]. cbn [tab counter].
  split; [|split; [intros m; apply (new_only _ _ m O)|intros m x; apply (new_inv _ _ m x O)]].
  intro U. destruct (name_for (counter st) (tab st)) as [n t'] eqn:E. apply (u_lifetime _ _ (counter st) n _ (u_new _ _ U)); [lia|exact E].
Qed.

Lemma supply_inputs elision dtor : forall slots st, ok_state st -> elision = true \/ dtor = true \/ ~ In None slots ->
  exists ls st', supply (param_factory elision dtor) slots st = Ok (ls, st') /\ ok_state st' /\ keeps st st' /\
    Forall2 (lifetime_of_slot st st') slots ls /\ (uses (tab st) (counter st) -> uses (tab st') (counter st')).
Proof.
  induction slots as [|o slots IH]; intros st O H; cbn [supply].
  - exists [], st. split; [reflexivity|]. split; [exact O|]. split; [apply keeps_refl|]. split; [constructor|auto].
  - assert (Step : exists l st1, param_factory elision dtor o st = Ok (l, st1) /\ ok_state st1 /\ keeps st st1 /\
      (uses (tab st) (counter st) -> uses (tab st1) (counter st1)) /\ lifetime_of_slot st st1 o l).
    { destruct o as [n|].
      - destruct (from_name_spec n st O) as (l & st1 & A & B & C & D & _ & E & _). exists l, st1. auto.
      - destruct (from_none_spec elision dtor st O) as (st1 & A & B & C & D & E & _); [destruct H as [?|[?|H]]; auto; exfalso; apply H; now left|].
        exists (counter st), st1. split; [exact A|]. split; [exact B|]. split; [exact C|]. split; [exact E|]. cbn. lia. }
    destruct Step as (l & st1 & -> & O1 & K1 & U1 & L1). destruct (IH st1 O1) as (ls & st' & -> & O' & K' & F & U').
    { destruct H as [?|[?|H]]; auto. right. right. intro I. apply H. now right. }
    exists (l :: ls), st'. split; [reflexivity|]. split; [exact O'|]. split; [exact (keeps_trans _ _ _ K1 K')|]. split; [|auto]. destruct K1 as (K1 & K1'), K' as (K' & K''). constructor.
    + destruct o; cbn in *; [auto|lia].
    + refine (forall2_imp _ _ _ _ _ F). intros [n|] x; cbn; [auto|lia].
Qed.
Lemma supply_inputs_refused : forall slots st, ok_state st -> In None slots ->
  supply (param_factory false false) slots st = Err ElisionNotEnabled.
Proof.
  induction slots as [|o slots IH]; intros st O I; [destruct I|]. cbn [supply]. destruct o as [n|]; [|reflexivity].
  destruct I as [I|I]; [discriminate|]. destruct (from_name_spec n st O) as (l & st1 & A & B & _). cbn [param_factory]. rewrite A. now rewrite IH.
Qed.

(** ** Lifetimes that are not written are distinct from all others *)
Lemma distinct_inputs elision dtor (W : text -> Prop) : forall slots st ls st', ok_state st ->
  (forall n, In (Some n) slots -> W n) -> (forall n, W n -> lookup_name (tab st) n <> None \/ ~ word n) ->
  supply (param_factory elision dtor) slots st = Ok (ls, st') ->
  (forall i j l, nth_error slots i = Some None -> nth_error ls i = Some l -> i <> j -> nth_error ls j <> Some l) /\
  (forall x, (x < counter st)%Z -> (forall n, W n -> lookup_name (tab st) n <> Some x) ->
     ~ In x ls /\ forall n, W n -> lookup_name (tab st') n <> Some x).
Proof.
  induction slots as [|o slots IH]; intros st ls st' O HW HC E; cbn [supply] in E.
  { injection E as <- <-. split; [intros i j l H; destruct i; discriminate|]. intros x X H. split; [intros []|exact H]. }
  destruct (param_factory elision dtor o st) as [[l st1]|] eqn:E1; [|discriminate].
  destruct (supply (param_factory elision dtor) slots st1) as [[ls1 st2]|] eqn:E2; [|discriminate]. injection E as <- <-.
  assert (HW' : forall n, In (Some n) slots -> W n) by (intros n I; apply HW; now right).
  assert (Later : ok_state st1 -> forall i x, nth_error slots i = Some None -> nth_error ls1 i = Some x -> (counter st1 <= x)%Z).
  { intros O1 i x Hi Hx. assert (P : elision = true \/ dtor = true \/ ~ In None slots).
    { destruct elision; [auto|]. destruct dtor; [auto|]. right. right. intro I. rewrite (supply_inputs_refused slots st1 O1 I) in E2. discriminate. }
    destruct (supply_inputs elision dtor slots st1 O1 P) as (ls' & st'' & E2' & _ & _ & F & _). rewrite E2 in E2'. injection E2' as <- <-.
    clear - F Hi Hx. revert i Hi Hx. induction F as [|a b la lb R F IHF]; intros i Hi Hx; [destruct i; discriminate|].
    destruct i as [|i]; cbn in Hi, Hx; [injection Hi as ->; injection Hx as <-; cbn in R; lia|exact (IHF i Hi Hx)]. }
  destruct o as [n|].
  - destruct (from_name_spec n st O) as (l' & st1' & A & O1 & (K1 & K2) & D & L & _ & Inv). cbn [param_factory] in E1. rewrite A in E1. injection E1 as -> ->.
    assert (HC' : forall m, W m -> lookup_name (tab st1) m <> None \/ ~ word m).
    { intros m w. destruct (HC m w) as [H|H]; [|auto]. left. destruct (lookup_name (tab st) m) as [y|] eqn:Y; [|congruence]. rewrite (K1 m y Y). discriminate. }
    destruct (IH st1 ls1 st2 O1 HW' HC' E2) as (IH1 & IH2). split.
    + intros i j x Hi Hx Ne. destruct i as [|i]; [discriminate|]. cbn in Hi, Hx. destruct j as [|j]; cbn.
      * intro Q. injection Q as ->. pose proof (Later O1 i x Hi Hx). lia.
      * apply (IH1 i j x Hi Hx). congruence.
    + intros x X H. destruct (IH2 x) as (I1 & I2); [lia|intros m w Q; destruct (Inv m x Q) as [Y|Y]; [exact (H m w Y)|lia]|].
      split; [|exact I2]. intros [Q|I]; [|exact (I1 I)]. subst x. destruct (Inv n l D) as [Y|Y]; [exact (H n (HW n (or_introl eq_refl)) Y)|lia].
  - assert (P : elision = true \/ dtor = true) by (destruct elision; [auto|destruct dtor; [auto|discriminate]]).
    destruct (from_none_spec elision dtor st O P) as (st1' & A & O1 & (K1 & K2) & C1 & _ & On & Inv). rewrite A in E1. injection E1 as <- <-.
    assert (HC' : forall m, W m -> lookup_name (tab st1') m <> None \/ ~ word m).
    { intros m w. destruct (HC m w) as [H|H]; [|auto]. left. destruct (lookup_name (tab st) m) as [y|] eqn:Y; [|congruence]. rewrite (K1 m y Y). discriminate. }
    destruct (IH st1' ls1 st2 O1 HW' HC' E2) as (IH1 & IH2). split.
    + intros i j x Hi Hx Ne. destruct i as [|i]; cbn in Hi, Hx.
      * injection Hx as <-. destruct j as [|j]; [congruence|]. cbn. intro Q. apply nth_error_In in Q. revert Q. apply IH2; [lia|].
        intros m w Q. destruct (On m Q) as (Wd & No). destruct (HC m w) as [H|H]; [congruence|contradiction].
      * destruct j as [|j]; cbn; [intro Q; injection Q as Q; pose proof (Later O1 i x Hi Hx); lia|]. apply (IH1 i j x Hi Hx). congruence.
    + intros x X H. destruct (IH2 x) as (I1 & I2); [lia|intros m w Q; destruct (Inv m x Q) as [Y|Y]; [exact (H m w Y)|lia]|].
      split; [|exact I2]. intros [Q|I]; [lia|exact (I1 I)].
Qed.

(** ** Results *)
Lemma supply_outputs elision th ps : forall slots st, ok_state st ->
  ~ In None slots \/ (elision = true /\ exists l, single_input th ps = Some l) ->
  exists ls st', supply (return_factory elision th ps) slots st = Ok (ls, st') /\ ok_state st' /\ keeps st st' /\
    Forall2 (fun o l => match o with Some n => lookup_name (tab st') n = Some l | None => single_input th ps = Some l end) slots ls /\
    (uses (tab st) (counter st) -> uses (tab st') (counter st')).
Proof.
  induction slots as [|o slots IH]; intros st O H; cbn [supply].
  - exists [], st. split; [reflexivity|]. split; [exact O|]. split; [apply keeps_refl|]. split; [constructor|auto].
  - assert (Step : exists l st1, return_factory elision th ps o st = Ok (l, st1) /\ ok_state st1 /\ keeps st st1 /\
      (uses (tab st) (counter st) -> uses (tab st1) (counter st1)) /\ match o with Some n => lookup_name (tab st1) n = Some l | None => single_input th ps = Some l end).
    { destruct o as [n|].
      - destruct (from_name_spec n st O) as (l & st1 & A & B & C & D & _ & E & _). exists l, st1. auto.
      - destruct H as [H|(-> & l & S)]; [exfalso; apply H; now left|]. exists l, st. cbn [return_factory negb]. rewrite S. split; [reflexivity|].
        split; [exact O|]. split; [apply keeps_refl|]. auto. }
    destruct Step as (l & st1 & -> & O1 & K1 & U1 & L1). destruct (IH st1 O1) as (ls & st' & -> & O' & K' & F & U').
    { destruct H as [H|?]; [|auto]. left. intro I. apply H. now right. }
    exists (l :: ls), st'. split; [reflexivity|]. split; [exact O'|]. split; [exact (keeps_trans _ _ _ K1 K')|]. split; [|auto]. constructor; [|exact F].
    destruct o; [|exact L1]. now apply K'.
Qed.
Lemma supply_outputs_refused elision th ps : forall slots st, ok_state st -> In None slots -> elision = false \/ single_input th ps = None ->
  supply (return_factory elision th ps) slots st = Err (if elision then CannotElideOutputLifetimes else ElisionNotEnabled).
Proof.
  induction slots as [|o slots IH]; intros st O I H; [destruct I|]. cbn [supply]. destruct o as [n|].
  - destruct I as [I|I]; [discriminate|]. destruct (from_name_spec n st O) as (l & st1 & A & B & _). cbn [return_factory]. rewrite A. now rewrite (IH st1 B I H).
  - cbn [return_factory]. destruct elision; [|reflexivity]. destruct H as [H|H]; [discriminate|]. cbn [negb]. now rewrite H.
Qed.

Lemma this_shape t th la : FitsThis t th la -> th = ONone \/ exists q l v, th = OSome (VPtr q l v).
Proof. intro F. inversion F; subst; [auto|]. right. now exists false, l, v. Qed.
