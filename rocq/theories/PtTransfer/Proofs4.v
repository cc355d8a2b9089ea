(** Histories of the analysis: what ends up behind a pointer that is never overwritten. *)
From Coq Require Import List Arith ZArith Bool Lia.
From Verif.Lifetimes Require Model.
From Verif.PointsTo Require Import Model Spec Proofs.
From Verif.PtTransfer Require Import Model Spec Proofs Proofs3.
Import ListNotations.
Local Open Scope Z_scope.

(** * Well-formed maps *)
Lemma wf_pwf m : well_formed m <-> pwf m. Proof. reflexivity. Qed.
Lemma entry_nodup m x s : pwf m -> entry m x = Some s -> NoDup s.
Proof.
  intros [A B] E. destruct x as [p|e]; cbn in E.
  - eapply (lookup_nodup Z.eqb Z.eqb_eq); eauto.
  - eapply (lookup_nodup expr_eqb expr_eqb_spec); eauto.
Qed.
Lemma pwf_set_expr m e s : pwf m -> NoDup s -> pwf (set_expr m e s).
Proof. intros [A B] N. split; [exact A|]. cbn. apply update_wf; [exact expr_eqb_spec|exact B|auto]. Qed.
Lemma pwf_extend m p s : pwf m -> pwf (extend m p s).
Proof. intros [A B]. split; [|exact B]. cbn. apply update_wf; [exact Z.eqb_eq|exact A|]. intros. apply add_all_nodup. assumption. Qed.
Lemma pwf_extend_all ns ps : forall m, pwf m -> pwf (extend_all m ps ns).
Proof. unfold extend_all. induction ps as [|p ps IH]; intros m W; cbn [fold_left]; [exact W|]. apply IH. apply pwf_extend. exact W. Qed.
Lemma get_expr_nodup m e s : pwf m -> get_expr m e = Some s -> NoDup s.
Proof. intros W E. unfold get_expr in E. apply (entry_nodup m (Expr (match e with Paren sub => sub | _ => e end)) s W). exact E. Qed.
Lemma get_nodup m p : pwf m -> NoDup (get m p).
Proof. intros W. unfold get. destruct (lookup Z.eqb p (pointers m)) eqn:E; [|constructor]. apply (entry_nodup m (Pointer p) o W E). Qed.
Lemma map_objects_nodup f s : forall acc r, map_objects f s acc = Done r -> NoDup acc -> NoDup r.
Proof.
  induction s as [|x s IH]; intros acc r E N; cbn [map_objects] in E; [congruence|].
  apply bind_done in E. destruct E as (y & Ey & E). eapply IH; eauto. apply add1_nodup. exact N.
Qed.
Lemma union_inits_nodup m l : forall acc r, union_inits m l acc = Done (Some r) -> NoDup acc -> NoDup r.
Proof.
  induction l as [|[e b] l IH]; intros acc r E N; cbn [union_inits] in E; [congruence|]. destruct b; [|discriminate].
  apply bind_done in E. destruct E as (s & Es & E). eapply IH; eauto. apply add_all_nodup. exact N.
Qed.
Lemma nodup1 (x : object) : NoDup [x]. Proof. constructor; [intros []|constructor]. Qed.

Section History.
Variables (R : repo) (P : program) (m0 : pmap) (c0 : Lifetimes.Model.constraints) (sv0 : oset).
Notation safe o := (kept R P sv0 o).
(** What is known of a kept pointer. *)
Definition bounded (m : pmap) (c : Lifetimes.Model.constraints) : Prop :=
  pwf m /\ forall o, safe o ->
    (forall x, points m0 (Pointer o) x -> points m (Pointer o) x) /\
    (forall n, points m (Pointer o) n -> points m0 (Pointer o) n \/ forall x q, points m0 (Pointer o) x -> replaces R x n q -> In q c).
Lemma bounded_more m c c' : bounded m c -> incl c c' -> bounded m c'.
Proof.
  intros [W H] I. split; [exact W|]. intros o Ho. destruct (H o Ho) as [A B]. split; [exact A|]. intros n Hn. destruct (B n Hn) as [K|K]; [auto|]. right. intros. apply I. eauto.
Qed.
Lemma bounded_set_expr m c i s : bounded m c -> NoDup s -> bounded (set_expr m (Leaf i) s) c.
Proof.
  intros [W H] N. split; [apply pwf_set_expr; assumption|]. intros o Ho. destruct (H o Ho) as [A B]. split.
  - intros x Hx. apply points_set_expr. right. split; [discriminate|auto].
  - intros n Hn. apply points_set_expr in Hn. destruct Hn as [[E _]|[_ Hn]]; [discriminate|auto].
Qed.
Lemma bounded_set m c p s : bounded m c -> NoDup s -> ~ safe p -> bounded (set m p s) c.
Proof.
  intros [W H] N Np. split; [apply set_wf; assumption|]. intros o Ho. destruct (H o Ho) as [A B]. assert (D : Pointer o <> Pointer p) by congruence. split.
  - intros x Hx. apply points_set. right. auto.
  - intros n Hn. apply points_set in Hn. destruct Hn as [[E _]|[_ Hn]]; [congruence|auto].
Qed.
Lemma bounded_extension fuel m c ps ns t m' c' : bounded m c -> points_somewhere t -> extension R fuel ps ns t m c = Done (m', c') ->
  bounded m' c' /\ incl c c'.
Proof.
  intros [W H] Ht E. unfold extension in E. destruct (is_record t); [discriminate|]. apply bind_done in E. destruct E as (c1 & Ec & E). injection E as <- <-.
  pose proof (proj1 (assignment_only R _ _ _ _ _ _ _ Ec)) as I. split; [|exact I]. split; [apply pwf_extend_all; exact W|].
  intros o Ho. destruct (H o Ho) as [A B]. split.
  - intros x Hx. apply points_extend_all. auto.
  - intros n Hn. apply points_extend_all in Hn. destruct Hn as [Hn|(p & Ip & [= <-] & In_)].
    + destruct (B n Hn) as [K|K]; [auto|]. right. intros. apply I. eauto.
    + right. intros x q Hx Hr. eapply (assignment_root R fuel m ps ns t c c1 o n x q); eauto.
Qed.
Ltac sub := match goal with
  | H : bind _ _ = Done _ |- _ => let a := fresh "o" in let E := fresh "E" in apply bind_done in H; destruct H as (a & E & H); try apply found_done in E
  end.
(** Initializers.  With [keep = false] the parts of the destination are overwritten. *)
Section InitInd.
Variable Q : init -> Prop.
Hypothesis QE : forall e, Q (IExpr e).
Hypothesis QL : forall id l, (forall i, In i l -> Q i) -> Q (IList id l).
Fixpoint init_ind2 (i : init) : Q i :=
  match i with
  | IExpr e => QE e
  | IList id l => QL id l ((fix go (l : list init) : forall i, In i l -> Q i :=
      match l with
      | [] => fun i H => match H with end
      | x :: l' => fun i H => match H with or_introl E => eq_ind x Q (init_ind2 x) i E | or_intror H' => go l' i H' end
      end) l)
  end.
End InitInd.
Lemma init_one fuel dest t i keep m c m' c' : (keep = false -> ~ safe dest) -> points_somewhere t -> bounded m c ->
  (do s <- found (get_expr m (init_expr i)); if keep then extension R fuel [dest] s t m c else Done (set m dest s, c)) = Done (m', c') ->
  bounded m' c' /\ incl c c'.
Proof.
  intros Hk Ht B E. sub. destruct keep.
  - eapply bounded_extension; eauto.
  - injection E as <- <-. split; [|apply incl_refl]. apply bounded_set; [exact B| |apply Hk; reflexivity].
    eapply get_expr_nodup; eauto. exact (proj1 B).
Qed.
Lemma bounded_initializer fuel keep i : forall dest t m c m' c', (keep = false -> forall b, part R dest b -> ~ safe b) -> bounded m c ->
  initializer R fuel dest t i keep m c = Done (m', c') -> bounded m' c' /\ incl c c'.
Proof.
  induction i as [e|id l IH] using init_ind2; intros dest t m c m' c' Hk B E.
  - assert (Hd : keep = false -> ~ safe dest) by (intros K; apply (Hk K); apply PSelf).
    cbn [initializer] in E. set (t1 := match t with TArr t' => t' | _ => t end) in *. clearbody t1.
    destruct t1; try (injection E as <- <-; split; [exact B|apply incl_refl]).
    + eapply (init_one fuel dest (TPtr pointee_const t1) (IExpr e)); eauto. exists pointee_const, t1. auto.
    + eapply (init_one fuel dest (TRef pointee_const t1) (IExpr e)); eauto. exists pointee_const, t1. auto.
    + (* a record: the assertion *)
      sub. destruct keep.
      * unfold extension in E. discriminate.
      * injection E as <- <-. split; [|apply incl_refl]. apply bounded_set; [exact B| |auto]. eapply get_expr_nodup; eauto. exact (proj1 B).
  - assert (Hd : keep = false -> ~ safe dest) by (intros K; apply (Hk K); apply PSelf).
    cbn [initializer] in E. set (t1 := match t with TArr t' => t' | _ => t end) in *. clearbody t1.
    destruct t1; try (injection E as <- <-; split; [exact B|apply incl_refl]).
    + eapply (init_one fuel dest (TPtr pointee_const t1) (IList id l)); eauto. exists pointee_const, t1. auto.
    + eapply (init_one fuel dest (TRef pointee_const t1) (IList id l)); eauto. exists pointee_const, t1. auto.
    + clear t. revert E. generalize (fields R r). intros fs E.
      assert (G : forall l', (forall i, In i l' -> In i l) -> forall fs m c,  bounded m c ->
        (fix over (l : list (Z * ty)) (is_ : list init) m c {struct is_} :=
         match is_, l with
         | _, [] => Done (m, c)
         | i :: is', (f, ft) :: l' =>
             do d <- found (field_object R dest f);
             do (m, c) <- initializer R fuel d ft i keep m c; over l' is' m c
         | [], _ :: _ => Crash
         end) fs l' m c = Done (m', c') -> bounded m' c' /\ incl c c').
      { clear fs m c B E. induction l' as [|i l' IHl]; intros Hl fs m c B E.
        - destruct fs as [|[f ft] fs]; [injection E as <- <-; split; [exact B|apply incl_refl]|discriminate].
        - destruct fs as [|[f ft] fs]; [injection E as <- <-; split; [exact B|apply incl_refl]|].
          sub. rename o into d. apply bind_done in E. destruct E as ([m1 c1] & E1 & E).
          destruct (IH i (Hl i (or_introl eq_refl)) d ft m c m1 c1) as [B1 I1]; auto.
          { intros K b Hb. apply (Hk K). eapply PField; eauto. }
          destruct (IHl (fun i H => Hl i (or_intror H)) fs m1 c1 B1 E) as [B2 I2]. split; [exact B2|eapply incl_tran; eauto]. }
      apply (G l (fun i H => H) fs m c B E).
Qed.
Lemma bounded_decls fuel vars : (forall d t i, In (d, t, Some i) vars -> forall b, part R (decl_object R d) b -> ~ safe b) ->
  forall m c m' c', bounded m c -> decls R fuel vars m c = Done (m', c') -> bounded m' c' /\ incl c c'.
Proof.
  induction vars as [|[[d t] [i|]] vars IH]; intros Hd m c m' c' B E; cbn [decls] in E.
  - injection E as <- <-. split; [exact B|apply incl_refl].
  - apply bind_done in E. destruct E as ([m1 c1] & E1 & E).
    assert (K : bounded m1 c1 /\ incl c c1).
    { destruct (is_record t); [injection E1 as <- <-; split; [exact B|apply incl_refl]|].
      eapply bounded_initializer; eauto. intros _. apply (Hd d t i). left. reflexivity. }
    destruct K as [B1 I1]. destruct (IH (fun d t i H => Hd d t i (or_intror H)) m1 c1 m' c' B1 E) as [B2 I2]. split; [exact B2|eapply incl_tran; eauto].
  - apply (IH (fun d t i H => Hd d t i (or_intror H)) m c m' c' B E).
Qed.
Lemma bounded_arguments fuel id types shift args : forall i m c m' c', bounded m c -> arguments R fuel id types args i shift m c = Done (m', c') ->
  bounded m' c' /\ incl c c'.
Proof.
  induction args as [|a args IH]; intros i m c m' c' B E; cbn [arguments] in E.
  - injection E as <- <-. split; [exact B|apply incl_refl].
  - do 2 sub. apply bind_done in E. destruct E as ([m1 c1] & E3 & E).
    destruct (bounded_initializer fuel true a _ _ _ _ _ _ ltac:(discriminate) B E3) as [B1 I1].
    destruct (IH _ _ _ _ _ B1 E) as [B2 I2]. split; [exact B2|eapply incl_tran; eauto].
Qed.
Lemma join_incl c other : incl c (fst (Lifetimes.Model.join c other)).
Proof. intros q I. apply cjoin_in. auto. Qed.
Lemma bounded_one_callee fuel id args this_arg f op m c m' c' : points_somewhere (object_type R (call_this R id)) -> bounded m c ->
  one_callee R fuel id args this_arg f op m c = Done (m', c') -> bounded m' c' /\ incl c c'.
Proof.
  intros Ht B E. unfold one_callee in E. set (c1 := fst (Lifetimes.Model.join c _)) in *.
  assert (I0 : incl c c1) by apply join_incl. pose proof (bounded_more _ _ _ B I0) as B0. clearbody c1.
  apply bind_done in E. destruct E as ([m2 c2] & E1 & E).
  assert (K : bounded m2 c2 /\ incl c1 c2) by (destruct op; eapply bounded_arguments; eauto). destruct K as [B2 I2].
  cbv zeta in E. destruct (if op then match args with a :: _ => Some (init_expr a) | [] => None end else this_arg) as [e|].
  - apply bind_done in E. destruct E as (s & Es & E).
    destruct (bounded_extension fuel m2 c2 _ _ _ m' c' B2 Ht E) as [B3 I3]. split; [exact B3|]. eapply incl_tran; [exact I0|eapply incl_tran; eauto].
  - injection E as <- <-. split; [exact B2|eapply incl_tran; eauto].
Qed.
Lemma bounded_all_callees fuel id args this_arg l : points_somewhere (object_type R (call_this R id)) -> forall m c m' c', bounded m c ->
  all_callees R fuel id args this_arg l m c = Done (m', c') -> bounded m' c' /\ incl c c'.
Proof.
  intros Ht. induction l as [|[f op] l IH]; intros m c m' c' B E; cbn [all_callees] in E.
  - injection E as <- <-. split; [exact B|apply incl_refl].
  - apply bind_done in E. destruct E as ([m1 c1] & E1 & E). destruct (bounded_one_callee _ _ _ _ _ _ _ _ _ _ Ht B E1) as [B1 I1].
    destruct (IH _ _ _ _ B1 E) as [B2 I2]. split; [exact B2|eapply incl_tran; eauto].
Qed.
Lemma non_recursive_incl a b inv c : incl c (non_recursive R a b inv c).
Proof. intros q I. apply non_recursive_in. auto. Qed.
Lemma equality_incl m fuel : forall a b t c c', equality R fuel m a b t c = Done c' -> incl c c'.
Proof.
  induction fuel as [|fuel IH]; intros a b t c c' E; [discriminate|]. cbn [equality] in E.
  set (c1 := non_recursive R a b true c) in *. assert (I0 : incl c c1) by apply non_recursive_incl. clearbody c1.
  assert (P' : (match pointee_of t with Some (_, t') => equality R fuel m (get_many m a) (get_many m b) t' c1 | None => Done c1 end) = Done c' -> incl c c').
  { destruct (pointee_of t) as [[k t']|]; [intros H; apply IH in H; eapply incl_tran; eauto|intros [= <-]; exact I0]. }
  destruct t; try (apply P'; exact E). clear P'. apply bind_done in E. destruct E as (c2 & E1 & E).
  assert (I1 : incl c1 c2).
  { clear E I0. revert c1 E1. induction (fields R r) as [|[f ft] l IHl]; intros c1 E1; [injection E1 as <-; apply incl_refl|].
    do 3 sub. apply IH in E2. eapply incl_tran; [exact E2|]. apply (IHl _ E1). }
  assert (I2 : incl c2 c').
  { clear E1 I1 I0. revert c2 E. induction (bases R r) as [|f l IHl]; intros c2 E; [injection E as <-; apply incl_refl|].
    do 3 sub. apply IH in E2. eapply incl_tran; [exact E2|]. apply (IHl _ E). }
  eapply incl_tran; [exact I0|eapply incl_tran; eauto].
Qed.

Lemma bounded_visit fuel n m c sv o : this_is_pointer R P -> bounded m c -> incl sv sv0 -> visit R fuel (element P n) (m, c, sv) = Done o ->
  match o with Go (m', c', sv') => bounded m' c' /\ incl c c' /\ sv' = sv | Stop _ => True end.
Proof.
  intros Hthis B Isv E. specialize (Hthis n).
  assert (Ns : forall vars d t i, element P n = DeclStmt vars -> In (d, t, Some i) vars -> forall b, part R (decl_object R d) b -> ~ safe b).
  { intros vars d t i En I b Hb [_ K]. exact (K n vars d t i En I Hb). }
  assert (Nsv : forall x, In x sv -> ~ safe x) by (intros x I [K _]; apply K; apply Isv; exact I).
  assert (Same : match Go (m, c, sv) with Go (m', c', sv') => bounded m' c' /\ incl c c' /\ sv' = sv | Stop _ => True end) by (split; [exact B|split; [apply incl_refl|reflexivity]]).
  assert (Set_ : forall i s, NoDup s -> match Go (set_expr m (Leaf i) s, c, sv) with Go (m', c', sv') => bounded m' c' /\ incl c c' /\ sv' = sv | Stop _ => True end).
  { intros i s N. split; [apply bounded_set_expr; assumption|split; [apply incl_refl|reflexivity]]. }
  pose proof (proj1 B) as W.
  assert (GN : forall e s, get_expr m e = Some s -> NoDup s) by (intros; eapply get_expr_nodup; eauto).
  destruct (element P n) as [id [[d [|]]|]|id|[| | | | |] id e ptr gl|e t|vars|op id e tracked|id e|id e1 e2 t|id e1 e2 lp rp|id e1 e2 tracked|id l|id t l|id e b|id e [f [|]|d| |]|id|id cl args th v|id cl args t|[msg|]];
    unfold visit in E; repeat match type of E with bind _ _ = Done _ => sub end.
  1-4: try (injection E as <-; first [exact Same | apply Set_; first [apply nodup1 | apply get_nodup; exact W]]).
  1: { destruct ptr; [sub; injection E as <-; apply Set_; apply get_many_nodup; exact W|injection E as <-; exact Same]. }
  1: { injection E as <-. apply Set_. constructor. }
  1: { destruct (ptr || gl); [sub; injection E as <-; apply Set_; eauto|injection E as <-; exact Same]. }
  1: { injection E as <-. apply Set_. eauto. }
  1: { injection E as <-. exact Logic.I. }
  1: { destruct (gl || ptr); [discriminate|injection E as <-; exact Same]. }
  1: { destruct (pointee_of t); [|injection E as <-; exact Same]. do 3 sub. injection E as <-.
       pose proof (proj1 (assignment_only R _ _ _ _ _ _ _ E2)) as I. split; [eapply bounded_more; eauto|split; [exact I|reflexivity]]. }
  1: { destruct (decls R fuel vars m c) as [| |[m' c']] eqn:Ed; try discriminate. injection E as <-.
       destruct (bounded_decls fuel vars (fun d t i H => Ns vars d t i eq_refl H) m c m' c' B Ed) as [B1 I1]. split; [exact B1|split; [exact I1|reflexivity]]. }
  1: { destruct tracked; [|injection E as <-; exact Same]. sub. destruct op; injection E as <-; first [exact Same | apply Set_; first [solve [eauto] | apply get_many_nodup; exact W]]. }
  1: { injection E as <-. apply Set_. eauto. }
  1: { pose proof (bounded_set_expr m c id o0 B (GN _ _ E0)) as B1. destruct (is_ptr t) eqn:Ep.
       - sub. destruct (Nat.eqb (length o0) 1 && forallb (contains sv) o0) eqn:Es.
         + injection E as <-. apply andb_true_iff in Es. destruct Es as [_ Ef]. split; [|split; [apply incl_refl|reflexivity]].
           assert (Nr : NoDup o1) by (eapply get_expr_nodup; [exact (proj1 B1)|eauto]).
           clear E0 E1 Same. unfold set_many. revert B1. generalize (set_expr m (Leaf id) o0). induction o0 as [|p ps IHp]; intros m1 B1; cbn [fold_left]; [exact B1|].
           cbn [forallb] in Ef. apply andb_true_iff in Ef. destruct Ef as [Ep1 Ef]. apply IHp; [exact Ef|]. apply bounded_set; [exact B1|exact Nr|]. apply Nsv. apply contains_spec. exact Ep1.
         + destruct (extension R fuel o0 o1 t (set_expr m (Leaf id) o0) c) as [| |[m' c']] eqn:Ee; try discriminate. injection E as <-.
           assert (Ht : points_somewhere t) by (destruct t; try discriminate; eexists; eexists; left; reflexivity).
           destruct (bounded_extension _ _ _ _ _ _ _ _ B1 Ht Ee) as [B2 I2]. split; [exact B2|split; [exact I2|reflexivity]].
       - injection E as <-. split; [exact B1|split; [apply incl_refl|reflexivity]]. }
  1: { destruct (xorb lp rp); [sub; injection E as <-; apply Set_; eauto|injection E as <-; exact Same]. }
  1: { destruct tracked; [|injection E as <-; exact Same]. do 2 sub. injection E as <-. apply Set_. apply add_all_nodup.
       destruct (has_expr m e1); [apply found_done in E0; eauto|injection E0 as <-; constructor]. }
  1: { destruct o0 as [s|]; [|injection E as <-; exact Same]. injection E as <-. apply Set_. eapply union_inits_nodup; eauto. constructor. }
  1: { destruct (initializer R fuel (result_object R id) t (IList id l) true m c) as [| |[m' c']] eqn:Ei; try discriminate. injection E as <-.
       destruct (bounded_initializer fuel true _ _ _ _ _ _ _ ltac:(discriminate) B Ei) as [B1 I1]. split; [exact B1|split; [exact I1|reflexivity]]. }
  1: { injection E as <-. apply Set_. apply nodup1. }
  1: { injection E as <-. apply Set_. apply get_many_nodup. exact W. }
  1: { injection E as <-. apply Set_. eapply map_objects_nodup; [eassumption|constructor]. }
  1: { injection E as <-. apply Set_. apply nodup1. }
  1: { injection E as <-. exact Same. }
  1: { discriminate. }
  1: { injection E as <-. apply Set_. apply nodup1. }
  1: { assert (G : forall callees, (do (m, c) <- all_callees R fuel id args th callees m c;
          match v with
          | IntoObject => do c <- equality R fuel m [result_object R id] [call_ret R id] (object_type R (result_object R id)) c; Done (Go (m, c, sv))
          | Plain => match get m (call_ret R id) with [] => Done (Go (m, c, sv)) | x :: l => Done (Go (set_expr m (Leaf id) (x :: l), c, sv)) end
          end) = Done o -> match o with Go (m', c', sv') => bounded m' c' /\ incl c c' /\ sv' = sv | Stop _ => True end).
       { intros callees H. apply bind_done in H. destruct H as ([m1 c1] & E1 & H).
         destruct (bounded_all_callees _ _ _ _ _ Hthis _ _ _ _ B E1) as [B1 I1]. destruct v.
         - apply bind_done in H. destruct H as (c2 & E2 & H). injection H as <-. apply equality_incl in E2.
           split; [eapply bounded_more; eauto|split; [eapply incl_tran; eauto|reflexivity]].
         - pose proof (get_nodup m1 (call_ret R id) (proj1 B1)) as Nd. destruct (get m1 (call_ret R id)) eqn:Eg; injection H as <-;
             [split; [exact B1|split; [exact I1|reflexivity]]|]. split; [apply bounded_set_expr; assumption|split; [exact I1|reflexivity]]. }
       destruct cl as [f op|msg|e].
       - apply (G [(f, op)]). exact E.
       - injection E as <-. exact Logic.I.
       - sub. apply (G (indirect_callees R o0)). exact E. }
  1: { destruct cl as [f op|msg|e]; [|injection E as <-; exact Logic.I|discriminate].
       cbv zeta in E. set (c1 := fst (Lifetimes.Model.join c _)) in *.
       assert (I0 : incl c c1) by apply join_incl. pose proof (bounded_more _ _ _ B I0) as B0. clearbody c1.
       apply bind_done in E. destruct E as ([m2 c2] & E1 & E). destruct (bounded_arguments _ _ _ _ _ _ _ _ _ _ B0 E1) as [B2 I2].
       destruct (extension R fuel [call_this R id] [result_object R id] t m2 c2) as [| |[m' c']] eqn:Ee; try discriminate. injection E as <-.
       destruct (bounded_extension _ _ _ _ _ _ _ _ B2 Hthis Ee) as [B3 I3]. split; [exact B3|split; [|reflexivity]]. eapply incl_tran; [exact I0|eapply incl_tran; eauto]. }
  1: { injection E as <-. exact Logic.I. }
  1: { injection E as <-. exact Same. }
Qed.

Lemma join_facts p c s p' c' s' : pwf p -> pwf p' -> exists p1 c1 s1, fst (join (Ok p c s) (Ok p' c' s')) = Ok p1 c1 s1 /\ pwf p1 /\
  (forall x o, points p1 x o <-> points p x o \/ points p' x o) /\ (forall q, In q c1 <-> In q c \/ In q c') /\ incl s1 s.
Proof.
  intros W W'. cbn [join]. pose proof (cjoin_in c c') as Hc. destruct (Lifetimes.Model.join c c') as [c1 ch]. cbn [fst] in Hc.
  assert (Wu : pwf (union p p')) by (apply union_wf; assumption).
  assert (Hs : incl (oset_inter s s') s) by (intros x I; apply inter_in in I; apply I).
  assert (K : exists p1, (exists ch', (if negb (pmap_eqb p (union p p')) then (union p p', true) else (p, ch)) = (p1, ch')) /\ pwf p1 /\ forall x o, points p1 x o <-> points p x o \/ points p' x o).
  { destruct (pmap_eqb p (union p p')) eqn:E; cbn [negb].
    - exists p. split; [eauto|]. split; [exact W|]. apply pmap_eqb_spec in E; [|exact W|exact Wu]. intros x o. apply (iff_trans (proj2 E x o)). apply union_points. exact W'.
    - exists (union p p'). split; [eauto|]. split; [exact Wu|]. intros x o. apply union_points. exact W'. }
  destruct K as (p1 & (ch' & Ep) & Wp & Hp). rewrite Ep.
  destruct (negb (oset_eqb s (oset_inter s s'))); cbn [fst].
  - exists p1, c1, (oset_inter s s'). auto.
  - exists p1, c1, s. split; [reflexivity|]. split; [exact Wp|]. split; [exact Hp|]. split; [exact Hc|apply incl_refl].
Qed.

Theorem computed_bounded a : this_is_pointer R P -> pwf m0 -> computed R P (Ok m0 c0 sv0) a ->
  match a with Ok m c sv => bounded m c /\ incl c0 c /\ incl sv sv0 | Err _ => True end.
Proof.
  intros Ht W. induction 1 as [|fuel n a r Ha IH E|a b Ha IHa Hb IHb].
  - split; [|split; apply incl_refl]. split; [exact W|]. intros o _. split; auto.
  - unfold transfer in E. destruct a as [m c sv|e]; [|injection E as <-; exact Logic.I]. apply bind_done in E. destruct E as (o & Eo & E). injection E as <-.
    destruct IH as (B & I & J). pose proof (bounded_visit fuel n m c sv o Ht B J Eo) as H. destruct o as [[[m' c'] sv']|msg]; [|exact Logic.I].
    destruct H as (B' & I' & ->). split; [exact B'|]. split; [eapply incl_tran; eauto|exact J].
  - destruct a as [m c sv|e]; [|exact Logic.I]. destruct b as [m' c' sv'|e]; [|exact Logic.I]. destruct IHa as (B & I & J). destruct IHb as (B' & I' & J').
    destruct (join_facts m c sv m' c' sv' (proj1 B) (proj1 B')) as (p1 & c1 & s1 & E & W1 & Hp & Hc & Hs). rewrite E.
    split; [|split; [intros q Iq; apply Hc; auto|eapply incl_tran; eauto]]. split; [exact W1|]. intros o Ho. destruct (proj2 B o Ho) as [A1 A2]. destruct (proj2 B' o Ho) as [A1' A2'].
    split; [intros x Hx; apply Hp; auto|]. intros n Hn. apply Hp in Hn. destruct Hn as [Hn|Hn].
    + destruct (A2 n Hn) as [K|K]; [auto|right; intros; apply Hc; left; eauto].
    + destruct (A2' n Hn) as [K|K]; [auto|right; intros; apply Hc; right; eauto].
Qed.
End History.
