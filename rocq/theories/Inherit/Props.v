From Coq Require Import List Bool Arith ZArith Lia.
From Verif Require Import Inherit.Model Inherit.Spec Inherit.Proofs Inherit.Proofs2 Inherit.Proofs3.
Import ListNotations.

(** Hierarchies for the examples: the bases of class [n] are the [n]th entry. *)
Definition mk (bs : list (list bspec)) (off : nat -> nat -> Z) (fs : list (list mfun)) : hier :=
  mkH (fun c => nth c bs []) off (fun _ => true) (fun c => nth c fs []).
Definition pub (c : nat) : bspec := mkB c false APublic.
Definition prv (c : nat) : bspec := mkB c false APrivate.
Definition vpub (c : nat) : bspec := mkB c true APublic.

Fixpoint nodupb (l : list nat) : bool :=
  match l with [] => true | a :: l' => negb (mem a l') && nodupb l' end.
Lemma nodupb_ok l : nodupb l = true -> NoDup l.
Proof.
  induction l as [|a l IH]; cbn [nodupb]; [constructor|].
  rewrite andb_true_iff, negb_true_iff. intros [A B]. constructor; auto.
  rewrite <- mem_spec. congruence.
Qed.
Fixpoint wf_below (bs : list (list bspec)) (c : nat) : bool :=
  match bs with
  | [] => true
  | l :: bs' => forallb (fun b => b_cls b <? c) l &&
                nodupb (List.map b_cls l) &&
                wf_below bs' (S c)
  end.
Lemma wf_below_ok bs : forall k c,
  wf_below bs k = true ->
  (forall b, In b (nth c bs []) -> b_cls b < k + c) /\ NoDup (List.map b_cls (nth c bs [])).
Proof.
  induction bs as [|l bs IH]; intros k c E.
  - destruct c; cbn; split; try contradiction; constructor.
  - cbn in E. rewrite !andb_true_iff in E. destruct E as ((A & B) & C).
    destruct c as [|c]; cbn [nth].
    + rewrite forallb_forall in A. split.
      * intros b I. specialize (A b I). apply Nat.ltb_lt in A. lia.
      * now apply nodupb_ok.
    + destruct (IH _ c C) as [P Q]. split; auto. intros b I. specialize (P b I). lia.
Qed.
Lemma mk_wf bs off fs : wf_below bs 0 = true -> wf (mk bs off fs).
Proof.
  intros E. split.
  - intros c b I. apply (wf_below_ok bs 0 c E) in I. exact I.
  - intros c. apply (wf_below_ok bs 0 c E).
Qed.

(** * C109: the base classes a Rust user can upcast to *)

(** Every base class offered is a public and unambiguous base class. *)
Theorem C109_offered_bases_are_public_and_unambiguous H c x o :
  wf H -> In (x, o) (unambiguous_public_bases H c) ->
  public_base H c x /\ unambiguous H c x /\ imported H x = true.
Proof.
  intros W I. apply rounds_sound in I as (Lx & _ & seen & P); auto.
  apply pick_some in P as (p & Ip & A & M & _).
  assert (N : c <> x) by lia.
  split; [|split; auto].
  - pose proof (round_inv H c x W N seen) as Inv.
    apply (inv_paths _ _ _ _ _ Inv) in Ip as (Il & Cp & Ap).
    assert (B : base_path H c x p) by (eapply log_base_path; eauto).
    exists p. split; auto. apply acc_of_public; auto. apply B.
  - eapply not_ambiguous_unambiguous; eauto.
Qed.
Print Assumptions C109_offered_bases_are_public_and_unambiguous.

(** No base class is offered twice. *)
Theorem C109_offered_once H c : wf H -> NoDup (List.map fst (unambiguous_public_bases H c)).
Proof. intros W. now apply rounds_nodup. Qed.
Print Assumptions C109_offered_once.

(** A public unambiguous base class is offered, provided it has a public path on which no
    edge but the last is virtual. *)
Theorem C109_public_bases_are_offered_partial H c x p y b :
  wf H -> leads H c p y -> In b (bases H y) -> b_cls b = x ->
  nonvirtual p -> public_path (p ++ [(y, b)]) ->
  unambiguous H c x -> imported H x = true ->
  exists o, In (x, o) (unambiguous_public_bases H c).
Proof.
  intros W L Ib <- Nv Pp U M.
  pose proof (leads_le _ _ _ _ W L) as Ly. pose proof (proj1 W _ _ Ib) as Lb.
  assert (B : base_path H c (b_cls b) (p ++ [(y, b)])).
  { split; [now constructor|destruct p; discriminate]. }
  apply (rounds_complete H c (S c) W [] (b_cls b) (p ++ [(y, b)])); auto.
  - constructor.
  - cbn. contradiction.
  - cbn. lia.
  - intros seen. assert (N : c <> b_cls b) by lia.
    apply pick_none with (p := p ++ [(y, b)]); auto.
    + apply (inv_paths _ _ _ _ _ (round_inv H c (b_cls b) W N seen)).
      split; [|split].
      * apply visited_nonvirtual; auto.
      * apply cls_snoc.
      * apply acc_of_public; auto. apply B.
    + apply unambiguous_not_ambiguous; auto.
Qed.
Print Assumptions C109_public_bases_are_offered_partial.

(** Without virtual inheritance the list is exact. *)
Theorem C109_exact_without_virtual_bases H c x :
  wf H -> (forall y b, In b (bases H y) -> b_virt b = false) ->
  ((exists o, In (x, o) (unambiguous_public_bases H c)) <->
   public_base H c x /\ unambiguous H c x /\ imported H x = true).
Proof.
  intros W Nv. split.
  - intros (o & I). eapply C109_offered_bases_are_public_and_unambiguous; eauto.
  - intros ((p & [L Np] & Pp) & U & M).
    assert (K : forall p y, leads H c p y -> nonvirtual p).
    { clear - Nv. intros q y Lq. induction Lq as [|c' q y b Lq IH Ib]; [constructor|].
      apply Forall_app. split; [auto|]. constructor; [cbn [snd]; eapply Nv; eauto|constructor]. }
    destruct (snoc_inv p) as [->|(q & y & b & ->)]; [congruence|].
    apply leads_inv_snoc in L as (y' & b' & [= <- <-] & L & Ib & E).
    apply (C109_public_bases_are_offered_partial H c x q y b); auto. eapply K; eauto.
Qed.
Print Assumptions C109_exact_without_virtual_bases.

(** In general it is not: a base of a virtual base is missing if the virtual base is first
    met through a private base, although it is also publicly inherited. *)
Definition priv_first : hier :=
  mk [[]; [pub 0]; [vpub 1]; [vpub 1]; [prv 2; pub 3]] (fun _ _ => 0%Z) [].
Theorem C109_public_base_missing_refuted :
  exists H c x, wf H /\ public_base H c x /\ unambiguous H c x /\ imported H x = true /\
    forall o, ~ In (x, o) (unambiguous_public_bases H c).
Proof.
  exists priv_first, 4, 0. split; [apply mk_wf; reflexivity|].
  assert (W : wf priv_first) by (apply mk_wf; reflexivity).
  split; [|split; [|split; [reflexivity|]]].
  - exists [(4, pub 3); (3, vpub 1); (1, pub 0)]. split.
    + split; [|discriminate].
      apply (leads_snoc priv_first 4 [(4, pub 3); (3, vpub 1)] 1 (pub 0)); [|cbn; auto].
      apply (leads_snoc priv_first 4 [(4, pub 3)] 3 (vpub 1)); [|cbn; auto].
      apply (leads_snoc priv_first 4 [] 4 (pub 3)); [constructor|cbn; auto].
    + repeat constructor.
  - apply (not_ambiguous_unambiguous priv_first 4 0 W ltac:(lia) []). vm_compute. reflexivity.
  - intros o. vm_compute. intuition discriminate.
Qed.
Print Assumptions C109_public_base_missing_refuted.

(** A diamond: with ordinary bases the shared class is ambiguous, with virtual ones not. *)
Definition off8 (c b : nat) : Z := if (c =? 3) && (b =? 2) then 8%Z else 0%Z.
Definition diamond : hier := mk [[]; [pub 0]; [pub 0]; [pub 1; pub 2]] off8 [].
Definition vdiamond : hier := mk [[]; [vpub 0]; [vpub 0]; [pub 1; pub 2]] off8 [].
Example C109_example_diamond :
  unambiguous_public_bases diamond 3 = [(1, Some 0%Z); (2, Some 8%Z)] /\ wf diamond.
Proof. split; [vm_compute; reflexivity|apply mk_wf; reflexivity]. Qed.
Example C109_example_virtual_diamond :
  unambiguous_public_bases vdiamond 3 = [(1, Some 0%Z); (0, None); (2, Some 8%Z)] /\ wf vdiamond.
Proof. split; [vm_compute; reflexivity|apply mk_wf; reflexivity]. Qed.
Example C109_example_private :
  unambiguous_public_bases (mk [[]; [pub 0]; [prv 1]; [pub 2]] off8 []) 3 = [(2, Some 8%Z)].
Proof. vm_compute. reflexivity. Qed.

(** * C110: the upcast *)

(** The pointer that Rust's upcast returns for an object is the address of its one base
    class subobject: the result of the C++ conversion, along whichever path. *)
Theorem C110_upcast_is_the_cpp_conversion H c x o p vaddr cast a :
  wf H -> In (x, o) (unambiguous_public_bases H c) -> base_path H c x p ->
  (forall d, cast d = cpp_upcast H vaddr p d) ->
  upcast_ptr o cast (Addr a) = cpp_upcast H vaddr p (Addr a).
Proof.
  intros W I B Cast.
  pose proof (C109_offered_bases_are_public_and_unambiguous H c x o W I) as (_ & U & _).
  apply rounds_sound in I as (Lx & _ & seen & P); auto.
  apply pick_some in P as (q & Iq & A & M & [= ->]).
  assert (N : c <> x) by lia.
  apply (inv_paths _ _ _ _ _ (round_inv H c x W N seen)) in Iq as (Il & Cq & _).
  assert (Bq : base_path H c x q) by (eapply log_base_path; eauto).
  unfold upcast_ptr. destruct (path_offset H q) as [z|] eqn:E; auto.
  apply path_offset_some in E as [Nv <-].
  cbn [addr_of cpp_upcast]. rewrite (U p q B Bq), (nonvirtual_key q Nv).
  unfold subobject_addr. cbn [fst snd]. reflexivity.
Qed.
Print Assumptions C110_upcast_is_the_cpp_conversion.

(** A constant offset is used only if the base lies at a fixed place in every object of the
    class, that is, not inside a virtual base. *)
Theorem C110_constant_offset_iff_not_in_a_virtual_base H c x o p :
  wf H -> In (x, o) (unambiguous_public_bases H c) -> base_path H c x p ->
  (o <> None <-> Forall (fun e => b_virt (snd e) = false) p).
Proof.
  intros W I B.
  pose proof (C109_offered_bases_are_public_and_unambiguous H c x o W I) as (_ & U & _).
  apply rounds_sound in I as (Lx & _ & seen & P); auto.
  apply pick_some in P as (q & Iq & A & M & [= ->]).
  assert (N : c <> x) by lia.
  apply (inv_paths _ _ _ _ _ (round_inv H c x W N seen)) in Iq as (Il & Cq & _).
  assert (Bq : base_path H c x q) by (eapply log_base_path; eauto).
  pose proof (U p q B Bq) as E. fold (nonvirtual p). split.
  - intros Ne. destruct (path_offset H q) as [z|] eqn:Eq; [|congruence].
    apply path_offset_some in Eq as [Nv _]. rewrite (nonvirtual_key q Nv) in E.
    now apply key_nonvirtual in E as [_ E].
  - intros Nv. rewrite (nonvirtual_key p Nv) in E. symmetry in E.
    apply key_nonvirtual in E as [_ Nq].
    assert (S : path_offset H q = Some (offset_sum H q)) by (apply path_offset_some; auto).
    congruence.
Qed.
Print Assumptions C110_constant_offset_iff_not_in_a_virtual_base.

(** Null stays null only where the offset is zero or a thunk is used. *)
Theorem C110_null_stays_null_partial o cast :
  (forall z, o = Some z -> z = 0%Z) -> cast Null = Null ->
  upcast_ptr o cast Null = Null.
Proof.
  intros Z C. destruct o as [z|]; cbn [upcast_ptr addr_of]; auto.
  rewrite (Z z eq_refl). reflexivity.
Qed.
Print Assumptions C110_null_stays_null_partial.

(** The documented contract of [Inherits::upcast_ptr], "If `derived` is null, this returns
    null", fails for every base at a non-zero offset. *)
Theorem C110_null_stays_null_refuted :
  (forall z cast, z <> 0%Z -> upcast_ptr (Some z) cast Null <> Null) /\
  exists H c x o, wf H /\ In (x, o) (unambiguous_public_bases H c) /\
    forall cast, upcast_ptr o cast Null <> Null.
Proof.
  assert (K : forall z cast, z <> 0%Z -> upcast_ptr (Some z) cast Null <> Null).
  { intros z cast Nz. cbn [upcast_ptr addr_of]. unfold ptr_of.
    destruct (Z.eqb_spec (0 + z) 0) as [E|]; [lia|discriminate]. }
  split; auto. exists diamond, 3, 2, (Some 8%Z). split; [apply mk_wf; reflexivity|].
  split; [vm_compute; auto|]. intros cast. apply K. lia.
Qed.
Print Assumptions C110_null_stays_null_refuted.

Example C110_example :
  upcast_ptr (Some 8%Z) (fun d => d) (Addr 100) = Addr 108 /\
  base_path diamond 3 2 [(3, pub 2)].
Proof.
  split; [reflexivity|]. split; [|discriminate].
  apply (leads_snoc diamond 3 [] 3 (pub 2)); [constructor|cbn; auto].
Qed.

(** * C111: inherited methods *)

Lemma count_one_unique {A} (f : A -> bool) l a b :
  length (filter f l) = 1 -> In a l -> In b l -> f a = true -> f b = true -> a = b.
Proof.
  intros L Ia Ib Fa Fb.
  assert (K1 : In a (filter f l)) by (apply filter_In; auto).
  assert (K2 : In b (filter f l)) by (apply filter_In; auto).
  destruct (filter f l) as [|x [|y l']]; try discriminate.
  destruct K1 as [->|[]], K2 as [->|[]]. reflexivity.
Qed.

(** A method that Rust gives to a derived class is a member function of one of its public
    unambiguous bases, is not redeclared by the class itself, and is the only bindable one of
    that name among these bases. *)
Theorem C111_inherited_method H c x f :
  wf H -> In (x, f) (inherited_methods H c) ->
  public_base H c x /\ unambiguous H c x /\ In f (funs H x) /\ m_gen f = true /\
  (forall g, In g (funs H c) -> m_name g <> m_name f) /\
  (forall y g o, In (y, o) (unambiguous_public_bases H c) -> In g (funs H y) -> m_gen g = true ->
                 m_name g = m_name f -> (y, g) = (x, f)).
Proof.
  intros W I. unfold inherited_methods in I. apply filter_In in I as [I L].
  apply Nat.eqb_eq in L. pose proof I as I0. apply filter_In in I as [I C].
  unfold counted in C. cbn [snd fst] in C. rewrite andb_true_iff, negb_true_iff in C.
  destruct C as [G Nd].
  assert (Nd' : forall g, In g (funs H c) -> m_name g <> m_name f).
  { intros g Ig E. unfold declares in Nd.
    assert (T : existsb (fun f0 => m_name f0 =? m_name f) (funs H c) = true).
    { apply existsb_exists. exists g. split; auto. now apply Nat.eqb_eq. }
    congruence. }
  unfold inherited_functions in I. apply in_flat_map in I as ([x' o] & Ix & If).
  cbn [fst] in If. apply in_map_iff in If as (f' & [= -> ->] & If).
  destruct (C109_offered_bases_are_public_and_unambiguous H c x o W Ix) as (A & B & _).
  split; [auto|split; [auto|split; [auto|split; [auto|split; [auto|]]]]].
  intros y g o' Iy Ig Gg En.
  eapply count_one_unique; [exact L| |exact I0| |apply Nat.eqb_refl].
  - apply filter_In. split.
    + unfold inherited_functions. apply in_flat_map. exists (y, o'). split; auto.
      cbn [fst]. apply in_map_iff. eauto.
    + unfold counted. cbn [snd]. rewrite Gg. cbn [andb]. rewrite negb_true_iff.
      destruct (declares H c (m_name g)) eqn:E; auto. exfalso.
      unfold declares in E. apply existsb_exists in E as (h & Ih & Eh).
      apply Nat.eqb_eq in Eh. apply (Nd' h Ih). congruence.
  - cbn [snd]. now apply Nat.eqb_eq.
Qed.
Print Assumptions C111_inherited_method.

(** It is the function C++ finds under that name for the derived class, provided every
    declaration of the name in the hierarchy is a bindable function of the class itself or
    of a public, unambiguous, imported base. *)
Theorem C111_method_is_the_one_cpp_finds_partial H (decl : nat -> nat -> Prop) c x f :
  wf H -> In (x, f) (inherited_methods H c) ->
  (forall y, decl y (m_name f) ->
     exists g, In g (funs H y) /\ m_name g = m_name f /\ m_gen g = true) ->
  (forall g, In g (funs H x) -> decl x (m_name g)) ->
  (forall y q, base_path H c y q -> decl y (m_name f) ->
     exists o, In (y, o) (unambiguous_public_bases H c)) ->
  cpp_finds H decl c (m_name f) x.
Proof.
  intros W I Dg Gd Vis.
  destruct (C111_inherited_method H c x f W I) as ((p & B & _) & U & If & Gf & Nd & Un).
  exists p. split; [apply B|]. split; [auto|].
  intros y q Lq Dy. destruct (Dg y Dy) as (g & Ig & Eg & Gg).
  destruct q as [|e q].
  - apply leads_nil_inv in Lq. subst y. exfalso. now apply (Nd g Ig).
  - assert (Bq : base_path H c y (e :: q)) by (split; [auto|discriminate]).
    destruct (Vis y _ Bq Dy) as (o & Io).
    assert (E : (y, g) = (x, f)) by (eapply Un; eauto). injection E as -> ->.
    exists []. rewrite app_nil_r. split; [|apply B]. now apply U.
Qed.
Print Assumptions C111_method_is_the_one_cpp_finds_partial.

(** class A { void f(); };  class B : A { void f(Unsupported); };  class D : B {};
    Rust's [D::f] calls A::f, but C++ finds only B::f for a D. *)
Definition hidden : hier :=
  mk [[]; [pub 0]; [pub 1]] (fun _ _ => 0%Z)
     [[mkM 7 100 true]; [mkM 7 101 false]; []].
Definition hidden_decl (y n : nat) : Prop := exists g, In g (funs hidden y) /\ m_name g = n.
Theorem C111_wrong_method_refuted :
  exists H decl c n x f y,
    wf H /\ (forall z m, decl z m <-> exists g, In g (funs H z) /\ m_name g = m) /\
    In (x, f) (inherited_methods H c) /\ m_name f = n /\
    cpp_finds H decl c n y /\ ~ cpp_finds H decl c n x.
Proof.
  exists hidden, hidden_decl, 2, 7, 0, (mkM 7 100 true), 1.
  assert (W : wf hidden) by (apply mk_wf; reflexivity).
  assert (L1 : leads hidden 2 [(2, pub 1)] 1).
  { apply (leads_snoc hidden 2 [] 2 (pub 1)); [constructor|cbn; auto]. }
  assert (L0 : leads hidden 2 [(2, pub 1); (1, pub 0)] 0).
  { apply (leads_snoc hidden 2 [(2, pub 1)] 1 (pub 0)); [auto|cbn; auto]. }
  assert (All : forall y q, leads hidden 2 q y ->
     q = [] \/ q = [(2, pub 1)] \/ q = [(2, pub 1); (1, pub 0)]).
  { assert (K : forall c q y, leads hidden c q y -> c = 2 ->
       (q = [] /\ y = 2) \/ (q = [(2, pub 1)] /\ y = 1) \/ (q = [(2, pub 1); (1, pub 0)] /\ y = 0)).
    { intros c q y L. induction L as [c|c q y b L IH Ib]; intros E.
      - left. auto.
      - specialize (IH E). destruct IH as [[-> ->]|[[-> ->]|[-> ->]]].
        + cbn in Ib. destruct Ib as [<-|[]]. right. left. auto.
        + cbn in Ib. destruct Ib as [<-|[]]. right. right. auto.
        + cbn in Ib. destruct Ib. }
    intros y q L. destruct (K 2 q y L eq_refl) as [[-> _]|[[-> _]|[-> _]]]; auto. }
  split; [auto|split; [|split; [|split; [|split]]]].
  - intros z m. reflexivity.
  - vm_compute. auto.
  - reflexivity.
  - exists [(2, pub 1)]. split; [auto|]. split.
    { exists (mkM 7 101 false). cbn. auto. }
    intros y q L Dy. destruct (All y q L) as [->|[->| ->]].
    + apply leads_nil_inv in L. subst y. destruct Dy as (g & [] & _).
    + exists []. rewrite app_nil_r. auto.
    + exists [(1, pub 0)]. cbn [app]. auto.
  - intros (p & L & _ & Hd).
    assert (Ep : p = [(2, pub 1); (1, pub 0)]).
    { destruct (All 0 p L) as [->|[->| ->]]; auto.
      - apply leads_nil_inv in L. discriminate.
      - apply leads_cls in L; [discriminate|discriminate]. }
    subst p.
    destruct (Hd 1 [(2, pub 1)] L1) as (r & _ & L').
    { exists (mkM 7 101 false). cbn. auto. }
    destruct (All _ _ L') as [E|[E|E]]; try discriminate.
    cbn in E. injection E as E. destruct r; [|discriminate]. cbn in L'.
    apply leads_cls in L'; [discriminate|discriminate].
Qed.
Print Assumptions C111_wrong_method_refuted.

(** class A { void f(); };  class B : A { void f(); };  class D : B {};
    C++ finds B::f for a D, but Rust gives D no method f. *)
Definition overriding : hier :=
  mk [[]; [pub 0]; [pub 1]] (fun _ _ => 0%Z)
     [[mkM 7 100 true]; [mkM 7 101 true]; []].
Theorem C111_redeclared_method_lost_refuted :
  exists H c n x, wf H /\
    cpp_finds H (fun y m => exists g, In g (funs H y) /\ m_name g = m) c n x /\
    (forall y g, In g (funs H y) -> m_gen g = true) /\
    (forall y q, base_path H c y q -> exists o, In (y, o) (unambiguous_public_bases H c)) /\
    forall y f, In (y, f) (inherited_methods H c) -> m_name f <> n.
Proof.
  exists overriding, 2, 7, 1.
  assert (W : wf overriding) by (apply mk_wf; reflexivity).
  assert (L1 : leads overriding 2 [(2, pub 1)] 1).
  { apply (leads_snoc overriding 2 [] 2 (pub 1)); [constructor|cbn; auto]. }
  assert (L0 : leads overriding 2 [(2, pub 1); (1, pub 0)] 0).
  { apply (leads_snoc overriding 2 [(2, pub 1)] 1 (pub 0)); [auto|cbn; auto]. }
  assert (All : forall c q y, leads overriding c q y -> c = 2 ->
       (q = [] /\ y = 2) \/ (q = [(2, pub 1)] /\ y = 1) \/ (q = [(2, pub 1); (1, pub 0)] /\ y = 0)).
  { intros c q y L. induction L as [c|c q y b L IH Ib]; intros E.
    - left. auto.
    - specialize (IH E). destruct IH as [[-> ->]|[[-> ->]|[-> ->]]].
      + cbn in Ib. destruct Ib as [<-|[]]. right. left. auto.
      + cbn in Ib. destruct Ib as [<-|[]]. right. right. auto.
      + cbn in Ib. destruct Ib. }
  split; [auto|split; [|split; [|split]]].
  - exists [(2, pub 1)]. split; [auto|]. split.
    { exists (mkM 7 101 true). cbn. auto. }
    intros y q L Dy. destruct (All 2 q y L eq_refl) as [[-> ->]|[[-> ->]|[-> ->]]].
    + destruct Dy as (g & [] & _).
    + exists []. rewrite app_nil_r. auto.
    + exists [(1, pub 0)]. cbn [app]. auto.
  - intros y g Ig. destruct y as [|[|[|y]]]; cbn in Ig.
    1,2: destruct Ig as [<-|[]]; reflexivity.
    1: destruct Ig.
    destruct y; destruct Ig.
  - intros y q [L Nq]. destruct (All 2 q y L eq_refl) as [[-> ->]|[[-> ->]|[-> ->]]].
    + congruence.
    + exists (Some 0%Z). vm_compute. auto.
    + exists (Some 0%Z). vm_compute. auto.
  - intros y f I. vm_compute in I. destruct I.
Qed.
Print Assumptions C111_redeclared_method_lost_refuted.

Example C111_example_inherited :
  inherited_methods (mk [[]; []; [pub 0; pub 1]] off8
     [[mkM 7 100 true; mkM 8 101 true]; [mkM 8 102 true; mkM 9 103 true; mkM 10 105 true];
      [mkM 10 104 true]]) 2
  = [(0, mkM 7 100 true); (1, mkM 9 103 true)].
Proof. vm_compute. reflexivity. Qed.
