(** Properties of the order of the analysis. *)
From Coq Require Import List Arith ZArith Bool Lia.
From Verif.CallOrder Require Import Model Spec Proofs.
Import ListNotations.
Local Open Scope Z_scope.

(** ** C164: without virtual methods every function that is needed gets one result, and the right one *)
Section Needed.
Context {L : Type}.
Variable U : unit_info L.
Variable F definitions : list Z.
Hypothesis Hwithin : within U F definitions.
Definition needed (f : Z) : Prop := exists d, In d definitions /\ reaches U d f.
Lemma needed_closed : forall f g, needed f -> calls U f g -> needed g.
Proof. intros f g (d & Hd & Hr) Hc. exists d. split; [exact Hd | exact (reaches_snoc U d f g Hr Hc)]. Qed.
Lemma needed_F : forall f, needed f -> In f F.
Proof.
  intros f (d & Hd & Hr). destruct Hwithin as [H1 H2]. apply H1 in Hd. induction Hr as [f|f g h Hc Hr IH]; [exact Hd|].
  apply IH. exact (H2 f g Hd Hc).
Qed.
End Needed.

Theorem C164_needed_functions_are_analyzed_partial : forall (L : Type) (U : unit_info L) (F definitions : list Z) (fuel : nat),
  no_virtual U -> depends_on_callees U -> within U F definitions -> (length F < fuel)%nat ->
  exists st, analyze_all L U fuel definitions = Done _ st /\ visited L st = []
    /\ (forall f, (exists r, lookup L (analyzed L st) f = Some r) <-> builtin L U f = false /\ exists d, In d definitions /\ reaches U d f)
    /\ forall f r, lookup L (analyzed L st) f = Some r ->
         follows U (analyzed L st) f r
         \/ ((exists g, reaches U f g /\ recursive U g) /\ (follows_up_to_names U (analyzed L st) f r \/ exists e, r = Failed L e)).
Proof.
  intros L U F definitions fuel Hnv Hloc Hw Hfuel.
  destruct (analyze_all_ok U (needed U definitions) F (needed_closed U definitions) (needed_F U F definitions Hw) Hnv Hloc fuel definitions Hfuel)
    as (st & E & V & C & Rk).
  { intros f Hf. exists f. split; [exact Hf | apply RSelf]. }
  exists st. split; [exact E|]. split; [exact V|]. split.
  - intro f. split.
    + intros [r Hr]. destruct (Rk f r Hr) as (H1 & H2 & _). split; [exact H2 | exact H1].
    + intros (Hb & d & Hd & Hr). apply C in Hd. revert Hd Hb. induction Hr as [f|f g h Hc Hr IH]; intros Hd Hb.
      * destruct Hd as [Hd|Hd]; [congruence | apply has_lookup; exact Hd].
      * apply IH; [|exact Hb]. destruct Hd as [Hd|Hd]; [destruct Hc as [[Hc _] _]; congruence|].
        apply has_lookup in Hd. destruct Hd as [r Hr']. exact (proj2 (proj2 (proj2 (Rk f r Hr'))) g Hc).
  - intros f r Hr. exact (proj1 (proj2 (proj2 (Rk f r Hr)))).
Qed.
Print Assumptions C164_needed_functions_are_analyzed_partial.

Theorem C164_without_recursion_results_are_exact_partial : forall (L : Type) (U : unit_info L) (F definitions : list Z) (fuel : nat),
  no_virtual U -> depends_on_callees U -> within U F definitions -> (length F < fuel)%nat ->
  exists st, analyze_all L U fuel definitions = Done _ st
    /\ forall f, builtin L U f = false -> (exists d, In d definitions /\ reaches U d f) -> (forall g, reaches U f g -> ~ recursive U g) ->
         exists r, lookup L (analyzed L st) f = Some r /\ follows U (analyzed L st) f r.
Proof.
  intros L U F definitions fuel Hnv Hloc Hw Hfuel.
  destruct (C164_needed_functions_are_analyzed_partial L U F definitions fuel Hnv Hloc Hw Hfuel) as (st & E & _ & N & Rk).
  exists st. split; [exact E|]. intros f Hb Hd Hn. destruct (proj2 (N f) (conj Hb Hd)) as [r Hr]. exists r. split; [exact Hr|].
  destruct (Rk f r Hr) as [H|[(g & Hg & Hrec) _]]; [exact H|]. exfalso. exact (Hn g Hg Hrec).
Qed.
Print Assumptions C164_without_recursion_results_are_exact_partial.

(** A unit of functions with one parameter.  A function's lifetimes say whether it returns something that lives as long as its parameter. *)
Definition one_param (cs : Z -> list Z) (returns : Z -> option Z) : unit_info bool :=
  {| builtin := fun f => f <? 0; defined := fun _ => true; is_virtual := fun _ => false; is_pure := fun _ => false;
     callees := fun f => inl (cs f); base_methods := fun _ => []; overriding := fun _ => []; num_params := fun _ => 1%nat;
     annotations := fun _ => Failed bool 7;
     single := fun f a => match returns f with
                          | None => Lifetimes bool true
                          | Some g => if (0 <=? f) && existsb (Z.eqb g) (cs f) then match lookup bool a g with Some r => r | None => Failed bool 8 end else Failed bool 9
                          end;
     disconnected := fun _ => Lifetimes bool false; isomorphic := Bool.eqb; constrain := fun _ b1 b2 => Lifetimes bool (b1 && b2) |}.
Lemma one_param_depends : forall cs returns, depends_on_callees (one_param cs returns).
Proof.
  intros cs returns f a a' H. cbn [single one_param]. destruct (returns f) as [g|]; [|reflexivity].
  destruct (0 <=? f) eqn:Ef; [|reflexivity]. destruct (existsb (Z.eqb g) (cs f)) eqn:Eg; [|reflexivity]. cbn [andb].
  rewrite H; [reflexivity|]. apply existsb_exists in Eg. destruct Eg as (x & Hx & Hxe). apply Z.eqb_eq in Hxe. subst x.
  split; [split; [cbn; apply Z.ltb_ge; apply Z.leb_le; exact Ef | reflexivity]|]. exists (cs f). split; [reflexivity | exact Hx].
Qed.
Lemma one_param_within : forall cs returns F definitions, forallb (fun f => existsb (Z.eqb f) F) definitions = true ->
  forallb (fun f => forallb (fun g => existsb (Z.eqb g) F) (cs f)) F = true -> within (one_param cs returns) F definitions.
Proof.
  intros cs returns F definitions H1 H2.
  assert (Hin : forall f, existsb (Z.eqb f) F = true -> In f F).
  { intros f H. apply existsb_exists in H. destruct H as (x & Hx & Hxe). apply Z.eqb_eq in Hxe. subst x. exact Hx. }
  rewrite forallb_forall in H1, H2. split.
  - intros f Hf. apply Hin, H1, Hf.
  - intros f g Hf [_ (cs' & Hcs & Hg)]. cbn in Hcs. injection Hcs as <-. specialize (H2 f Hf). rewrite forallb_forall in H2. apply Hin, H2, Hg.
Qed.
(** [a] calls [b], [c] and a builtin; [b] calls [c]. *)
Definition chain_unit : unit_info bool :=
  one_param (fun f => if f =? 0 then [1; 2; -5] else if f =? 1 then [2] else []) (fun f => if f =? 0 then Some 1 else if f =? 1 then Some 2 else None).
Example C164_applies : no_virtual chain_unit /\ depends_on_callees chain_unit /\ within chain_unit [0; 1; 2; -5] [0; 2] /\ ~ recursive chain_unit 0
  /\ calls chain_unit 0 1 /\ calls chain_unit 1 2
  /\ exists st, analyze_all bool chain_unit 9 [0; 2] = Done _ st /\ List.map (lookup bool (analyzed bool st)) [0; 1; 2; -5] = [Some (Lifetimes bool true); Some (Lifetimes bool true); Some (Lifetimes bool true); None].
Proof.
  split; [intro f; reflexivity|]. split; [apply one_param_depends|]. split; [apply one_param_within; reflexivity|].
  assert (Hcalls : forall f g, calls chain_unit f g -> f < g \/ g = -5 /\ 0 <= f).
  { intros f g [[Hb _] (cs & Hcs & Hg)]. cbn in Hb, Hcs. injection Hcs as <-.
    destruct (f =? 0) eqn:E0; [apply Z.eqb_eq in E0; subst f; cbn in Hg; destruct Hg as [<-|[<-|[<-|[]]]]; lia|].
    destruct (f =? 1) eqn:E1; [apply Z.eqb_eq in E1; subst f; destruct Hg as [<-|[]]; lia | destruct Hg]. }
  assert (Hpos : forall f g, calls chain_unit f g -> 0 <= f) by (intros f g [[Hb _] _]; cbn in Hb; apply Z.ltb_ge in Hb; exact Hb).
  split.
  { intros (g & Hc & Hr). assert (Hge : forall x y, reaches chain_unit x y -> x <= y \/ y = -5).
    { intros x y Hxy. induction Hxy as [x|x y z Hc' Hxy IH]; [left; lia|]. pose proof (Hpos _ _ Hc'). pose proof (Hcalls _ _ Hc').
      destruct IH as [IH|IH]; [|right; exact IH]. destruct H0 as [H0|[-> _]]; [left; lia|].
      inversion Hxy as [|? ? ? Hc2]; subst; [right; reflexivity|]. pose proof (Hpos _ _ Hc2). lia. }
    destruct (Hcalls _ _ Hc) as [H0|[-> _]].
    - apply Hge in Hr. destruct Hr as [Hr|Hr]; [lia | discriminate].
    - inversion Hr as [|? ? ? Hc2]; subst. pose proof (Hpos _ _ Hc2). lia. }
  split; [split; [split; reflexivity | eexists; split; [reflexivity | left; reflexivity]]|].
  split; [split; [split; reflexivity | eexists; split; [reflexivity | left; reflexivity]]|].
  eexists. split; vm_compute; reflexivity.
Qed.

(** A function that calls itself, and one that calls it and is called by it: the results hold up to names. *)
Definition loop_unit : unit_info bool := one_param (fun f => if f =? 0 then [1; 0] else [0]) (fun f => if f =? 0 then Some 1 else None).
Example C164_recursive : recursive loop_unit 0 /\ within loop_unit [0; 1] [0]
  /\ exists st, analyze_all bool loop_unit 3 [0] = Done _ st /\ List.map (lookup bool (analyzed bool st)) [0; 1] = [Some (Lifetimes bool true); Some (Lifetimes bool true)].
Proof.
  split; [|split; [apply one_param_within; reflexivity|]].
  - exists 0. split; [|apply RSelf]. split; [split; reflexivity | eexists; split; [reflexivity | right; left; reflexivity]].
  - eexists. split; vm_compute; reflexivity.
Qed.

(** ** C165: the order of the definitions and of the callees *)
Section Unique.
Context {L : Type}.
Variable U : unit_info L.
Variable F : list Z.
Hypothesis F_closed : forall f g, In f F -> calls U f g -> In g F.
Lemma nonrec_acc : forall n f p, NoDup p -> (forall x, In x p -> In x F /\ exists h, calls U x h /\ reaches U h f) -> In f F ->
  (length F < n + length p)%nat -> (forall g, reaches U f g -> ~ recursive U g) -> Acc (fun g h => calls U h g) f.
Proof.
  induction n as [|n IH]; intros f p Hn Hp Hf Hl Hr.
  { exfalso. assert (length p <= length F)%nat; [|lia]. apply NoDup_incl_length; [exact Hn|]. intros x Hx. exact (proj1 (Hp x Hx)). }
  constructor. intros g Hg. apply (IH g (f :: p)).
  - constructor; [|exact Hn]. intro Hi. destruct (Hp f Hi) as [_ (h & H1 & H2)]. apply (Hr f (RSelf U f)). exists h. split; assumption.
  - intros x [<-|Hx]; [split; [exact Hf | exists g; split; [exact Hg | apply RSelf]]|].
    destruct (Hp x Hx) as [H1 (h & H2 & H3)]. split; [exact H1|]. exists h. split; [exact H2 | exact (reaches_snoc U h f g H3 Hg)].
  - exact (F_closed f g Hf Hg).
  - cbn [length]. lia.
  - intros h Hh. apply Hr. exact (RCall U f g h Hg Hh).
Qed.
End Unique.

Theorem C165_order_does_not_matter_without_recursion_partial : forall (L : Type) (U V : unit_info L) (F ds es : list Z) (fuel : nat) (s t : state L),
  no_virtual U -> no_virtual V -> depends_on_callees U -> same_unit U V -> within U F ds -> (forall e, In e es -> In e F) -> (length F < fuel)%nat ->
  analyze_all L U fuel ds = Done _ s -> analyze_all L V fuel es = Done _ t ->
  forall f r r', (forall g, reaches U f g -> ~ recursive U g) ->
  lookup L (analyzed L s) f = Some r -> lookup L (analyzed L t) f = Some r' -> r = r'.
Proof.
  intros L U V F ds es fuel s t NU NV DU SU WU WE Hfuel Es Et.
  assert (CUV : forall f g, calls V f g <-> calls U f g).
  { intros f g. unfold calls, has_body. rewrite <- (su_builtin _ _ SU), <- (su_defined _ _ SU). pose proof (su_callees _ _ SU f) as Hc.
    destruct (callees L U f) as [cs|e], (callees L V f) as [cs'|e']; try contradiction.
    - split; intros (H1 & x & H2 & H3); (split; [exact H1|]); injection H2 as <-.
      + exists cs. split; [reflexivity | apply Hc; exact H3].
      + exists cs'. split; [reflexivity | apply Hc; exact H3].
    - split; intros (_ & x & H2 & _); discriminate. }
  assert (DV : depends_on_callees V).
  { intros f a a' H. rewrite <- !(su_single _ _ SU). apply DU. intros g Hg. apply H. apply CUV. exact Hg. }
  assert (WV : within V F es).
  { split; [exact WE|]. intros f g Hf Hc. apply (proj2 WU f g Hf). apply CUV. exact Hc. }
  assert (RUV : forall f g, reaches V f g <-> reaches U f g).
  { intros f g. split; intro H; induction H as [f|f g h Hc H IH]; try apply RSelf; [apply (RCall U f g h); [apply CUV; exact Hc | exact IH] | apply (RCall V f g h); [apply CUV; exact Hc | exact IH]]. }
  assert (RecUV : forall f, recursive V f <-> recursive U f).
  { intro f. split; intros (g & H1 & H2); exists g; (split; [apply CUV; exact H1 | apply RUV; exact H2]). }
  destruct (C164_needed_functions_are_analyzed_partial L U F ds fuel NU DU WU Hfuel) as (s' & Es' & _ & Ns & Rs).
  rewrite Es in Es'. injection Es' as <-.
  destruct (C164_needed_functions_are_analyzed_partial L V F es fuel NV DV WV Hfuel) as (t' & Et' & _ & Nt & Rt).
  rewrite Et in Et'. injection Et' as <-.
  assert (Hmain : forall f, Acc (fun g h => calls U h g) f -> (forall g, reaches U f g -> ~ recursive U g) ->
    forall r r', lookup L (analyzed L s) f = Some r -> lookup L (analyzed L t) f = Some r' -> r = r').
  { intros f Hacc. induction Hacc as [f _ IH]. intros Hn r r' Hs Ht.
    assert (Fs : follows U (analyzed L s) f r).
    { destruct (Rs f r Hs) as [H|[(g & Hg & Hrec) _]]; [exact H|]. exfalso. exact (Hn g Hg Hrec). }
    assert (Ft : follows V (analyzed L t) f r').
    { destruct (Rt f r' Ht) as [H|[(g & Hg & Hrec) _]]; [exact H|]. exfalso. apply (Hn g); [apply RUV; exact Hg | apply RecUV; exact Hrec]. }
    pose proof (su_callees _ _ SU f) as Hcs.
    destruct Fs as [Hd|e Hd Hc|Hb (cs & Hc)]; destruct Ft as [Hd'|e' Hd' Hc'|Hb' (cs' & Hc')];
      try (rewrite <- (su_defined _ _ SU) in Hd'; congruence); try (unfold has_body in *; rewrite <- (su_defined _ _ SU) in *; destruct Hb'; congruence);
      try (unfold has_body in *; rewrite <- (su_defined _ _ SU) in *; destruct Hb; congruence);
      try (rewrite Hc, Hc' in Hcs; congruence); try (rewrite Hc, Hc' in Hcs; contradiction).
    - apply (su_annotations _ _ SU).
    - rewrite <- (su_single _ _ SU). apply DU. intros g Hg.
      assert (Hng : forall h, reaches U g h -> ~ recursive U h) by (intros h Hh; apply Hn; exact (RCall U f g h Hg Hh)).
      destruct (builtin L U g) eqn:Eb.
      + destruct (lookup L (analyzed L s) g) as [x|] eqn:Ex.
        { exfalso. destruct (proj1 (Ns g) (ex_intro _ x Ex)) as [Hx _]. congruence. }
        destruct (lookup L (analyzed L t) g) as [x|] eqn:Ey; [|reflexivity].
        exfalso. destruct (proj1 (Nt g) (ex_intro _ x Ey)) as [Hx _]. rewrite <- (su_builtin _ _ SU) in Hx. congruence.
      + destruct (proj1 (Ns f) (ex_intro _ _ Hs)) as [_ (d & Hd & Hrd)]. destruct (proj1 (Nt f) (ex_intro _ _ Ht)) as [_ (d' & Hd' & Hrd')].
        destruct (proj2 (Ns g)) as [x Hx]; [split; [exact Eb | exists d; split; [exact Hd | exact (reaches_snoc U d f g Hrd Hg)]]|].
        destruct (proj2 (Nt g)) as [y Hy]; [split; [rewrite <- (su_builtin _ _ SU); exact Eb | exists d'; split; [exact Hd' | apply RUV; apply (reaches_snoc U d' f g); [apply RUV; exact Hrd' | exact Hg]]]|].
        rewrite Hx, Hy. f_equal. exact (IH g Hg Hng x y Hx Hy). }
  intros f r r' Hn Hs Ht. apply (Hmain f); try assumption.
  apply (nonrec_acc U F (proj2 WU) (S (length F)) f []); [constructor | intros x [] | | cbn; lia | exact Hn].
  destruct (proj1 (Ns f) (ex_intro _ r Hs)) as [_ Hd]. exact (needed_F U F ds WU f Hd).
Qed.
Print Assumptions C165_order_does_not_matter_without_recursion_partial.

(** [a] and [b] call themselves and the next function, [c] calls itself; [a] returns what [b] returns, [b] what [c] returns, [c] its parameter.
    The lifetimes are found if [c] is defined first, and the analysis fails if [a] is defined first. *)
Definition staircase : unit_info bool :=
  one_param (fun f => if f =? 0 then [0; 1] else if f =? 1 then [1; 2] else [2]) (fun f => if f =? 0 then Some 1 else if f =? 1 then Some 2 else None).
(** Three functions that call each other in a circle. *)
Definition circle : unit_info bool :=
  one_param (fun f => if f =? 0 then [1] else if f =? 1 then [2] else [0]) (fun f => if f =? 0 then Some 1 else if f =? 1 then Some 2 else None).
Definition order_does_not_matter : Prop :=
  forall (L : Type) (U : unit_info L) (F ds es : list Z) (fuel : nat) (s t : state L),
  no_virtual U -> depends_on_callees U -> within U F ds -> (forall d, In d ds <-> In d es) -> (length F < fuel)%nat ->
  analyze_all L U fuel ds = Done _ s -> analyze_all L U fuel es = Done _ t ->
  forall f r r', lookup L (analyzed L s) f = Some r -> lookup L (analyzed L t) f = Some r' -> r = r'.
Theorem C165_order_matters_with_recursion_refuted : ~ order_does_not_matter
  /\ exists s t, analyze_all bool circle 9 [0; 1; 2] = Done _ s /\ analyze_all bool circle 9 [2; 1; 0] = Done _ t
       /\ lookup bool (analyzed bool s) 0 = Some (Failed bool too_many_iterations) /\ lookup bool (analyzed bool t) 0 = Some (Lifetimes bool true).
Proof.
  split.
  - intro H.
    assert (Hw : within staircase [0; 1; 2] [0; 1; 2]) by (apply one_param_within; reflexivity).
    assert (Hs : exists s, analyze_all bool staircase 9 [0; 1; 2] = Done _ s /\ lookup bool (analyzed bool s) 0 = Some (Failed bool too_many_iterations)) by (eexists; split; vm_compute; reflexivity).
    assert (Ht : exists s, analyze_all bool staircase 9 [2; 1; 0] = Done _ s /\ lookup bool (analyzed bool s) 0 = Some (Lifetimes bool true)) by (eexists; split; vm_compute; reflexivity).
    destruct Hs as (s & Es & Ls). destruct Ht as (t & Et & Lt).
    assert (Hd : Failed bool too_many_iterations = Lifetimes bool true); [|discriminate].
    apply (H bool staircase [0; 1; 2] [0; 1; 2] [2; 1; 0] 9%nat s t) with (f := 0); try assumption.
    + intro f. reflexivity.
    + apply one_param_depends.
    + intro d. cbn. tauto.
    + cbn. lia.
  - eexists. eexists. repeat split; vm_compute; reflexivity.
Qed.
Print Assumptions C165_order_matters_with_recursion_refuted.

(** A function that is not recursive can be analyzed as a part of a cycle, and fail with it: [3] only calls [2], [2] calls only itself, and what [3]
    returns does not depend on [2]. *)
Definition bystander : unit_info bool :=
  one_param (fun f => if f =? 0 then [0; 1; 3] else if f =? 1 then [1; 2] else [2]) (fun f => if f =? 0 then Some 1 else if f =? 1 then Some 2 else None).
Definition only_recursive_functions_are_approximated : Prop :=
  forall (L : Type) (U : unit_info L) (F ds : list Z) (fuel : nat) (s : state L),
  no_virtual U -> depends_on_callees U -> within U F ds -> (length F < fuel)%nat -> analyze_all L U fuel ds = Done _ s ->
  forall f r, ~ recursive U f -> lookup L (analyzed L s) f = Some r -> follows U (analyzed L s) f r.
Theorem C165_bystanders_fail_refuted : ~ only_recursive_functions_are_approximated.
Proof.
  intro H.
  assert (Hs : exists s, analyze_all bool bystander 9 [0; 1; 2; 3] = Done _ s /\ lookup bool (analyzed bool s) 3 = Some (Failed bool too_many_iterations)) by (eexists; split; vm_compute; reflexivity).
  destruct Hs as (s & Es & Ls).
  assert (Hf : follows bystander (analyzed bool s) 3 (Failed bool too_many_iterations)).
  { apply (H bool bystander [0; 1; 2; 3] [0; 1; 2; 3] 9%nat s).
    - intro f. reflexivity.
    - apply one_param_depends.
    - apply one_param_within; reflexivity.
    - cbn. lia.
    - exact Es.
    - intros (g & [_ (cs & Hcs & Hg)] & Hr). cbn in Hcs. injection Hcs as <-. destruct Hg as [<-|[]].
      assert (Hx : forall x y, reaches bystander x y -> x = 2 -> y = 2).
      { intros x y Hxy. induction Hxy as [x|x y z [_ (cs & Hcs & Hg)] Hxy IH]; intros ->; [reflexivity|]. cbn in Hcs. injection Hcs as <-. destruct Hg as [<-|[]]. apply IH. reflexivity. }
      pose proof (Hx _ _ Hr eq_refl). discriminate.
    - exact Ls. }
  inversion Hf as [Hd Hx|e Hd Hc Hx|Hb Hc Hx].
  all: cbn in Hd; discriminate.
Qed.
Print Assumptions C165_bystanders_fail_refuted.

(** ** C166: virtual methods *)
Section Virtual.
Context {L : Type}.
Variable U : unit_info L.
Variable M : Z -> Prop.
Variable depth : Z -> nat.
(** Methods that call nothing, all of them defined or pure, in a hierarchy without circles. *)
Record leaf_methods : Prop := Leaf {
  lm_builtin : forall f, M f -> builtin L U f = false;
  lm_virtual : forall f, M f -> is_virtual L U f = true;
  lm_defined : forall f, M f -> defined L U f = true \/ is_pure L U f = true;
  lm_callees : forall f, M f -> callees L U f = inl [];
  lm_single : forall f a, M f -> single L U f a = single L U f [];
  lm_over : forall f o, M f -> In o (overriding L U f) -> M o /\ (depth o < depth f)%nat /\ num_params L U o = num_params L U f;
  lm_bases : forall f b, M f -> In b (base_methods L U f) -> M b;
  lm_below : forall f, M f -> exists b, In b (base_methods L U f) /\ below U b f
}.
Hypothesis HL : leaf_methods.
Notation lookup := (lookup L).
Definition good (a : env L) : Prop := forall g r, lookup a g = Some r -> combined U g r.
Lemma set_last : forall v f b c d, set_overrides (v ++ [Entry f c b]) (length v) d = v ++ [Entry f c d].
Proof.
  intros v f b c d. unfold set_overrides. rewrite firstn_app, Nat.sub_diag, firstn_all, firstn_O, app_nil_r.
  rewrite skipn_app, skipn_all, Nat.sub_diag. reflexivity.
Qed.
Lemma last_last : forall v f c d, last_in_overrides (v ++ [Entry f c d]) = d.
Proof. intros. unfold last_in_overrides. rewrite rev_app_distr. reflexivity. Qed.
Lemma nth_last : forall v (e : entry), nth_error (v ++ [e]) (length v) = Some e.
Proof. intros. rewrite nth_error_app2 by lia. rewrite Nat.sub_diag. reflexivity. Qed.
Lemma finish_leaf : forall f v a in_ov bases os, bases = [] \/ Model.has L a f = true ->
  finish L U f (length v) in_ov bases os (State L a (v ++ [Entry f false false]))
  = Done _ (State L (let a' := match bases with [] => put L f (single L U f a) a | _ => a end in if in_ov then update_with_overrides L U f os a' else a') v).
Proof.
  intros f v a in_ov bases os Hb. unfold finish. cbn [visited analyzed]. rewrite nth_last. cbn [e_func]. rewrite Z.eqb_refl. cbn [negb].
  replace (length (v ++ [Entry f false false]) - 1)%nat with (length v) by (rewrite app_length; cbn; lia). rewrite Nat.ltb_irrefl. cbn [andb].
  unfold cycle_at at 1. rewrite nth_last. cbn [in_cycle]. rewrite andb_false_r. cbn [andb].
  unfold cycle_at at 1. rewrite nth_last. cbn [in_cycle negb].
  assert (Hf : firstn (length v) (v ++ [Entry f false false]) = v) by (rewrite firstn_app, Nat.sub_diag, firstn_all, firstn_O, app_nil_r; reflexivity).
  destruct bases as [|b bs].
  - cbn [bind]. rewrite Hf. reflexivity.
  - destruct Hb as [Hb|Hb]; [discriminate|]. rewrite Hb. cbn [bind]. rewrite Hf. reflexivity.
Qed.
Lemma with_overrides_ok : forall f os l (a : env L), M f -> (forall o, In o os -> In o (overriding L U f)) ->
  (forall o, In o os -> exists r, lookup a o = Some r /\ combined U o r) ->
  constrained U f l os (with_overrides L U f l os a).
Proof.
  intros f os. induction os as [|o os IH]; intros l a HM Hos Ha; cbn [with_overrides]; [apply KNil|].
  destruct (lm_over HL f o HM (Hos o (or_introl eq_refl))) as (_ & _ & Hn). rewrite Hn, Nat.eqb_refl. cbn [negb].
  destruct (Ha o (or_introl eq_refl)) as (r & Hr & Hc). rewrite Hr.
  assert (Hos' : forall x, In x os -> In x (overriding L U f)) by (intros x Hx; apply Hos; right; exact Hx).
  assert (Ha' : forall x, In x os -> exists r, lookup a x = Some r /\ combined U x r) by (intros x Hx; apply Ha; right; exact Hx).
  destruct r as [lo|e].
  - destruct (constrain L U f l lo) as [l'|e] eqn:Ek.
    + apply (KCons U f l o os lo l'); [exact Hc | exact Ek | apply IH; assumption].
    + apply (KConflict U f l o os lo e); assumption.
  - apply (KSkip U f l o os e); [exact Hc | apply IH; assumption].
Qed.
Definition grows (a a' : env L) : Prop := forall g, Model.has L a g = true -> Model.has L a' g = true.
Lemma traversal_ok : forall n fuel f a v, (depth f < n)%nat -> (n <= fuel)%nat -> M f -> last_in_overrides v = true -> good a ->
  exists a', analyze L U fuel f (State L a v) = Done _ (State L a' v) /\ good a' /\ grows a a' /\ forall g, below U f g -> Model.has L a' g = true.
Proof.
  induction n as [|n IH]; intros fuel f a v Hd Hf HM Hv Hg; [lia|]. destruct fuel as [|fuel]; [lia|].
  cbn [analyze analyzed visited]. rewrite (lm_builtin HL f HM), (lm_virtual HL f HM), Hv. cbn [andb negb]. rewrite andb_false_r.
  assert (Hdef : negb (defined L U f) && negb (is_pure L U f) = false) by (destruct (lm_defined HL f HM) as [E|E]; rewrite E; [reflexivity | apply andb_false_r]).
  rewrite Hdef. cbn [andb]. rewrite (lm_callees HL f HM). cbn [over bind analyzed visited]. rewrite set_last.
  assert (Hloop : forall os a0, (forall o, In o os -> In o (overriding L U f)) -> good a0 ->
    exists a1, over L (analyze L U fuel) os (State L a0 (v ++ [Entry f false true])) = Done _ (State L a1 (v ++ [Entry f false true])) /\ good a1 /\ grows a0 a1
      /\ forall o, In o os -> forall g, below U o g -> Model.has L a1 g = true).
  { induction os as [|o os IHos]; intros a0 Hos Ha0; cbn [over].
    - exists a0. split; [reflexivity|]. split; [exact Ha0|]. split; [intros g H; exact H | intros o []].
    - destruct (lm_over HL f o HM (Hos o (or_introl eq_refl))) as (HMo & Hdo & _).
      destruct (IH fuel o a0 (v ++ [Entry f false true])) as (a1 & E1 & G1 & W1 & B1); [lia | lia | exact HMo | apply last_last | exact Ha0|].
      rewrite E1. cbn [bind]. destruct (IHos a1) as (a2 & E2 & G2 & W2 & B2); [intros x Hx; apply Hos; right; exact Hx | exact G1|].
      exists a2. split; [exact E2|]. split; [exact G2|]. split; [intros g H; apply W2, W1, H|].
      intros x [<-|Hx] g Hbg; [apply W2, (B1 g Hbg) | exact (B2 x Hx g Hbg)]. }
  destruct (Hloop (overriding L U f) a (fun o Ho => Ho) Hg) as (a1 & E1 & G1 & W1 & B1). rewrite E1. cbn [bind analyzed visited]. rewrite set_last.
  rewrite finish_leaf by (left; reflexivity). cbn [analyzed visited].
  exists (update_with_overrides L U f (overriding L U f) (put L f (single L U f a1) a1)). split; [reflexivity|].
  assert (Hne : forall o, In o (overriding L U f) -> o <> f).
  { intros o Ho ->. destruct (lm_over HL f f HM Ho) as (_ & Hlt & _). lia. }
  assert (Hlook : exists r, combined U f r /\ forall g, lookup (update_with_overrides L U f (overriding L U f) (put L f (single L U f a1) a1)) g = if g =? f then Some r else lookup a1 g).
  { unfold update_with_overrides. rewrite lookup_put_same. rewrite (lm_single HL f a1 HM). destruct (single L U f []) as [l|e] eqn:Es.
    - exists (with_overrides L U f l (overriding L U f) (put L f (Lifetimes L l) a1)). split.
      + apply (CBody U f l); [exact Es|]. apply with_overrides_ok; [exact HM | auto|].
        intros o Ho. rewrite lookup_put_other by (apply Hne; exact Ho). pose proof (B1 o Ho o (BSelf U o)) as Hh. apply has_lookup in Hh. destruct Hh as [r Hr].
        exists r. split; [exact Hr | exact (G1 o r Hr)].
      + intro g. rewrite !lookup_put. destruct (g =? f); reflexivity.
    - exists (Failed L e). split; [apply CFailed; exact Es|]. intro g. apply lookup_put. }
  destruct Hlook as (r & Hc & Hlook). split; [|split].
  - intros g x Hx. rewrite Hlook in Hx. destruct (g =? f) eqn:Eg; [apply Z.eqb_eq in Eg; subst g; injection Hx as <-; exact Hc | exact (G1 g x Hx)].
  - intros g Hgx. apply W1 in Hgx. apply has_lookup in Hgx. destruct Hgx as [x Hx]. apply has_lookup. rewrite Hlook. destruct (g =? f); eexists; [reflexivity | exact Hx].
  - intros g Hb. apply has_lookup. rewrite Hlook. destruct (g =? f) eqn:Eg; [eexists; reflexivity|].
    inversion Hb as [|? o ? Ho Hb']; subst; [rewrite Z.eqb_refl in Eg; discriminate|]. apply has_lookup. exact (B1 o Ho g Hb').
Qed.
End Virtual.

Theorem C166_overriders_are_taken_into_account_partial : forall (L : Type) (U : unit_info L) (M : Z -> Prop) (depth : Z -> nat) (n : nat) (definitions : list Z) (fuel : nat),
  leaf_methods U M depth -> (forall d, In d definitions -> M d) -> (forall f, M f -> (depth f < n)%nat) -> (n < fuel)%nat ->
  exists st, analyze_all L U fuel definitions = Done _ st /\ visited L st = []
    /\ (forall f r, lookup L (analyzed L st) f = Some r -> combined U f r)
    /\ forall d, In d definitions -> exists r, lookup L (analyzed L st) d = Some r.
Proof.
  intros L U M depth n definitions fuel HL HM Hd Hfuel. unfold analyze_all.
  assert (Hgen : forall ds a, (forall d, In d ds -> M d) -> good U a ->
    exists a', over L (analyze L U fuel) ds (State L a []) = Done _ (State L a' []) /\ good U a' /\ grows a a' /\ forall d, In d ds -> Model.has L a' d = true).
  { induction ds as [|d ds IH]; intros a Hds Ha; cbn [over].
    - exists a. split; [reflexivity|]. split; [exact Ha|]. split; [intros g H; exact H | intros d []].
    - assert (Hone : exists a', analyze L U fuel d (State L a []) = Done _ (State L a' []) /\ good U a' /\ grows a a' /\ Model.has L a' d = true).
      { assert (HMd : M d) by (apply Hds; left; reflexivity). destruct fuel as [|fuel']; [lia|].
        cbn [analyze analyzed visited]. rewrite (lm_builtin _ _ _ HL d HMd), (lm_virtual _ _ _ HL d HMd). cbn [andb negb].
        assert (Hdef : negb (defined L U d) && negb (is_pure L U d) = false) by (destruct (lm_defined _ _ _ HL d HMd) as [E|E]; rewrite E; [reflexivity | apply andb_false_r]).
        rewrite Hdef. cbn [andb]. change (last_in_overrides []) with false. cbn [negb]. rewrite andb_true_r.
        destruct (Model.has L a d) eqn:Eh.
        { exists a. split; [reflexivity|]. split; [exact Ha|]. split; [intros g H; exact H | exact Eh]. }
        cbn [find_and_mark]. rewrite (lm_callees _ _ _ HL d HMd). cbn [over bind analyzed visited]. rewrite (set_last [] d false false true). cbn [app].
        assert (Hloop : forall bs a0, (forall b, In b bs -> In b (base_methods L U d)) -> good U a0 ->
          exists a1, over L (analyze L U fuel') bs (State L a0 [Entry d false true]) = Done _ (State L a1 [Entry d false true]) /\ good U a1 /\ grows a0 a1
            /\ forall b, In b bs -> forall g, below U b g -> Model.has L a1 g = true).
        { induction bs as [|b bs IHb]; intros a0 Hbs Ha0; cbn [over].
          - exists a0. split; [reflexivity|]. split; [exact Ha0|]. split; [intros g H; exact H | intros b []].
          - assert (HMb : M b) by (apply (lm_bases _ _ _ HL d b HMd); apply Hbs; left; reflexivity).
            destruct (traversal_ok U M depth HL n fuel' b a0 [Entry d false true]) as (a1 & E1 & G1 & W1 & B1); [apply Hd; exact HMb | lia | exact HMb | reflexivity | exact Ha0|].
            rewrite E1. cbn [bind]. destruct (IHb a1) as (a2 & E2 & G2 & W2 & B2); [intros x Hx; apply Hbs; right; exact Hx | exact G1|].
            exists a2. split; [exact E2|]. split; [exact G2|]. split; [intros g H; apply W2, W1, H|].
            intros x [<-|Hx] g Hbg; [apply W2, (B1 g Hbg) | exact (B2 x Hx g Hbg)]. }
        destruct (Hloop (base_methods L U d) a (fun b Hb => Hb) Ha) as (a1 & E1 & G1 & W1 & B1).
        destruct (lm_below _ _ _ HL d HMd) as (b & Hb & Hbd). pose proof (B1 b Hb d Hbd) as Hh.
        cbn [length]. change [Entry d false true] with ([] ++ [Entry d false true]) in *. rewrite E1. cbn [bind analyzed visited].
        change 0%nat with (length (@nil entry)). rewrite set_last, finish_leaf by (right; exact Hh).
        exists a1. destruct (base_methods L U d) as [|b0 bs] eqn:Eb; [destruct Hb|]. cbv zeta. split; [reflexivity|].
        split; [exact G1|]. split; [exact W1 | exact Hh]. }
      destruct Hone as (a1 & E1 & G1 & W1 & H1). rewrite E1. cbn [bind].
      destruct (IH a1) as (a2 & E2 & G2 & W2 & H2); [intros x Hx; apply Hds; right; exact Hx | exact G1|].
      exists a2. split; [exact E2|]. split; [exact G2|]. split; [intros g H; apply W2, W1, H|].
      intros x [<-|Hx]; [apply W2, H1 | exact (H2 x Hx)]. }
  destruct (Hgen definitions [] HM) as (a & E & G & _ & H); [intros g r Hr; discriminate|].
  exists (State L a []). split; [exact E|]. split; [reflexivity|]. split; [exact G|]. intros d Hdd. apply has_lookup. exact (H d Hdd).
Qed.
Print Assumptions C166_overriders_are_taken_into_account_partial.

(** A method [0], its overrider [1], and the overrider [2] of that.  [pure], [declared]: the methods that are pure, or only declared in this unit. *)
Definition methods (own : Z -> bool) (cs : Z -> list Z) (overs : Z -> list Z) (pure declared : Z -> bool) : unit_info bool :=
  {| builtin := fun _ => false; defined := fun f => negb (pure f || declared f); is_virtual := fun _ => true; is_pure := pure;
     callees := fun f => inl (cs f); base_methods := fun _ => [0]; overriding := overs; num_params := fun _ => 1%nat;
     annotations := fun _ => Lifetimes bool true;
     single := fun f _ => Lifetimes bool (own f); disconnected := fun _ => Lifetimes bool false; isomorphic := Bool.eqb; constrain := fun _ b1 b2 => Lifetimes bool (b1 && b2) |}.
Definition own1 (f : Z) : bool := negb (f =? 2).
Definition three : unit_info bool := methods own1 (fun _ => []) (fun f => if f =? 0 then [1] else if f =? 1 then [2] else []) (fun f => f =? 0) (fun _ => false).
Example C166_applies : leaf_methods three (fun f => f = 0 \/ f = 1 \/ f = 2) (fun f => Z.to_nat (2 - f))
  /\ exists st, analyze_all bool three 9 [1; 2] = Done _ st
     /\ List.map (lookup bool (analyzed bool st)) [0; 1; 2] = [Some (Lifetimes bool false); Some (Lifetimes bool false); Some (Lifetimes bool false)].
Proof.
  split.
  - constructor.
    + reflexivity. + reflexivity.
    + intros f [->|[->| ->]]; cbn; auto.
    + reflexivity. + reflexivity.
    + intros f o [->|[->| ->]] Ho; cbn in Ho; try destruct Ho as [<-|[]]; try contradiction; (split; [auto | split; [cbn; lia | reflexivity]]).
    + intros f b _ [<-|[]]. auto.
    + intros f Hf. exists 0. split; [left; reflexivity|]. destruct Hf as [->|[->| ->]].
      * apply BSelf.
      * apply (BOver _ 0 1); [left; reflexivity | apply BSelf].
      * apply (BOver _ 0 1); [left; reflexivity|]. apply (BOver _ 1 2); [left; reflexivity | apply BSelf].
  - eexists. split; vm_compute; reflexivity.
Qed.

(** The same without the condition that every method of the hierarchy is defined in this unit: if the method at the top is only declared here, or the
    one in between is pure (so that it is not among the definitions from which the overriders are collected), the overrider gets no result. *)
Definition declared_base : unit_info bool := methods own1 (fun _ => []) (fun f => if f =? 0 then [1] else []) (fun _ => false) (fun f => f =? 0).
Definition pure_between : unit_info bool := methods own1 (fun _ => []) (fun f => if f =? 1 then [2] else []) (fun f => f =? 1) (fun _ => false).
Theorem C166_overriders_of_declared_methods_refuted :
  ~ (forall (L : Type) (U : unit_info L) (definitions : list Z), (forall f, builtin L U f = false) -> (forall f, callees L U f = inl []) ->
       (forall d, In d definitions -> defined L U d = true) ->
       exists fuel st, analyze_all L U fuel definitions = Done _ st /\ forall d, In d definitions -> exists r, lookup L (analyzed L st) d = Some r)
  /\ (forall fuel, (3 < fuel)%nat -> analyze_all bool pure_between fuel [0; 2] = Crash _).
Proof.
  split.
  - intro H. destruct (H bool declared_base [1]) as (fuel & st & E & _); [reflexivity | reflexivity | intros d [<-|[]]; reflexivity|].
    destruct fuel as [|[|fuel]]; discriminate.
  - intros fuel Hf. destruct fuel as [|[|[|[|fuel]]]]; try lia. reflexivity.
Qed.
Print Assumptions C166_overriders_of_declared_methods_refuted.

(** If the base method calls itself, whether its overrider counts depends on which of the two is defined first. *)
Definition recursive_base : unit_info bool := methods (fun f => f =? 0) (fun f => if f =? 0 then [0] else []) (fun f => if f =? 0 then [1] else []) (fun _ => false) (fun _ => false).
Theorem C166_recursive_base_refuted :
  (exists st, analyze_all bool recursive_base 9 [0; 1] = Done _ st /\ lookup bool (analyzed bool st) 1 = Some (Lifetimes bool false) /\ lookup bool (analyzed bool st) 0 = Some (Lifetimes bool true))
  /\ exists st, analyze_all bool recursive_base 9 [1; 0] = Done _ st /\ lookup bool (analyzed bool st) 1 = Some (Lifetimes bool false) /\ lookup bool (analyzed bool st) 0 = Some (Lifetimes bool false).
Proof. split; eexists; (split; [vm_compute; reflexivity | split; vm_compute; reflexivity]). Qed.
Print Assumptions C166_recursive_base_refuted.
