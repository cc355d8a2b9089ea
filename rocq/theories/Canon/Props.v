(** C182, C183: one item per entity. *)
From Coq Require Import List ZArith NArith Bool Lia.
From Verif.Canon Require Import Model Spec.
Import ListNotations.

Lemma from_here_in d after : forall before x, In d after -> (In x (from_here d before after) <-> In x before \/ In x after).
Proof.
  induction after as [|r rest IH]; intros before x Hd; [destruct Hd|]. cbn [from_here]. destruct (Z.eqb_spec (r_id r) (r_id d)) as [E|N].
  - rewrite in_app_iff, <- in_rev. tauto.
  - destruct Hd as [->|Hd]; [congruence|]. rewrite IH by exact Hd. cbn [In]. tauto.
Qed.
Lemma redecls_in chain d x : In d chain -> (In x (redecls chain d) <-> In x chain).
Proof. intros H. unfold redecls. rewrite from_here_in by exact H. cbn [In]. tauto. Qed.
Lemma from_here_first d after : forall before, In d after -> NoDup (map r_id after) -> exists l, from_here d before after = d :: l.
Proof.
  induction after as [|r rest IH]; intros before Hd N; [destruct Hd|]. cbn [from_here]. cbn [map] in N. inversion N as [|? ? Nr N']; subst.
  destruct (Z.eqb_spec (r_id r) (r_id d)) as [E|Ne].
  - destruct Hd as [->|Hd]; [eexists; reflexivity|]. exfalso. apply Nr. rewrite E. apply in_map. exact Hd.
  - destruct Hd as [->|Hd]; [congruence|]. apply IH; assumption.
Qed.

Definition fits (t : Z) (r : redecl) : Prop := r_injected r = false /\ r_target r = t.
Lemma scan_finds t l : forall acc,
  match scan t l acc with
  | None => acc = None /\ forall r, In r l -> ~ fits t r
  | Some c => (In c l /\ fits t c /\ r_def c = true) \/
      ((forall r, In r l -> fits t r -> r_def r = false) /\ (acc = Some c \/ In c l /\ fits t c) /\
       (forall a, acc = Some a -> (r_begin c <= r_begin a)%N) /\ forall r, In r l -> fits t r -> (r_begin c <= r_begin r)%N)
  end.
Proof.
  induction l as [|r l IH]; intros acc; cbn [scan].
  - destruct acc as [c|]; [|split; [reflexivity|intros r []]]. right. split; [intros r []|]. split; [left; reflexivity|]. split; [intros a [= <-]; lia|intros r []].
  - assert (Skip : ~ fits t r -> match scan t l acc with
      | None => acc = None /\ forall r', In r' (r :: l) -> ~ fits t r'
      | Some c => (In c (r :: l) /\ fits t c /\ r_def c = true) \/
          ((forall r', In r' (r :: l) -> fits t r' -> r_def r' = false) /\ (acc = Some c \/ In c (r :: l) /\ fits t c) /\
           (forall a, acc = Some a -> (r_begin c <= r_begin a)%N) /\ forall r', In r' (r :: l) -> fits t r' -> (r_begin c <= r_begin r')%N) end).
    { intros Nf. specialize (IH acc). destruct (scan t l acc) as [c|].
      - destruct IH as [(I & F & D)|(D & O & A & B)]; [left; cbn [In]; tauto|right]. split; [intros r' [<-|I] F; [contradiction|auto]|].
        split; [cbn [In]; tauto|]. split; [exact A|]. intros r' [<-|I] F; [contradiction|auto].
      - destruct IH as [E H]. split; [exact E|]. intros r' [<-|I]; [exact Nf|auto]. }
    destruct (r_injected r) eqn:Ei; [apply Skip; intros [F _]; congruence|].
    destruct (Z.eqb_spec (r_target r) t) as [Et|Nt]; cbn [negb]; [|apply Skip; intros [_ F]; congruence]. clear Skip.
    assert (F : fits t r) by (split; assumption).
    destruct (r_def r) eqn:Ed; [left; cbn [In]; auto|].
    assert (Keep : forall k, (k = r \/ acc = Some k) -> (k <> r -> (r_begin k <= r_begin r)%N) -> (forall a, acc = Some a -> (r_begin k <= r_begin a)%N) ->
      match scan t l (Some k) with
      | None => acc = None /\ forall r', In r' (r :: l) -> ~ fits t r'
      | Some c => (In c (r :: l) /\ fits t c /\ r_def c = true) \/
          ((forall r', In r' (r :: l) -> fits t r' -> r_def r' = false) /\ (acc = Some c \/ In c (r :: l) /\ fits t c) /\
           (forall a, acc = Some a -> (r_begin c <= r_begin a)%N) /\ forall r', In r' (r :: l) -> fits t r' -> (r_begin c <= r_begin r')%N) end).
    { intros k Hk Hr Ha. specialize (IH (Some k)). destruct (scan t l (Some k)) as [c|]; [|destruct IH; discriminate].
      destruct IH as [(I & Fc & D)|(D & O & A & B)]; [left; cbn [In]; tauto|right]. pose proof (A k eq_refl) as Hck.
      split; [intros r' [<-|I] F'; [exact Ed|auto]|]. split.
      - destruct O as [[= <-]|[I Fc]]; [|right; cbn [In]; auto]. destruct Hk as [->|Hk]; [right; cbn [In]; auto|left; exact Hk].
      - split; [intros a Ea; specialize (Ha a Ea); lia|]. intros r' [<-|I] F'; [|auto].
        destruct Hk as [->|Hk]; [exact Hck|]. assert (Hkr : (r_begin k <= r_begin r)%N).
        { destruct (Z.eq_dec (r_id k) (r_id r)) as [E|N]; [|apply Hr; congruence]. destruct (N.le_gt_cases (r_begin k) (r_begin r)) as [L|G]; [exact L|].
          apply Hr. intros ->. lia. }
        lia. }
    destruct acc as [c0|].
    + destruct (N.ltb_spec (r_begin r) (r_begin c0)) as [L|G].
      * apply Keep; [left; reflexivity|congruence|]. intros a [= <-]. lia.
      * apply Keep; [right; reflexivity|auto|]. intros a [= <-]. lia.
    + apply Keep; [left; reflexivity|congruence|discriminate].
Qed.

(** * C182 One item per class and target *)
(** The declaration chosen stands for the class in the target of the declaration one starts from; in particular there is one, and the CHECK passes. *)
Theorem C182_definition_or_first chain d : In d chain -> r_injected d = false ->
  exists c, canonical_tag chain d = Some c /\ stands_for chain (r_target d) c.
Proof.
  intros I Ni. unfold canonical_tag. rewrite Ni. pose proof (scan_finds (r_target d) (redecls chain d) None) as H.
  destruct (scan (r_target d) (redecls chain d) None) as [c|].
  - exists c. split; [reflexivity|]. unfold stands_for, of_target. destruct H as [(Ic & [F1 F2] & D)|(D & O & _ & B)].
    + apply redecls_in in Ic; [|exact I]. auto.
    + destruct O as [O|(Ic & F1 & F2)]; [discriminate|]. apply redecls_in in Ic; [|exact I]. split; [auto|]. right. split.
      * intros r (Ir & F). apply D; [apply redecls_in; assumption|exact F].
      * intros r (Ir & F). apply B; [apply redecls_in; assumption|exact F].
  - destruct H as [_ H]. exfalso. apply (H d); [apply redecls_in; assumption|split; auto].
Qed.
Print Assumptions C182_definition_or_first.
Theorem C182_one_stands_for chain t c c' : chain_ok chain -> stands_for chain t c -> stands_for chain t c' -> c = c'.
Proof.
  intros (_ & B & D) (O & H) (O' & H'). destruct H as [H|[Hn Hb]]; destruct H' as [H'|[Hn' Hb']].
  - exact (D t c c' O O' H H').
  - rewrite (Hn' c O) in H. discriminate.
  - rewrite (Hn c' O') in H'. discriminate.
  - destruct O as (I & F & T), O' as (I' & F' & T'). apply B; try assumption. pose proof (Hb c' (conj I' (conj F' T'))). pose proof (Hb' c (conj I (conj F T))). lia.
Qed.
Print Assumptions C182_one_stands_for.
(** Whatever redeclaration a class is reached through, it is one item, although Clang's iteration starts at that redeclaration. *)
Theorem C182_one_item_per_target chain d d' : chain_ok chain -> In d chain -> In d' chain -> r_injected d = false -> r_injected d' = false ->
  r_target d = r_target d' -> canonical_tag chain d = canonical_tag chain d'.
Proof.
  intros K I I' N N' T. destruct (C182_definition_or_first chain d I N) as (c & -> & S). destruct (C182_definition_or_first chain d' I' N') as (c' & -> & S').
  rewrite <- T in S'. f_equal. exact (C182_one_stands_for chain _ c c' K S S').
Qed.
Print Assumptions C182_one_item_per_target.
(** Different targets get different items; and the canonical declaration is its own canonical declaration. *)
Theorem C182_targets_are_separate chain d d' c : In d chain -> In d' chain -> canonical_tag chain d = Some c -> canonical_tag chain d' = Some c ->
  r_target d = r_target d'.
Proof.
  intros I I' E E'. assert (N : forall x, canonical_tag chain x = Some c -> r_injected x = false) by (intros x Ex; unfold canonical_tag in Ex; destruct (r_injected x); [discriminate|reflexivity]).
  destruct (C182_definition_or_first chain d I (N d E)) as (x & Ex & (_ & _ & Tx) & _). destruct (C182_definition_or_first chain d' I' (N d' E')) as (x' & Ex' & (_ & _ & Tx') & _).
  congruence.
Qed.
Print Assumptions C182_targets_are_separate.
Theorem C182_idempotent chain d c : chain_ok chain -> In d chain -> canonical_tag chain d = Some c -> canonical_tag chain c = Some c.
Proof.
  intros K I E. assert (N : r_injected d = false) by (unfold canonical_tag in E; destruct (r_injected d); [discriminate|reflexivity]).
  destruct (C182_definition_or_first chain d I N) as (c' & E' & S). rewrite E in E'. injection E' as <-. pose proof S as ((Ic & Nc & Tc) & _).
  rewrite <- E. apply C182_one_item_per_target; auto.
Qed.
Print Assumptions C182_idempotent.
(** [class C; class C; class C {};] in target 1, 3 is the definition; redeclared in target 2 before and after. *)
Definition c1 := Redecl 11 false 1 false 10 false.
Definition c2 := Redecl 12 false 2 false 20 false.
Definition c3 := Redecl 13 false 1 true 30 false.
Definition c4 := Redecl 14 false 2 false 40 false.
Definition injected := Redecl 15 true 1 false 32 true.
Definition chain1 := [c4; injected; c3; c2; c1].
Example C182_case : chain_ok chain1 /\ map (canonical_tag chain1) chain1 = [Some c2; None; Some c3; Some c2; Some c3].
Proof.
  split; [|reflexivity]. split; [|split].
  - cbn. repeat constructor; cbn; intuition discriminate.
  - intros a b Ia Ib Na Nb E. cbn in Ia, Ib. intuition (subst; try discriminate; reflexivity).
  - intros t a b (Ia & _) (Ib & _) Da Db. cbn in Ia, Ib. intuition (subst; try discriminate; reflexivity).
Qed.

(** * C183 One item per function *)
(** Proved for member functions, for functions first declared outside classes, and for friends redeclared at most once outside classes. *)
Theorem C183_one_item_per_function_partial method chain d d' : In d chain -> In d' chain ->
  method = true \/ (forall c, last (map Some chain) None = Some c -> r_member c = false) \/
    (forall a b, In a chain -> In b chain -> r_member a = false -> r_member b = false -> a = b) ->
  canonical_function method chain d = canonical_function method chain d'.
Proof.
  intros I I' H. unfold canonical_function. destruct method; [reflexivity|]. destruct (last (map Some chain) None) as [c|]; [|reflexivity].
  destruct (r_member c) eqn:M; [|reflexivity]. destruct H as [H|[H|H]]; [discriminate|rewrite (H c eq_refl) in M; discriminate|].
  destruct (find (fun r => negb (r_member r)) (redecls chain d)) as [a|] eqn:Fa; destruct (find (fun r => negb (r_member r)) (redecls chain d')) as [b|] eqn:Fb; try reflexivity.
  - apply find_some in Fa, Fb. destruct Fa as [Ia Na], Fb as [Ib Nb]. f_equal. apply H; [apply (redecls_in chain d)|apply (redecls_in chain d')| |]; try assumption;
      [apply negb_true_iff; exact Na|apply negb_true_iff; exact Nb].
  - exfalso. apply find_some in Fa. destruct Fa as [Ia Na]. apply redecls_in in Ia; [|exact I]. rewrite (find_none _ _ Fb a) in Na; [discriminate|apply redecls_in; assumption].
  - exfalso. apply find_some in Fb. destruct Fb as [Ib Nb]. apply redecls_in in Ib; [|exact I']. rewrite (find_none _ _ Fa b) in Nb; [discriminate|apply redecls_in; assumption].
Qed.
Print Assumptions C183_one_item_per_function_partial.
(** Every redeclaration outside classes of a function that was first declared as a friend is its own item. *)
Theorem C183_friends_are_many_items chain c d : last (map Some chain) None = Some c -> r_member c = true -> NoDup (map r_id chain) -> In d chain -> r_member d = false ->
  canonical_function false chain d = Some d.
Proof.
  intros L M N I Md. unfold canonical_function. rewrite L, M. unfold redecls. destruct (from_here_first d chain [] I N) as (l & ->). cbn [find]. rewrite Md. reflexivity.
Qed.
Print Assumptions C183_friends_are_many_items.
(** [struct S { friend void f(S); };  void f(S);  void f(S);]: [f] is two items. *)
Theorem C183_friends_refuted : exists chain d d' c c', In d chain /\ In d' chain /\ chain_ok chain /\
  canonical_function false chain d = Some c /\ canonical_function false chain d' = Some c' /\ c <> c'.
Proof.
  exists [Redecl 3 false 1 false 30 false; Redecl 2 false 1 false 20 false; Redecl 1 false 1 false 10 true], (Redecl 3 false 1 false 30 false), (Redecl 2 false 1 false 20 false).
  do 2 eexists. split; [left; reflexivity|]. split; [right; left; reflexivity|]. split; [|split; [reflexivity|split; [reflexivity|discriminate]]].
  split; [cbn; repeat constructor; cbn; intuition discriminate|]. split.
  - intros a b Ia Ib _ _ E. cbn in Ia, Ib. intuition (subst; try discriminate; reflexivity).
  - intros t a b (Ia & _) (Ib & _) Da Db. cbn in Ia, Ib. intuition (subst; try discriminate; reflexivity).
Qed.
Print Assumptions C183_friends_refuted.
Example C183_case : let chain := [Redecl 2 false 1 true 20 false; Redecl 1 false 1 false 10 true] in
  (forall a b, In a chain -> In b chain -> r_member a = false -> r_member b = false -> a = b) /\
  map (canonical_function false chain) chain = [Some (Redecl 2 false 1 true 20 false); Some (Redecl 2 false 1 true 20 false)].
Proof. split; [|reflexivity]. intros a b Ia Ib. cbn in Ia, Ib. intuition (subst; try discriminate; reflexivity). Qed.
