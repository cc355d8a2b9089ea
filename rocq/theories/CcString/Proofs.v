(** * Proofs for CcString: the heap of owned strings *)
From Coq Require Import List Arith Bool Lia.
Import ListNotations.
From Verif Require Import CcString.Model CcString.Spec.

Definition oe : forall x y : owner, {x = y} + {x <> y}.
Proof. decide equality; apply Nat.eq_dec. Qed.

Definition Inv (h : addr -> option bytes) (n : addr) (o : owner -> option addr)
    (sv : owner -> option bytes) : Prop :=
  (forall x, match o x, sv x with
             | Some a, Some b => h a = Some b
             | None, None => True
             | _, _ => False
             end) /\
  (forall x y a, o x = Some a -> o y = Some a -> x = y) /\
  (forall a, h a <> None -> exists x, o x = Some a) /\
  (forall a, n <= a -> h a = None).

Lemma inv_live h n o sv x a : Inv h n o sv -> o x = Some a -> exists b, sv x = Some b /\ h a = Some b.
Proof.
  intros [I _] E. specialize (I x). rewrite E in I.
  destruct (sv x) as [b|]; [|contradiction]. eauto.
Qed.

Lemma inv_spec h n o sv x b : Inv h n o sv -> sv x = Some b -> exists a, o x = Some a /\ h a = Some b.
Proof.
  intros [I _] E. specialize (I x). rewrite E in I.
  destruct (o x) as [a|]; [|contradiction]. eauto.
Qed.

Lemma inv_none h n o sv x : Inv h n o sv -> (o x = None <-> sv x = None).
Proof.
  intros [I _]. specialize (I x). destruct (o x), (sv x); split; congruence || contradiction.
Qed.

Ltac dest :=
  repeat match goal with
  | |- context [if oe ?a ?b then _ else _] => destruct (oe a b); subst
  | H : context [if oe ?a ?b then _ else _] |- _ => destruct (oe a b); subst
  | |- context [Nat.eqb ?a ?b] => destruct (Nat.eqb_spec a b); subst
  | H : context [Nat.eqb ?a ?b] |- _ => destruct (Nat.eqb_spec a b); subst
  end.

Lemma inv_create h n o sv x b h' o' sv' :
  Inv h n o sv -> o x = None ->
  (forall a, h' a = if Nat.eqb a n then Some b else h a) ->
  (forall y, o' y = if oe y x then Some n else o y) ->
  (forall y, sv' y = if oe y x then Some b else sv y) ->
  Inv h' (S n) o' sv'.
Proof.
  intros I Hx Eh Eo Es. pose proof I as (I1 & I2 & I3 & I4).
  assert (F : forall y, o y <> Some n).
  { intros y E. destruct (inv_live _ _ _ _ _ _ I E) as (b' & _ & Hb).
    rewrite I4 in Hb; [discriminate|lia]. }
  split; [|split; [|split]].
  - intros y. rewrite Eo, Es. dest.
    + rewrite Eh, Nat.eqb_refl. reflexivity.
    + specialize (I1 y). destruct (o y) as [a|] eqn:Ey; [|exact I1].
      destruct (sv y); [|exact I1]. rewrite Eh. dest; [|exact I1].
      exfalso. exact (F y Ey).
  - intros y z a. rewrite !Eo. dest; intros E1 E2; auto.
    + injection E1 as <-. exfalso. exact (F _ E2).
    + injection E2 as <-. exfalso. exact (F _ E1).
    + eauto.
  - intros a. rewrite Eh. dest; intros H.
    + exists x. rewrite Eo. dest; congruence.
    + destruct (I3 a H) as (y & Ey). exists y. rewrite Eo. dest; congruence.
  - intros a Ha. rewrite Eh. dest; [lia|]. apply I4. lia.
Qed.

Lemma inv_transfer h n o sv x y a b o' sv' :
  Inv h n o sv -> o x = Some a -> sv x = Some b -> o y = None ->
  (forall z, o' z = if oe z y then Some a else if oe z x then None else o z) ->
  (forall z, sv' z = if oe z y then Some b else if oe z x then None else sv z) ->
  Inv h n o' sv'.
Proof.
  intros I Hx Hs Hy Eo Es. pose proof I as (I1 & I2 & I3 & I4).
  split; [|split; [|split]].
  - intros z. rewrite Eo, Es. dest; try exact Logic.I; auto.
    + specialize (I1 x). rewrite Hx, Hs in I1. exact I1.
    + exact (I1 z).
  - intros z1 z2 a'. rewrite !Eo. dest; intros E1 E2; try congruence; eauto.
    + exfalso. injection E1 as <-. apply n1. exact (I2 _ _ _ E2 Hx).
    + exfalso. injection E2 as <-. apply n1. exact (I2 _ _ _ E1 Hx).
  - intros a' H. destruct (I3 a' H) as (z & Ez).
    destruct (oe z x) as [->|N].
    + exists y. rewrite Eo. dest; congruence.
    + exists z. rewrite Eo. dest; congruence.
  - exact I4.
Qed.

Lemma inv_delete h n o sv x a h' o' sv' :
  Inv h n o sv -> o x = Some a ->
  (forall a', h' a' = if Nat.eqb a' a then None else h a') ->
  (forall z, o' z = if oe z x then None else o z) ->
  (forall z, sv' z = if oe z x then None else sv z) ->
  Inv h' n o' sv'.
Proof.
  intros I Hx Eh Eo Es. pose proof I as (I1 & I2 & I3 & I4).
  split; [|split; [|split]].
  - intros z. rewrite Eo, Es. dest; try exact Logic.I.
    specialize (I1 z). destruct (o z) as [a'|] eqn:Ez; [|exact I1].
    destruct (sv z); [|exact I1]. rewrite Eh. dest; [|exact I1].
    exfalso. apply n0. exact (I2 _ _ _ Ez Hx).
  - intros z1 z2 a'. rewrite !Eo. dest; intros; try congruence; eauto.
  - intros a'. rewrite Eh. dest; intros H; [congruence|].
    destruct (I3 a' H) as (z & Ez). exists z. rewrite Eo. dest; congruence.
  - intros a' Ha. rewrite Eh. dest; auto.
Qed.

Lemma inv_write h n o sv x a b h' sv' :
  Inv h n o sv -> o x = Some a ->
  (forall a', h' a' = if Nat.eqb a' a then Some b else h a') ->
  (forall z, sv' z = if oe z x then Some b else sv z) ->
  Inv h' n o sv'.
Proof.
  intros I Hx Eh Es. pose proof I as (I1 & I2 & I3 & I4).
  split; [|split; [|split]].
  - intros z. rewrite Es. dest.
    + rewrite Hx, Eh, Nat.eqb_refl. reflexivity.
    + specialize (I1 z). destruct (o z) as [a'|] eqn:Ez; [|exact I1].
      destruct (sv z); [|exact I1]. rewrite Eh. dest; [|exact I1].
      exfalso. apply n0. exact (I2 _ _ _ Ez Hx).
  - exact I2.
  - intros a'. rewrite Eh. dest; intros H; [eauto|]. exact (I3 a' H).
  - intros a' Ha. rewrite Eh. dest; auto.
    destruct (inv_live _ _ _ _ _ _ I Hx) as (b' & _ & Hb). rewrite I4 in Hb by exact Ha. discriminate.
Qed.

(** ** The simulation *)
Definition own (w : world) (x : owner) : option addr :=
  match x with ByRust v => rs w v | ByWire s => wire w s end.
Definition sown (s : sworld) (x : owner) : option bytes :=
  match x with ByRust v => srs s v | ByWire s' => swire s s' end.

Definition cc_ok (x : option bytes) (y : option sval) : Prop :=
  match x, y with
  | Some b, Some (Known b') => b = b'
  | Some _, Some Unspecified => True
  | None, None => True
  | _, _ => False
  end.

Definition sim (w : world) (s : sworld) : Prop :=
  Inv (heap w) (next w) (own w) (sown s) /\ forall c, cc_ok (cc w c) (scc s c).

Lemma bytes_eqb_iff a : forall b, bytes_eqb a b = true <-> a = b.
Proof.
  induction a as [|x a IH]; intros [|y b]; cbn; try (split; congruence).
  rewrite andb_true_iff, IH, Nat.eqb_eq. split; [intros [-> ->]; reflexivity|].
  intros E. injection E as -> ->. auto.
Qed.

Lemma cc_known w s c b : sim w s -> scc s c = Some (Known b) -> cc w c = Some b.
Proof.
  intros [_ C] E. specialize (C c). rewrite E in C. destruct (cc w c); cbn in C; [congruence|contradiction].
Qed.
Lemma cc_some w s c x : sim w s -> scc s c = Some x -> exists b, cc w c = Some b.
Proof.
  intros [_ C] E. specialize (C c). rewrite E in C.
  destruct (cc w c) as [b|]; cbn in C; [eauto|contradiction].
Qed.
Lemma cc_none w s c : sim w s -> scc s c = None -> cc w c = None.
Proof.
  intros [_ C] E. specialize (C c). rewrite E in C. destruct (cc w c); cbn in C; [contradiction|reflexivity].
Qed.
Lemma rs_some w s v b : sim w s -> srs s v = Some b -> exists a, rs w v = Some a /\ heap w a = Some b.
Proof. intros [I _] E. exact (inv_spec _ _ _ _ (ByRust v) _ I E). Qed.
Lemma wire_some w s v b : sim w s -> swire s v = Some b -> exists a, wire w v = Some a /\ heap w a = Some b.
Proof. intros [I _] E. exact (inv_spec _ _ _ _ (ByWire v) _ I E). Qed.
Lemma rs_none w s v : sim w s -> srs s v = None -> rs w v = None.
Proof. intros [I _] E. exact (proj2 (inv_none _ _ _ _ (ByRust v) I) E). Qed.
Lemma wire_none w s v : sim w s -> swire s v = None -> wire w v = None.
Proof. intros [I _] E. exact (proj2 (inv_none _ _ _ _ (ByWire v) I) E). Qed.

Ltac pw := intros [q|q]; cbn; unfold up, put, take;
  repeat match goal with
  | |- context [oe ?x ?y] => destruct (oe x y); try congruence
  | |- context [Nat.eqb ?a ?b] => destruct (Nat.eqb_spec a b); subst; try congruence
  end; try reflexivity; try congruence.
Ltac ha := intros; cbn; unfold up;
  repeat match goal with
  | |- context [Nat.eqb ?a ?b] => destruct (Nat.eqb_spec a b); subst; try congruence
  end; try reflexivity.
Ltac ccs C := intros q; cbn; unfold up, put, take;
  repeat match goal with
  | |- context [Nat.eqb ?a ?b] => destruct (Nat.eqb_spec a b); subst
  end; cbn; try reflexivity; try exact Logic.I; try exact (C q).


Ltac opn := unfold step, string_create, string_read, string_delete, set_heap, set_rs, set_cc, set_wire;
    cbn [heap next rs cc wire].
Ltac fin := eexists; eexists; split; [reflexivity|]; split; [split|].

Lemma up_same {A} (f : nat -> option A) n v : up f n v n = v.
Proof. unfold up. rewrite Nat.eqb_refl. reflexivity. Qed.

Lemma sim_step leftover w s o s' x :
  sim w s -> sstep s o s' x ->
  exists w' y, step leftover w o = Some (w', y) /\ sim w' s' /\ agrees y x.
Proof.
  intros S T. pose proof S as [I C].
  destruct T as [s v b N|s v u b H N|s v u b H N|s v b H|s v b H|s v u b b' H H'|s v b b' H
    |s v k b H N|s v k b H N|s c k b H N|s c k b H N|s v c b H N|s c v b H N|s c b N|s c d b H N
    |s c d b H N|s c x H|s c b H|s c H|s c b x H].
  - pose proof (rs_none _ _ _ S N) as N'. opn. rewrite N'. fin; [|exact C|reflexivity].
    eapply (inv_create _ _ _ _ (ByRust v) b); [exact I|exact N'|ha|pw|pw].
  - pose proof (rs_none _ _ _ S N) as N'. destruct (rs_some _ _ _ _ S H) as (a & E & F).
    opn. rewrite E, N', F. fin; [|exact C|reflexivity].
    eapply (inv_create _ _ _ _ (ByRust u) b); [exact I|exact N'|ha|pw|pw].
  - pose proof (rs_none _ _ _ S N) as N'. destruct (rs_some _ _ _ _ S H) as (a & E & F).
    opn. rewrite E, N'. fin; [|exact C|reflexivity].
    eapply (inv_transfer _ _ _ _ (ByRust v) (ByRust u) a b); [exact I|exact E|exact H|exact N'|pw|pw].
  - destruct (rs_some _ _ _ _ S H) as (a & E & F).
    opn. rewrite E, F. fin; [|exact C|reflexivity].
    eapply (inv_delete _ _ _ _ (ByRust v) a); [exact I|exact E|ha|pw|pw].
  - destruct (rs_some _ _ _ _ S H) as (a & E & F).
    opn. rewrite E, F. fin; [exact I|exact C|reflexivity].
  - destruct (rs_some _ _ _ _ S H) as (a & E & F). destruct (rs_some _ _ _ _ S H') as (a' & E' & F').
    opn. rewrite E, E', F, F'. fin; [exact I|exact C|].
    cbn. eexists. split; [reflexivity|]. apply bytes_eqb_iff.
  - destruct (rs_some _ _ _ _ S H) as (a & E & F).
    opn. rewrite E, F. fin; [|exact C|reflexivity].
    eapply (inv_write _ _ _ _ (ByRust v) a b); [exact I|exact E|ha|pw].
  - pose proof (wire_none _ _ _ S N) as N'. destruct (rs_some _ _ _ _ S H) as (a & E & F).
    opn. rewrite E, N'. fin; [|exact C|reflexivity].
    eapply (inv_transfer _ _ _ _ (ByRust v) (ByWire k) a b); [exact I|exact E|exact H|exact N'|pw|pw].
  - pose proof (rs_none _ _ _ S N) as N'. destruct (wire_some _ _ _ _ S H) as (a & E & F).
    opn. rewrite E, N'. fin; [|exact C|reflexivity].
    eapply (inv_transfer _ _ _ _ (ByWire k) (ByRust v) a b); [exact I|exact E|exact H|exact N'|pw|pw].
  - pose proof (wire_none _ _ _ S N) as N'. pose proof (cc_known _ _ _ _ S H) as E.
    opn. rewrite E, N'. fin; [| |reflexivity].
    + eapply (inv_create _ _ _ _ (ByWire k) b); [exact I|exact N'|ha|pw|pw].
    + ccs C.
  - pose proof (cc_none _ _ _ S N) as N'. destruct (wire_some _ _ _ _ S H) as (a & E & F).
    opn. rewrite E, N', F, up_same. fin; [| |reflexivity].
    + eapply (inv_delete _ _ _ _ (ByWire k) a); [exact I|exact E|ha|pw|pw].
    + ccs C.
  - pose proof (cc_none _ _ _ S N) as N'. destruct (rs_some _ _ _ _ S H) as (a & E & F).
    opn. rewrite E, N', F, up_same. fin; [| |reflexivity].
    + eapply (inv_delete _ _ _ _ (ByRust v) a); [exact I|exact E|ha|pw|pw].
    + ccs C.
  - pose proof (rs_none _ _ _ S N) as N'. pose proof (cc_known _ _ _ _ S H) as E.
    opn. rewrite E, N'. fin; [| |reflexivity].
    + eapply (inv_create _ _ _ _ (ByRust v) b); [exact I|exact N'|ha|pw|pw].
    + ccs C.
  - pose proof (cc_none _ _ _ S N) as N'. opn. rewrite N'. fin; [exact I| |reflexivity]. ccs C.
  - pose proof (cc_none _ _ _ S N) as N'. pose proof (cc_known _ _ _ _ S H) as E.
    opn. rewrite E, N'. fin; [exact I| |reflexivity]. ccs C.
  - pose proof (cc_none _ _ _ S N) as N'. pose proof (cc_known _ _ _ _ S H) as E.
    opn. rewrite E, N'. fin; [exact I| |reflexivity]. ccs C.
  - destruct (cc_some _ _ _ _ S H) as (b & E). opn. rewrite E. fin; [exact I| |reflexivity]. ccs C.
  - pose proof (cc_known _ _ _ _ S H) as E. opn. rewrite E. fin; [exact I|exact C|reflexivity].
  - destruct (cc_some _ _ _ _ S H) as (b & E). opn. rewrite E. fin; [exact I|exact C|].
    exists b. reflexivity.
  - destruct (cc_some _ _ _ _ S H) as (b' & E). opn. rewrite E. fin; [exact I| |reflexivity]. ccs C.
Qed.

Lemma sim_run leftover l : forall w s s' xs,
  sim w s -> srun s l s' xs ->
  exists w' ys, run leftover w l = Some (w', ys) /\ sim w' s' /\ Forall2 agrees ys xs.
Proof.
  induction l as [|o l IH]; intros w s s' xs S R; inversion R; subst.
  - exists w, []. cbn. auto.
  - match goal with T : sstep _ _ _ _, R' : srun _ l _ _ |- _ => rename T into T0; rename R' into R0 end.
    destruct (sim_step leftover _ _ _ _ _ S T0) as (wa & y & E & S1 & A).
    destruct (IH _ _ _ _ S1 R0) as (wb & ys & E2 & S2 & A2).
    exists wb, (y :: ys). cbn [run]. rewrite E, E2. auto.
Qed.

Lemma sim_start : sim start sstart.
Proof.
  split; [|intros c; exact Logic.I].
  split; [intros [q|q]; exact Logic.I|].
  split; [intros [q|q]; discriminate|].
  split; [intros a H; exfalso; apply H; reflexivity|reflexivity].
Qed.

Lemma sim_owned w s : sim w s -> owned_once w.
Proof.
  intros [I _]. pose proof I as (I1 & I2 & I3 & _).
  assert (O : forall x a, owns w x a <-> own w x = Some a) by (intros [q|q] a; cbn; tauto).
  split; [|split].
  - intros x a E. apply O in E. destruct (inv_live _ _ _ _ _ _ I E) as (b & _ & F). congruence.
  - intros a H. destruct (I3 a H) as (x & E). exists x. apply O. exact E.
  - intros x y a E F. apply O in E, F. exact (I2 _ _ _ E F).
Qed.
