(** * Proofs for CcString: unique_ptr *)
From Coq Require Import List Arith Bool Lia.
Import ListNotations.
From Verif Require Import CcString.Model CcString.Spec.

Definition ue : forall x y : uowner, {x = y} + {x <> y}.
Proof. decide equality; apply Nat.eq_dec. Qed.

Definition uown (w : uworld) (x : uowner) : option addr :=
  match x with
  | ByPtr p => match ptrs w p with Some o => o | None => None end
  | ByRaw r => match raws w r with Some o => o | None => None end
  end.

Lemma uown_iff w x a : uowns w x a <-> uown w x = Some a.
Proof.
  destruct x; cbn.
  - destruct (ptrs w p) as [[]|]; split; congruence.
  - destruct (raws w r) as [[]|]; split; congruence.
Qed.

Section U.
  Variable size align : nat.

  (** what holds of cells, owners and the log *)
  Definition UInv (cs : addr -> option cell) (n : addr) (o : uowner -> option addr)
      (lg : list uevent) : Prop :=
    (forall x a, o x = Some a -> cs a = Some (Cell size align true)) /\
    (forall x y a, o x = Some a -> o y = Some a -> x = y) /\
    (forall a, cs a <> None -> exists x, o x = Some a) /\
    (forall a, n <= a -> cs a = None /\ untouched lg a) /\
    (forall a, a < n -> (cs a <> None /\ untouched lg a) \/ (cs a = None /\ ended_once size align lg a)).

  Ltac dst :=
    repeat match goal with
    | |- context [if ue ?a ?b then _ else _] => destruct (ue a b); subst
    | H : context [if ue ?a ?b then _ else _] |- _ => destruct (ue a b); subst
    | |- context [Nat.eqb ?a ?b] => destruct (Nat.eqb_spec a b); subst
    | H : context [Nat.eqb ?a ?b] |- _ => destruct (Nat.eqb_spec a b); subst
    end.

  Lemma u_create cs n o lg x cs' o' :
    UInv cs n o lg -> o x = None ->
    (forall a, cs' a = if Nat.eqb a n then Some (Cell size align true) else cs a) ->
    (forall y, o' y = if ue y x then Some n else o y) ->
    UInv cs' (S n) o' lg.
  Proof.
    intros (I1 & I2 & I3 & I4 & I5) Hx Ec Eo.
    assert (F : forall y, o y <> Some n).
    { intros y E. pose proof (I1 _ _ E) as K. rewrite (proj1 (I4 n (le_n n))) in K. discriminate. }
    split; [|split; [|split; [|split]]].
    - intros y a. rewrite Eo, Ec. dst; intros E; try reflexivity; eauto. congruence.
    - intros y z a. rewrite !Eo. dst; intros E1 E2; try congruence; eauto.
    - intros a. rewrite Ec. dst; intros H.
      + exists x. rewrite Eo. dst; congruence.
      + destruct (I3 a H) as (y & Ey). exists y. rewrite Eo. dst; congruence.
    - intros a Ha. rewrite Ec. dst; [lia|]. apply I4. lia.
    - intros a Ha. rewrite Ec. dst.
      + left. split; [discriminate|]. apply I4. lia.
      + apply I5. lia.
  Qed.

  Lemma u_transfer cs n o lg x y a o' :
    UInv cs n o lg -> o x = a -> x <> y -> o y = None ->
    (forall z, o' z = if ue z y then a else if ue z x then None else o z) ->
    UInv cs n o' lg.
  Proof.
    intros (I1 & I2 & I3 & I4 & I5) Hx N Hy Eo.
    split; [|split; [|split; [|split]]]; auto.
    - intros z b. rewrite Eo. dst; intros E; try discriminate; eauto.
    - intros z1 z2 b. rewrite !Eo. dst; intros E1 E2; try congruence; eauto.
      + exfalso. apply n1. exact (I2 _ _ _ E2 E1).
      + exfalso. apply n1. exact (I2 _ _ _ E1 E2).
    - intros b H. destruct (I3 b H) as (z & Ez).
      destruct (ue z x) as [->|Nz].
      + exists y. rewrite Eo. dst; congruence.
      + exists z. rewrite Eo. dst; congruence.
  Qed.

  Lemma u_ext cs n o lg o' :
    UInv cs n o lg -> (forall z, o' z = o z) -> UInv cs n o' lg.
  Proof.
    intros (I1 & I2 & I3 & I4 & I5) Eo.
    split; [|split; [|split; [|split]]]; auto.
    - intros z b. rewrite Eo. apply I1.
    - intros z1 z2 b. rewrite !Eo. apply I2.
    - intros b H. destruct (I3 b H) as (z & Ez). exists z. rewrite Eo. exact Ez.
  Qed.

  Lemma untouched_app lg a b :
    a <> b -> untouched lg a ->
    untouched (lg ++ [Destroyed b; Freed b size align]) a.
  Proof.
    intros N [D F]. split.
    - rewrite in_app_iff. cbn. intros [H|[H|[H|[]]]]; congruence || auto.
    - intros s l. rewrite in_app_iff. cbn. intros [H|[H|[H|[]]]]; try congruence. exact (F _ _ H).
  Qed.

  Lemma ended_app lg a b :
    a <> b -> ended_once size align lg a ->
    ended_once size align (lg ++ [Destroyed b; Freed b size align]) a.
  Proof.
    intros N (l1 & l2 & l3 & -> & D & F).
    exists l1, l2, (l3 ++ [Destroyed b; Freed b size align]).
    split; [|split].
    - rewrite <- !app_assoc. cbn. rewrite <- !app_assoc. reflexivity.
    - rewrite !app_assoc, in_app_iff. rewrite !app_assoc in D. cbn.
      intros [H|[H|[H|[]]]]; congruence || auto.
    - intros s l. rewrite !app_assoc, in_app_iff. specialize (F s l). rewrite !app_assoc in F. cbn.
      intros [H|[H|[H|[]]]]; congruence || auto.
  Qed.

  Lemma ended_now lg a :
    untouched lg a -> ended_once size align (lg ++ [Destroyed a; Freed a size align]) a.
  Proof.
    intros [D F]. exists lg, [], []. split; [reflexivity|]. cbn. rewrite app_nil_r. split; auto.
  Qed.

  Lemma u_end cs n o lg x a cs' o' :
    UInv cs n o lg -> o x = Some a ->
    (forall b, cs' b = if Nat.eqb b a then None else cs b) ->
    (forall z, o' z = if ue z x then None else o z) ->
    UInv cs' n o' (lg ++ [Destroyed a; Freed a size align]).
  Proof.
    intros (I1 & I2 & I3 & I4 & I5) Hx Ec Eo.
    pose proof (I1 _ _ Hx) as La.
    assert (An : a < n).
    { destruct (le_lt_dec n a) as [L|L]; [|exact L].
      rewrite (proj1 (I4 a L)) in La. discriminate. }
    split; [|split; [|split; [|split]]].
    - intros z b. rewrite Eo, Ec. dst; intros E; try discriminate; eauto.
      exfalso. apply n0. exact (I2 _ _ _ E Hx).
    - intros z1 z2 b. rewrite !Eo. dst; intros; try congruence; eauto.
    - intros b. rewrite Ec. dst; intros H; [congruence|].
      destruct (I3 b H) as (z & Ez). exists z. rewrite Eo. dst; congruence.
    - intros b Hb. rewrite Ec. dst; [lia|]. destruct (I4 b Hb). split; [auto|].
      apply untouched_app; auto.
    - intros b Hb. rewrite Ec. dst.
      + right. split; [reflexivity|]. apply ended_now.
        destruct (I5 a Hb) as [[_ U]|[Z _]]; [exact U|congruence].
      + destruct (I5 b Hb) as [[L U]|[Z E]].
        * left. split; [exact L|]. apply untouched_app; auto.
        * right. split; [exact Z|]. apply ended_app; auto.
  Qed.

  Definition usim (w : uworld) (P R : nat -> bool) : Prop :=
    UInv (cells w) (unext w) (uown w) (ulog w) /\
    (forall p, P p = true <-> ptrs w p <> None) /\
    (forall r, R r = true <-> raws w r <> None).

  Ltac pt := let q := fresh "q" in intros [q|q]; cbn; unfold up;
    repeat match goal with
    | |- context [ue ?x ?y] => destruct (ue x y); try congruence
    | |- context [Nat.eqb ?a ?b] => destruct (Nat.eqb_spec a b); subst; try congruence
    end; try reflexivity.

  Lemma var_true {A} (B : nat -> bool) (f : nat -> option A) v :
    (forall p, B p = true <-> f p <> None) -> B v = true -> exists o, f v = Some o.
  Proof.
    intros K E. apply K in E. destruct (f v) as [o|]; [eauto|contradiction].
  Qed.
  Lemma var_false {A} (B : nat -> bool) (f : nat -> option A) v :
    (forall p, B p = true <-> f p <> None) -> B v = false -> f v = None.
  Proof.
    intros K E. destruct (f v) as [o|] eqn:Q; [|reflexivity].
    assert (B v = true) by (apply K; congruence). congruence.
  Qed.
  Lemma typed_set {A} (B : nat -> bool) (f : nat -> option A) v o :
    (forall p, B p = true <-> f p <> None) ->
    forall p, Nat.eqb p v || B p = true <-> up f v (Some o) p <> None.
  Proof.
    intros K p. unfold up. destruct (Nat.eqb p v); cbn; [split; congruence|apply K].
  Qed.
  Lemma typed_unset {A} (B : nat -> bool) (f : nat -> option A) v :
    (forall p, B p = true <-> f p <> None) ->
    forall p, negb (Nat.eqb p v) && B p = true <-> up f v None p <> None.
  Proof.
    intros K p. unfold up. destruct (Nat.eqb p v); cbn; [split; congruence|apply K].
  Qed.

  Ltac fn := cbn [fst snd]; split; [reflexivity|]; split; [|split; [reflexivity|]]; cbn [unext];
    try lia; split; [|split].

  (** one step: no undefined behaviour, and the invariant goes on *)
  Lemma ustep_ok w P R o l :
    usim w P R -> utyped P R (o :: l) ->
    exists w' y P' R', ustep size align w o = Some (w', y) /\ usim w' P' R' /\ utyped P' R' l /\
      unext w' = objects_made [o] + unext w.
  Proof.
    intros (I & KP & KR) T. inversion T; subst; cbn [ustep objects_made].
    - pose proof (var_false _ _ _ KR ltac:(eassumption)) as N. rewrite N.
      do 4 eexists. split; [reflexivity|]. split; [|split; [eassumption|reflexivity]].
      split; [|split; [exact KP|apply typed_set; exact KR]].
      eapply (u_create _ _ _ _ (ByRaw r)); [exact I|cbn; rewrite N; reflexivity|reflexivity|pt].
    - pose proof (var_false _ _ _ KR ltac:(eassumption)) as N. rewrite N.
      do 4 eexists. split; [reflexivity|]. split; [|split; [eassumption|reflexivity]].
      split; [|split; [exact KP|apply typed_set; exact KR]].
      eapply u_ext; [exact I|pt]. rewrite N. reflexivity.
    - destruct (var_true _ _ _ KR ltac:(eassumption)) as (a & E). pose proof (var_false _ _ _ KP ltac:(eassumption)) as N. rewrite E, N.
      do 4 eexists. split; [reflexivity|]. split; [|split; [eassumption|reflexivity]].
      split; [|split; [apply typed_set; exact KP|apply typed_unset; exact KR]].
      eapply (u_transfer _ _ _ _ (ByRaw r) (ByPtr p) a);
        [exact I|cbn; rewrite E; reflexivity|discriminate|cbn; rewrite N; reflexivity|pt].
    - destruct (var_true _ _ _ KP ltac:(eassumption)) as (a & E). pose proof (var_false _ _ _ KR ltac:(eassumption)) as N. rewrite E, N.
      do 4 eexists. split; [reflexivity|]. split; [|split; [eassumption|reflexivity]].
      split; [|split].
      + eapply (u_transfer _ _ _ _ (ByPtr p) (ByRaw r) a);
          [exact I|cbn; rewrite E; reflexivity|discriminate|cbn; rewrite N; reflexivity|pt].
      + intros q. cbn. unfold up. destruct (Nat.eqb_spec q p) as [->|]; [|apply KP].
        split; congruence.
      + apply typed_set. exact KR.
    - destruct (var_true _ _ _ KP ltac:(eassumption)) as (a & E). pose proof (var_false _ _ _ KP ltac:(eassumption)) as N. rewrite E, N.
      do 4 eexists. split; [reflexivity|]. split; [|split; [eassumption|reflexivity]].
      split; [|split; [|exact KR]].
      + eapply (u_transfer _ _ _ _ (ByPtr p) (ByPtr q) a);
          [exact I|cbn; rewrite E; reflexivity|congruence|cbn; rewrite N; reflexivity|pt].
      + cbn [uset_ptr ptrs]. apply typed_set. apply typed_unset. exact KP.
    - destruct (var_true _ _ _ KP ltac:(eassumption)) as (a & E). rewrite E.
      do 4 eexists. split; [reflexivity|]. split; [|split; [eassumption|reflexivity]].
      split; [|split]; auto.
    - destruct (var_true _ _ _ KP ltac:(eassumption)) as (a & E). rewrite E. destruct a as [a|].
      + assert (C : cells w a = Some (Cell size align true)).
        { destruct I as (I1 & _). apply (I1 (ByPtr p)). cbn. rewrite E. reflexivity. }
        rewrite C. do 4 eexists. split; [reflexivity|]. split; [|split; [eassumption|reflexivity]].
        split; [|split]; auto.
      + do 4 eexists. split; [reflexivity|]. split; [|split; [eassumption|reflexivity]].
        split; [|split]; auto.
    - destruct (var_true _ _ _ KP ltac:(eassumption)) as (a & E). rewrite E. destruct a as [a|].
      + assert (C : cells w a = Some (Cell size align true)).
        { destruct I as (I1 & _). apply (I1 (ByPtr p)). cbn. rewrite E. reflexivity. }
        unfold drop_in_place. rewrite C. unfold cpp_delete. cbn [cells].
        unfold up at 1. rewrite Nat.eqb_refl. cbn [c_size c_align]. rewrite !Nat.eqb_refl. cbn [andb].
        do 4 eexists. split; [reflexivity|]. split; [|split; [eassumption|reflexivity]].
        split; [|split; [|exact KR]].
        * cbn [uset_ptr cells unext ulog ptrs raws]. rewrite <- app_assoc. cbn [app].
          eapply (u_end _ _ _ _ (ByPtr p) a); [exact I|cbn; rewrite E; reflexivity| |pt].
          intros b. cbn. unfold up. destruct (Nat.eqb b a); reflexivity.
        * cbn [uset_ptr ptrs]. apply typed_unset. exact KP.
      + do 4 eexists. split; [reflexivity|]. split; [|split; [eassumption|reflexivity]].
        split; [|split; [|exact KR]].
        * eapply u_ext; [exact I|pt]. rewrite E. reflexivity.
        * cbn [uset_ptr ptrs]. apply typed_unset. exact KP.
  Qed.

  Lemma urun_ok l : forall w P R,
    usim w P R -> utyped P R l ->
    exists w' ys P' R', urun size align w l = Some (w', ys) /\ usim w' P' R' /\
      unext w' = objects_made l + unext w.
  Proof.
    induction l as [|o l IH]; intros w P R S T.
    - exists w, [], P, R. cbn. auto.
    - destruct (ustep_ok _ _ _ _ _ S T) as (w1 & y & P1 & R1 & E & S1 & T1 & N1).
      destruct (IH _ _ _ S1 T1) as (w2 & ys & P2 & R2 & E2 & S2 & N2).
      exists w2, (y :: ys), P2, R2. cbn [urun]. rewrite E, E2.
      split; [reflexivity|]. split; [exact S2|].
      rewrite N2, N1. destruct o; cbn; lia.
  Qed.

  Lemma usim_start : usim ustart (fun _ => false) (fun _ => false).
  Proof.
    split; [|split; intros; cbn; split; congruence].
    split; [intros [q|q]; discriminate|].
    split; [intros [q|q]; discriminate|].
    split; [intros a H; exfalso; apply H; reflexivity|].
    split; [|intros a H; cbn in H; lia].
    intros a _. split; [reflexivity|]. split; cbn; auto.
  Qed.
End U.
