(** Proofs about return values. *)
From Coq Require Import List Arith ZArith Bool Lia.
From Verif Require Import Thunk.Model Thunk.Spec Thunk.Proofs.
Import ListNotations.

Section Ret.
Variable cfg : config.
Variables cpp_to_rust rust_to_cpp : nat -> rval -> rval.
Notation write := (rs_write cfg rust_to_cpp false).
Notation to_cpp' := (to_cpp cfg rust_to_cpp).
Notation unpack' := (cc_unpack rust_to_cpp).

Fixpoint storages (ts : list ty) (h : heap) {struct ts} : list addr * list unpack * heap :=
  match ts with
  | [] => ([], [], h)
  | e :: ts1 =>
      let '(a, u, h1) := cc_storage cfg e h in
      let '(ps, us, h2) := storages ts1 h1 in
      (a :: ps, u :: us, h2)
  end.
Lemma storage_tuple t0 ts h : layout_compat_tuple cfg = false ->
  cc_storage cfg (Tuple (t0 :: ts)) h =
  let '(ps, us, h1) := storages (t0 :: ts) h in let (a, h2) := alloc h1 (CPtrs ps) in (a, MakeTuple us, h2).
Proof.
  intros L. assert (B : by_value cfg (Tuple (t0 :: ts)) = false) by reflexivity. revert B. generalize (t0 :: ts). clear t0 ts. intros ts B.
  cbn [cc_storage is_bridged adt_of]. rewrite B, L. reflexivity.
Qed.

Fixpoint writes (ts : list ty) (vs : list rval) (ps : list addr) (m : memory) {struct ts} : option memory :=
  match ts, vs, ps with
  | [], [], [] => Some m
  | e :: ts1, v1 :: vs1, p1 :: ps1 => match write e v1 p1 m with Some m1 => writes ts1 vs1 ps1 m1 | None => None end
  | _, _, _ => None
  end.
Lemma write_tuple t0 ts rs p m : layout_compat_tuple cfg = false ->
  write (Tuple (t0 :: ts)) (RTuple rs) p m = match m p with CPtrs ps => writes (t0 :: ts) rs ps m | _ => None end.
Proof.
  intros L. assert (B : by_value cfg (Tuple (t0 :: ts)) = false) by reflexivity. revert B. generalize (t0 :: ts). clear t0 ts. intros ts B.
  cbn [rs_write is_bridged adt_of]. rewrite B, L. cbn [orb]. destruct (m p) eqn:E; try reflexivity.
Qed.

Fixpoint unpacks (m : memory) (us : list unpack) : option (list cval) :=
  match us with
  | [] => Some []
  | u1 :: us1 => match unpack' u1 m, unpacks m us1 with Some v, Some vs => Some (v :: vs) | _, _ => None end
  end.
Lemma unpack_tuple us m : unpack' (MakeTuple us) m = match unpacks m us with Some vs => Some (VTuple vs) | None => None end.
Proof.
  cbn [cc_unpack]. match goal with |- match ?f _ with _ => _ end = _ => set (g := f) end.
  enough (HH : forall us, g us = unpacks m us) by now rewrite HH.
  clear. induction us as [|u us IH]; [reflexivity|]. cbn [unpacks g]. fold g. now rewrite IH.
Qed.

Fixpoint all_to_cpp (ts : list ty) (rs : list rval) {struct ts} : option (list cval) :=
  match ts, rs with
  | [], [] => Some []
  | e :: ts1, q :: rs1 => match to_cpp' e q, all_to_cpp ts1 rs1 with Some v, Some vs => Some (v :: vs) | _, _ => None end
  | _, _ => None
  end.
Lemma to_cpp_tuple t0 ts r : layout_compat_tuple cfg = false ->
  to_cpp' (Tuple (t0 :: ts)) r =
  match r with RTuple rs => match all_to_cpp (t0 :: ts) rs with Some vs => Some (VTuple vs) | None => None end | _ => None end.
Proof. intros L. cbn [to_cpp]. rewrite L. reflexivity. Qed.

(** Storage allocated from [n] to [n1] at [a], to be fetched with [u], works for the value. *)
Definition works (t : ty) (r : rval) (v : cval) (n : addr) (a : addr) (u : unpack) (m1 : memory) (n1 : addr) : Prop :=
  n <= a < n1 /\
  forall m2, agree m1 m2 (fun b => n <= b < n1) ->
    exists m3, write t r a m2 = Some m3 /\ agree m2 m3 (fun b => ~ (n <= b < n1)) /\
      forall m4, agree m3 m4 (fun b => n <= b < n1) -> unpack' u m4 = Some v.

Definition ret_good (t : ty) : Prop := forall r v m n, to_cpp' t r = Some v ->
  exists a u m1 n1, cc_storage cfg t (m, n) = (a, u, (m1, n1)) /\ n < n1 /\ agree m m1 (fun b => b < n) /\ works t r v n a u m1 n1.

(** One cell. *)
Lemma one_cell t r v m n u (c0 c : cell) :
  cc_storage cfg t (m, n) = (n, u, (set m n c0, S n)) ->
  (forall m2, write t r n m2 = Some (set m2 n c)) -> (forall m4, m4 n = c -> unpack' u m4 = Some v) ->
  exists a u m1 n1, cc_storage cfg t (m, n) = (a, u, (m1, n1)) /\ n < n1 /\ agree m m1 (fun b => b < n) /\ works t r v n a u m1 n1.
Proof.
  intros S W U. exists n, u, (set m n c0), (Datatypes.S n). split; [exact S|]. split; [lia|].
  split; [intros b Hb; apply set_other; lia|]. split; [lia|]. intros m2 A. exists (set m2 n c). split; [apply W|].
  split; [intros b Hb; apply set_other; lia|]. intros m4 A4. apply U. rewrite A4 by lia. apply set_same.
Qed.

Lemma storages_good ts : Forall ret_good ts -> forall rs vs m n, all_to_cpp ts rs = Some vs ->
  exists ps us m1 n1, storages ts (m, n) = (ps, us, (m1, n1)) /\ n <= n1 /\ agree m m1 (fun b => b < n) /\
    forall m2, agree m1 m2 (fun b => n <= b < n1) ->
      exists m3, writes ts rs ps m2 = Some m3 /\ agree m2 m3 (fun b => ~ (n <= b < n1)) /\
        forall m4, agree m3 m4 (fun b => n <= b < n1) -> unpacks m4 us = Some vs.
Proof.
  intros G. induction G as [|t ts Gt _ IH]; intros rs vs m n T.
  - destruct rs; [|discriminate]. cbn in T. injection T as <-. exists [], [], m, n. split; [reflexivity|]. split; [lia|].
    split; [intros b _; reflexivity|]. intros m2 _. exists m2. split; [reflexivity|]. split; [intros b _; reflexivity|]. reflexivity.
  - destruct rs as [|r rs]; [discriminate|]. cbn [all_to_cpp] in T.
    destruct (to_cpp' t r) as [v|] eqn:Tv; [|discriminate]. destruct (all_to_cpp ts rs) as [vs1|] eqn:Tvs; [|discriminate].
    injection T as <-.
    destruct (Gt r v m n Tv) as (a & u & m1 & n1 & E1 & N1 & A1 & (B1 & W1)).
    destruct (IH rs vs1 m1 n1 Tvs) as (ps & us & m2 & n2 & E2 & N2 & A2 & W2).
    exists (a :: ps), (u :: us), m2, n2. cbn [storages]. rewrite E1, E2. split; [reflexivity|]. split; [lia|].
    split; [intros b Hb; rewrite A2 by lia; apply A1; lia|].
    intros m3 A3.
    destruct (W1 m3) as (m4 & E4 & A4 & U4); [intros b Hb; rewrite A3 by lia; apply A2; lia|].
    destruct (W2 m4) as (m5 & E5 & A5 & U5); [intros b Hb; rewrite A4 by lia; apply A3; lia|].
    exists m5. cbn [writes]. rewrite E4. split; [exact E5|].
    split; [intros b Hb; rewrite A5 by lia; apply A4; lia|].
    intros m6 A6. cbn [unpacks].
    rewrite U4; [|intros b Hb; rewrite A6 by lia; apply A5; lia].
    rewrite U5; [reflexivity|]. intros b Hb. apply A6. lia.
Qed.

Lemma adt_ret a t : (t = Adt a \/ exists f, t = Newtype a f) -> ret_good t.
Proof.
  intros Ht r v m n T.
  assert (IB : is_bridged t = bridged a) by (destruct Ht as [->|[f ->]]; reflexivity).
  assert (TG : tag_of t = tag a) by (destruct Ht as [->|[f ->]]; reflexivity).
  assert (TC : to_cpp' t r = match bridged a with
      | Some (Convert _) | Some Composable => Some (VBits (rust_to_cpp (tag a) r))
      | _ => Some (VBits r) end) by (destruct Ht as [->|[f ->]]; reflexivity).
  assert (ST : cc_storage cfg t (m, n) =
     match bridged a with
     | Some (Transmute _) | Some (Convert _) => if needs_drop t then (n, TakeSlot n, (set m n CUninit, S n)) else (n, TakeUnion n, (set m n CUninit, S n))
     | Some Composable => (n, Decode (tag_of t) n, (set m n CUninit, S n))
     | None => if by_value cfg t then (n, CopyLocal n, (set m n CUninit, S n)) else (n, TakeSlot n, (set m n CUninit, S n))
     end) by (rewrite <- IB; destruct Ht as [->|[f ->]]; reflexivity).
  assert (WR : forall p m2, write t r p m2 =
     match bridged a with
     | Some (Transmute _) => Some (set m2 p (CBits r))
     | Some (Convert _) => Some (set m2 p (CBits (rust_to_cpp (tag_of t) r)))
     | Some Composable => Some (set m2 p (CEnc (tag_of t) r))
     | None => Some (set m2 p (CBits r))
     end).
  { intros p m2. rewrite <- IB. destruct Ht as [->|[f ->]]; cbn [rs_write];
      match goal with |- context [is_bridged ?t] => destruct (is_bridged t); [reflexivity|] end;
      match goal with |- context [by_value cfg ?t] => destruct (by_value cfg t); reflexivity end. }
  rewrite TC in T.
  destruct (bridged a) as [[b|b|]|] eqn:B.
  - injection T as <-. destruct (needs_drop t).
    + eapply (one_cell t r _ m n _ CUninit); [exact ST|intros; apply WR|intros m4 H; cbn; now rewrite H].
    + eapply (one_cell t r _ m n _ CUninit); [exact ST|intros; apply WR|intros m4 H; cbn; now rewrite H].
  - injection T as <-. rewrite TG in *. destruct (needs_drop t).
    + eapply (one_cell t r _ m n _ CUninit); [exact ST|intros; apply WR|intros m4 H; cbn; now rewrite H].
    + eapply (one_cell t r _ m n _ CUninit); [exact ST|intros; apply WR|intros m4 H; cbn; now rewrite H].
  - injection T as <-. rewrite TG in *.
    eapply (one_cell t r _ m n _ CUninit); [exact ST|intros; apply WR|intros m4 H; cbn; rewrite H, Nat.eqb_refl; reflexivity].
  - injection T as <-. destruct (by_value cfg t).
    + eapply (one_cell t r _ m n _ CUninit); [exact ST|intros; apply WR|intros m4 H; cbn; now rewrite H].
    + eapply (one_cell t r _ m n _ CUninit); [exact ST|intros; apply WR|intros m4 H; cbn; now rewrite H].
Qed.

Theorem storage_good t : ret_good t.
Proof.
  induction t as [| | | |ts IH|t IH|a|a t IH] using ty_ind'.
  - intros r v m n T. cbn in T. injection T as <-.
    eapply (one_cell Prim r _ m n _ CUninit); [reflexivity|intros; reflexivity|intros m4 H; cbn; now rewrite H].
  - intros r v m n T. cbn in T. injection T as <-.
    eapply (one_cell Never r _ m n _ CUninit); [reflexivity|intros; reflexivity|intros m4 H; cbn; now rewrite H].
  - intros r v m n T. cbn in T. injection T as <-. destruct (portable cfg) eqn:P.
    + eapply (one_cell Char r _ m n (TakeSlot n) CUninit); [cbn; now rewrite P|intros; cbn; now rewrite P|intros m4 H; cbn; now rewrite H].
    + eapply (one_cell Char r _ m n (CopyLocal n) CUninit); [cbn; now rewrite P|intros; cbn; now rewrite P|intros m4 H; cbn; now rewrite H].
  - intros r v m n T. cbn in T. injection T as <-. destruct (portable cfg) eqn:P.
    + eapply (one_cell Fat r _ m n (TakeSlot n) CUninit); [cbn; now rewrite P|intros; cbn; now rewrite P|intros m4 H; cbn; now rewrite H].
    + eapply (one_cell Fat r _ m n (CopyLocal n) CUninit); [cbn; now rewrite P|intros; cbn; now rewrite P|intros m4 H; cbn; now rewrite H].
  - intros r v m n T. destruct ts as [|t0 ts].
    + cbn in T. destruct r as [|[|]]; try discriminate T. injection T as <-.
      exists n, (CopyLocal n), (set m n (CTup [])), (S n). split; [reflexivity|]. split; [lia|].
      split; [intros b Hb; apply set_other; lia|]. split; [lia|]. intros m2 A. exists m2. split; [reflexivity|].
      split; [intros b _; reflexivity|]. intros m4 A4. cbn. rewrite A4 by lia. rewrite A by lia. now rewrite set_same.
    + destruct (layout_compat_tuple cfg) eqn:L.
      * cbn [to_cpp] in T. rewrite L in T. injection T as <-.
        eapply (one_cell (Tuple (t0 :: ts)) r _ m n (TakeSlot n) CUninit).
        -- cbn [cc_storage is_bridged adt_of by_value]. now rewrite L.
        -- intros. cbn [rs_write is_bridged adt_of by_value]. now rewrite L.
        -- intros m4 H. cbn. now rewrite H.
      * rewrite to_cpp_tuple in T by exact L. destruct r as [|rs]; [discriminate|].
        destruct (all_to_cpp (t0 :: ts) rs) as [vs|] eqn:Ts; [|discriminate]. injection T as <-.
        destruct (storages_good _ IH rs vs m n Ts) as (ps & us & m1 & n1 & E1 & N1 & A1 & W1).
        exists n1, (MakeTuple us), (set m1 n1 (CPtrs ps)), (S n1).
        rewrite storage_tuple by exact L. rewrite E1. split; [reflexivity|]. split; [lia|].
        split; [intros b Hb; rewrite set_other by lia; apply A1; lia|]. split; [lia|].
        intros m2 A2. rewrite write_tuple by exact L. rewrite (A2 n1) by lia. rewrite set_same.
        destruct (W1 m2) as (m3 & E3 & A3 & U3); [intros b Hb; rewrite A2 by lia; apply set_other; lia|].
        exists m3. split; [exact E3|]. split; [intros b Hb; apply A3; lia|].
        intros m4 A4. rewrite unpack_tuple. rewrite U3; [reflexivity|]. intros b Hb. apply A4. lia.
  - intros r v m n T. cbn in T. injection T as <-.
    eapply (one_cell (Array t) r _ m n (TakeSlot n) CUninit); [reflexivity|intros; reflexivity|intros m4 H; cbn; now rewrite H].
  - apply (adt_ret a). now left.
  - apply (adt_ret a). right. eauto.
Qed.

Theorem return_from_correct t r v h : to_cpp' t r = Some v -> return_from cfg rust_to_cpp t r h = Some v.
Proof.
  intros T. unfold return_from, call_return.
  assert (ST : match cc_storage cfg t h with (a, u, h1) => match write t r a (fst h1) with Some m => unpack' u m | None => None end end = Some v).
  { destruct h as [m n]. destruct (storage_good t r v m n T) as (a & u & m1 & n1 & E & _ & _ & (_ & W)). rewrite E. cbn [fst].
    destruct (W m1) as (m3 & E3 & _ & U); [intros b _; reflexivity|]. rewrite E3. apply U. intros b _; reflexivity. }
  destruct (is_bridged t) eqn:B; [exact ST|]. destruct (by_value cfg t) eqn:V; [|exact ST].
  assert (BA : forall a, adt_of t = Some a -> bridged a = None) by (intros a Ha; unfold is_bridged in B; now rewrite Ha in B).
  destruct t as [| | | |[|t0 ts]| |a|a t]; cbn in T; try (injection T as <-; reflexivity); try discriminate V.
  - destruct r as [|[|]]; try discriminate T. injection T as <-. reflexivity.
  - rewrite (BA a eq_refl) in T. injection T as <-. reflexivity.
  - rewrite (BA a eq_refl) in T. injection T as <-. reflexivity.
Qed.
End Ret.
