(** Every pointer that may be dereferenced points into a live value, and no step touches dead memory. *)
From Coq Require Import List Arith ZArith Lia Bool Permutation.
Import ListNotations.
From Verif.CcShared Require Import Model Spec Counts.

Lemma keeps_trans m a b c : keeps m a b -> keeps m b c -> keeps m a c.
Proof. induction 1; intros K; [exact K|]. eapply keeps_step; eauto. Qed.

Definition handle_ok (m : heap) (h : handle) : Prop :=
  match ptr h with Into x => exists c, cntrl h = Some c /\ keeps m c x | _ => True end.

Definition strongs (s : state) : list handle := vars s ++ raws s ++ lost s.
Definition locking (t : task) : list handle := match t with TLockLoad h _ | TLockCas h _ _ => [h] | _ => [] end.
Definition weakly (s : state) : list handle := weaks s ++ flat_map locking (tasks s).

Definition owned_by (s : state) (h : handle) : Prop := forall c, cntrl h = Some c -> owners c s <> 0.

Definition pointers (s : state) : Prop :=
  (forall h, In h (strongs s) -> handle_ok (mem s) h) /\
  (forall c ow h, val (mem s) c = Some ow -> In h ow -> handle_ok (mem s) h) /\
  (forall h, In h (weakly s) -> owned_by s h -> handle_ok (mem s) h).

Lemma sum_pos c (l : list handle) h : In h l -> cntrl h = Some c -> sum (refers c) l <> 0.
Proof. intros I E. pose proof (sum_in (refers c) l h I) as H. rewrite (refers_some c h c E), Nat.eqb_refl in H. lia. Qed.

Lemma strongs_owned s h : In h (strongs s) -> owned_by s h.
Proof.
  intros I c E. unfold owners. unfold strongs in I. rewrite !in_app_iff in I.
  destruct I as [I|[I|I]]; pose proof (sum_pos c _ h I E); lia.
Qed.

Lemma value_owned s c ow h : val (mem s) c = Some ow -> In h ow -> owned_by s h.
Proof.
  intros V I c' E. unfold val in V. destruct (get (mem s) c) as [b|] eqn:G; [|discriminate].
  pose proof (sum_in (held_by_value c') (mem s) (c, b) (get_in _ _ _ G)) as H.
  unfold held_by_value in H at 1. cbn in H. rewrite V in H. pose proof (sum_pos c' _ h I E). unfold owners. lia.
Qed.

Lemma keeps_mono s m' c x :
  (forall c ow, owners c s <> 0 -> val (mem s) c = Some ow -> val m' c = Some ow) ->
  keeps (mem s) c x -> owners c s <> 0 -> keeps m' c x.
Proof.
  intros M K. induction K as [c|c ow h c' x V I E K IH]; intros O; [constructor|].
  eapply keeps_step; [apply M; eauto | exact I | exact E |]. apply IH. eapply value_owned; eauto.
Qed.

Lemma handle_mono s m' h :
  (forall c ow, owners c s <> 0 -> val (mem s) c = Some ow -> val m' c = Some ow) ->
  handle_ok (mem s) h -> owned_by s h -> handle_ok m' h.
Proof.
  intros M H O. unfold handle_ok in *. destruct (ptr h); auto. destruct H as (c' & E & K). exists c'. split; [exact E|].
  eapply keeps_mono; eauto.
Qed.

Lemma pointers_next s s' :
  pointers s ->
  (forall c ow, owners c s <> 0 -> val (mem s) c = Some ow -> val (mem s') c = Some ow) ->
  (forall h, In h (strongs s') -> In h (strongs s) \/ handle_ok (mem s') h) ->
  (forall c ow, val (mem s') c = Some ow -> val (mem s) c = Some ow \/ (forall h, In h ow -> In h (strongs s))) ->
  (forall h, In h (weakly s') -> In h (strongs s) \/ (In h (weakly s) /\ (owned_by s' h -> owned_by s h))) ->
  pointers s'.
Proof.
  intros (P1 & P2 & P3) M A B C. split; [|split].
  - intros h I. destruct (A h I) as [I1|OK]; [|exact OK]. eapply handle_mono; eauto using strongs_owned.
  - intros c ow h V I. destruct (B c ow V) as [V1|I1].
    + eapply handle_mono; eauto using value_owned.
    + eapply handle_mono; eauto using strongs_owned.
  - intros h I O. destruct (C h I) as [I1|[I1 O1]].
    + eapply handle_mono; eauto using strongs_owned.
    + eapply handle_mono; eauto.
Qed.

Lemma pointers_init : pointers init.
Proof. split; [|split]; cbn; intros; try tauto. discriminate. Qed.

(** ** Owners and liveness *)

Lemma owned_alive s c : counted s -> owners c s <> 0 -> exists b ow, get (mem s) c = Some b /\ value b = Some ow.
Proof.
  intros (_ & H & _) O. specialize (H c). unfold cell_ok in H. destruct (get (mem s) c) as [b|] eqn:G; [|lia].
  unfold block_ok in H. destruct (value b) as [ow|] eqn:V; [eauto | lia].
Qed.

Lemma keeps_alive s c x : counted s -> keeps (mem s) c x -> owners c s <> 0 -> alive (mem s) x.
Proof.
  intros CO K. induction K as [c|c ow h c' x V I E K IH]; intros O.
  - destruct (owned_alive s c CO O) as (b & ow & G & V). exists b, ow. auto.
  - apply IH. eapply value_owned; eauto.
Qed.

Lemma alive_valid m c : alive m c -> valid m (Into c) = Ok tt.
Proof. intros (b & ow & G & V). cbn. unfold at_block. now rewrite G, V. Qed.

Lemma handle_valid s h : counted s -> handle_ok (mem s) h -> owned_by s h -> ptr h <> Null -> valid (mem s) (ptr h) = Ok tt.
Proof.
  intros CO H O N. unfold handle_ok in H. destruct (ptr h) as [|x|] eqn:P; [congruence | | reflexivity].
  destruct H as (c & E & K). apply alive_valid. eapply keeps_alive; eauto.
Qed.

(** ** [val] under updates *)

Lemma val_set_same m c b b' : get m c = Some b -> value b' = value b -> forall k, val (set m c b') k = val m k.
Proof.
  intros G V k. unfold val. destruct (Nat.eq_dec k c) as [->|N].
  - rewrite (get_set_same _ _ _ _ G), G. exact V.
  - now rewrite get_set_other.
Qed.

Lemma keeps_ext m m' c x : (forall k, val m' k = val m k) -> keeps m c x -> keeps m' c x.
Proof. intros E K. induction K; [constructor|]. eapply keeps_step; eauto. now rewrite E. Qed.
Lemma handle_ext m m' h : (forall k, val m' k = val m k) -> handle_ok m h -> handle_ok m' h.
Proof. intros E H. unfold handle_ok in *. destruct (ptr h); auto. destruct H as (c' & ? & K). exists c'. split; [auto|]. eapply keeps_ext; eauto. Qed.

(** ** A value that has lost its last owner gets no new one *)

Lemma wref_some s c : counted s -> wcount c s <> 0 -> get (mem s) c <> None.
Proof. intros (_ & H & _) W G. specialize (H c). unfold cell_ok in H. rewrite G in H. lia. Qed.
Lemma weakly_wcount s h c : In h (weakly s) -> cntrl h = Some c -> wcount c s <> 0.
Proof.
  intros I E. unfold wcount, weak_refs. unfold weakly in I. rewrite in_app_iff in I. destruct I as [I|I].
  - pose proof (sum_pos c _ h I E). lia.
  - apply in_flat_map in I. destruct I as (t & I & L). pose proof (sum_in (t_weak c) _ t I) as H.
    destruct t; cbn in L; try tauto; destruct L as [<-|[]]; cbn in H; rewrite (refers_some c _ c E), Nat.eqb_refl in H; lia.
Qed.

Lemma strong_eq s c b : counted s -> get (mem s) c = Some b -> (strong b + 1 = Z.of_nat (owners c s))%Z.
Proof. intros (_ & H & _) G. specialize (H c). unfold cell_ok in H. rewrite G in H. apply H. Qed.

Definition no_rise (m m' : heap) : Prop :=
  forall c b b', get m c = Some b -> get m' c = Some b' -> strong b = (-1)%Z -> (strong b' <= -1)%Z.

Lemma no_rise_refl m : no_rise m m.
Proof. intros c b b' G G' E. rewrite G in G'. injection G' as <-. lia. Qed.
Lemma no_rise_set m c b b' : get m c = Some b -> (strong b = -1 -> strong b' <= -1)%Z -> no_rise m (set m c b').
Proof.
  intros G I k d d' Gd Gd' E. destruct (Nat.eq_dec k c) as [->|N].
  - rewrite (get_set_same _ _ _ _ G) in Gd'. injection Gd' as <-. rewrite G in Gd. injection Gd as <-. auto.
  - rewrite get_set_other in Gd' by auto. rewrite Gd in Gd'. injection Gd' as <-. lia.
Qed.

Lemma no_rise_new m a p now ow m1 h : new m a p now ow = Ok (m1, h) -> no_rise m m1.
Proof.
  unfold new. destruct (get m a) eqn:G; [discriminate|]. intros E. injection E as <- <-.
  intros c b b' Gb Gb' S. cbn in Gb'. destruct (Nat.eqb c a) eqn:Q.
  - apply Nat.eqb_eq in Q. subst. congruence.
  - rewrite Gb in Gb'. injection Gb' as <-. lia.
Qed.

Lemma advance_no_rise m t e : task_ok t -> advance m t = Ok e -> NoDup (map fst m) -> no_rise m (e_mem e).
Proof.
  intros TO AD N. destruct t as [c|c|c|c|c|h c|h c x]; cbn [advance] in AD; unfold deleter, at_block in AD;
    (destruct (get m c) as [b|] eqn:G; [|discriminate]).
  - injection AD as <-. cbn. apply no_rise_set with b; [exact G|]. cbn. lia.
  - destruct (value b); [|discriminate]. injection AD as <-. cbn. apply no_rise_set with b; [exact G|]. cbn. lia.
  - injection AD as <-. apply no_rise_refl.
  - injection AD as <-. cbn. apply no_rise_set with b; [exact G|]. cbn. lia.
  - cbn in AD. injection AD as <-. cbn. intros k d d' Gd Gd' E. destruct (Nat.eq_dec k c) as [->|NE].
    + rewrite get_remove_same in Gd' by exact N. discriminate.
    + rewrite get_remove_other in Gd' by auto. rewrite Gd in Gd'. injection Gd' as <-. lia.
  - injection AD as <-. unfold lock_try. destruct (strong b =? -1)%Z; apply no_rise_refl.
  - destruct (strong b =? x)%Z eqn:S.
    + injection AD as <-. cbn. apply no_rise_set with b; [exact G|]. cbn in *. apply Z.eqb_eq in S. lia.
    + injection AD as <-. unfold lock_try. destruct (strong b =? -1)%Z; apply no_rise_refl.
Qed.

Lemma step_no_rise s l s' r : counted s -> step s l = Ok (s', r) -> no_rise (mem s) (mem s').
Proof.
  intros CO ST. destruct s as [m vs rs ws ts lo ev now]. pose proof CO as (N & H & F). cbn in N, F.
  destruct l; cbn [step] in ST;
    repeat match type of ST with
           | context [take_many ?a ?b] => destruct (take_many a b) as [[? ?]| |] eqn:?; cbn [bind] in ST; try discriminate
           | context [take_res ?a ?b] => destruct (take_res a b) as [[? ?]| |] eqn:?; cbn [bind] in ST; try discriminate
           end;
    try (injection ST as <- <-; apply no_rise_refl).
  - destruct (new m a p now l) as [[m1 h]| |] eqn:NW; cbn [bind] in ST; try discriminate. injection ST as <- <-.
    eapply no_rise_new; eauto.
  - unfold from_box in ST. destruct (new m a p now l) as [[m1 h]| |] eqn:NW; cbn [bind] in ST; try discriminate.
    destruct (project m1 h (Some [])) as [h1| |] eqn:PR; cbn [bind] in ST; try discriminate. injection ST as <- <-.
    eapply no_rise_new; eauto.
  - unfold from_ptr_and_deleter in ST. destruct (new m a p now []) as [[m1 h]| |] eqn:NW; cbn [bind] in ST; try discriminate.
    destruct (valid m1 (ptr h)); cbn [bind] in ST; try discriminate.
    destruct (valid m1 (if is_null then Null else Into a)); cbn [bind] in ST; try discriminate. injection ST as <- <-.
    eapply no_rise_new; eauto.
  - unfold clone, shared_ptr_ref, at_block in ST. destruct (cntrl h) as [c|] eqn:CH.
    + destruct (get m c) as [b|] eqn:G; cbn [bind] in ST; try discriminate. injection ST as <- <-. cbn [mem].
      apply no_rise_set with b; [exact G|]. intros E. exfalso.
      pose proof (strong_eq _ c b CO G) as S. assert (O : owners c (State m vs rs ws ts lo ev now) <> 0); [|lia].
      apply (strongs_owned _ h); [|exact CH]. unfold strongs. cbn. apply in_app_iff. left.
      match goal with T : take_res _ _ = _ |- _ => apply take_res_ok in T; rewrite T end. now left.
    + cbn [bind] in ST. injection ST as <- <-. apply no_rise_refl.
  - destruct (project m h f); cbn [bind] in ST; try discriminate. injection ST as <- <-. apply no_rise_refl.
  - destruct (ptr h); try discriminate; destruct (valid m _); cbn [bind] in ST; try discriminate; injection ST as <- <-; apply no_rise_refl.
  - destruct (try_as_ref m h); cbn [bind] in ST; try discriminate. injection ST as <- <-. apply no_rise_refl.
  - destruct (shared_ptr_use_count m (cntrl h)); cbn [bind] in ST; try discriminate. injection ST as <- <-. apply no_rise_refl.
  - unfold add_weak, at_block in ST. destruct (cntrl h) as [c|]; [destruct (get m c) as [b|] eqn:G|]; cbn [bind] in ST; try discriminate;
      injection ST as <- <-; [|apply no_rise_refl]. apply no_rise_set with b; [exact G|]. cbn. lia.
  - unfold add_weak, at_block in ST. destruct (cntrl h) as [c|]; [destruct (get m c) as [b|] eqn:G|]; cbn [bind] in ST; try discriminate;
      injection ST as <- <-; [|apply no_rise_refl]. apply no_rise_set with b; [exact G|]. cbn. lia.
  - destruct (cntrl h); injection ST as <- <-; apply no_rise_refl.
  - destruct (advance m t) as [e| |] eqn:AD; cbn [bind] in ST; try discriminate. injection ST as <- <-. cbn [mem].
    eapply advance_no_rise; [|exact AD|exact N].
    match goal with T : take_res _ _ = _ |- _ => apply take_res_ok in T; apply (Permutation_Forall T) in F end. now inversion F.
Qed.

Lemma no_resurrection s l s' r c :
  counted s -> step s l = Ok (s', r) -> get (mem s) c <> None -> owners c s = 0 -> owners c s' = 0.
Proof.
  intros CO ST G O. pose proof (counted_step _ _ _ _ CO ST) as CO'. pose proof (step_no_rise _ _ _ _ CO ST) as NR.
  destruct (get (mem s) c) as [b|] eqn:Gb; [|congruence]. pose proof (strong_eq _ _ _ CO Gb) as S1.
  destruct (get (mem s') c) as [b'|] eqn:Gb'.
  - pose proof (strong_eq _ _ _ CO' Gb') as S2. specialize (NR c b b' Gb Gb'). lia.
  - destruct CO' as (_ & H' & _). specialize (H' c). unfold cell_ok in H'. rewrite Gb' in H'. lia.
Qed.

(** ** Following pointers *)

Definition reach (m : heap) (c : nat) (p : pointee) : Prop :=
  match p with Null => False | Static => True | Into x => keeps m c x end.

Lemma reach_valid s c p : counted s -> owners c s <> 0 -> reach (mem s) c p -> valid (mem s) p = Ok tt.
Proof. intros CO O R. destruct p; [destruct R | | reflexivity]. apply alive_valid. eapply keeps_alive; eauto. Qed.

Lemma follow_ok s c path : counted s -> pointers s -> owners c s <> 0 ->
  forall p, reach (mem s) c p ->
    match follow (mem s) p path with Ok q => reach (mem s) c q | Ub => False | Impossible => True end.
Proof.
  intros CO (P1 & P2 & P3) O. induction path as [|i path IH]; intros p R; cbn [follow];
    rewrite (reach_valid s c p CO O R); cbn [bind]; [exact R|].
  destruct p as [|x|]; try exact Logic.I. cbn in R.
  destruct (keeps_alive s c x CO R O) as (b & ow & G & V). unfold at_block. rewrite G, V.
  destruct (nth_error ow i) as [h|] eqn:NE; [|exact Logic.I].
  apply nth_error_In in NE. assert (VX : val (mem s) x = Some ow) by (unfold val; now rewrite G).
  pose proof (P2 x ow h VX NE) as OK. unfold handle_ok in OK. destruct (ptr h) as [|y|]; [exact Logic.I | |].
  - destruct OK as (c' & E & K). apply IH. cbn. eapply keeps_trans; [exact R|]. eapply keeps_step; eauto.
  - apply IH. exact Logic.I.
Qed.

Lemma project_ok s h f : counted s -> pointers s -> handle_ok (mem s) h -> owned_by s h ->
  match project (mem s) h f with Ok h1 => handle_ok (mem s) h1 | Ub => False | Impossible => True end.
Proof.
  intros CO PO OK OW. unfold project, release. unfold handle_ok in OK. destruct (ptr h) as [|x|] eqn:P.
  - exact Logic.I.
  - destruct OK as (c & E & K). assert (R : reach (mem s) c (Into x)) by exact K.
    rewrite (reach_valid s c _ CO (OW c E) R). cbn [bind]. destruct f as [path|]; [|exact Logic.I].
    pose proof (follow_ok s c path CO PO (OW c E) (Into x) R) as FO.
    destruct (follow (mem s) (Into x) path) as [q| |]; cbn [bind]; auto.
    unfold handle_ok. cbn. destruct q; auto. exists c. auto.
  - cbn [bind valid]. destruct f as [path|]; [|exact Logic.I].
    destruct path; [exact Logic.I|]. cbn. exact Logic.I.
Qed.

(** ** The steps *)

Lemma new_pointers m a p now ow m1 h vs rs ws ts lo ev hs h' :
  counted (State m hs rs ws ts lo ev now) -> pointers (State m hs rs ws ts lo ev now) -> Permutation hs (ow ++ vs) ->
  new m a p now ow = Ok (m1, h) -> ptr h' = Into a -> cntrl h' = Some a ->
  (forall c, get m c <> None -> owners c (State m hs rs ws ts lo ev now) = 0 -> owners c (State m1 (h' :: vs) rs ws ts lo ev (S now)) = 0) ->
  pointers (State m1 (h' :: vs) rs ws ts lo ev (S now)).
Proof.
  intros CO PO P NW PH CH NR. unfold new in NW. destruct (get m a) eqn:G; [discriminate|]. injection NW as <- <-.
  apply (pointers_next (State m hs rs ws ts lo ev now)); auto; unfold strongs, weakly in *; cbn [mem vars raws weaks tasks lost] in *.
  - intros c w O V. unfold val in *. cbn. destruct (Nat.eqb c a) eqn:Q; [|exact V]. apply Nat.eqb_eq in Q. subst. now rewrite G in V.
  - intros x I. rewrite !in_app_iff in *. cbn in I. destruct I as [[<-|I]|I]; auto.
    + right. unfold handle_ok. rewrite PH. exists a. split; [exact CH | constructor].
    + left. left. rewrite P. apply in_app_iff. auto.
  - intros c w V. unfold val in *. cbn in V. destruct (Nat.eqb c a) eqn:Q; [|auto]. cbn in V. injection V as <-.
    right. intros x I. rewrite !in_app_iff. left. rewrite P. apply in_app_iff. auto.
  - intros x I. right. split; [exact I|]. intros O c E Z. apply (O c E). apply NR; [|exact Z].
    apply (wref_some _ c CO). eapply weakly_wcount; [exact I | exact E].
Qed.

Lemma pointers_step s l s' r : counted s -> pointers s -> step s l = Ok (s', r) -> pointers s'.
Proof.
  intros CO PO ST. pose proof (fun c => no_resurrection s l s' r c CO ST) as NR.
  pose proof (counted_step _ _ _ _ CO ST) as CO'.
  assert (WK : forall h, In h (weakly s) -> owned_by s' h -> owned_by s h).
  { intros h I O c E Z. apply (O c E). apply NR; [|exact Z]. apply (wref_some _ c CO). eapply weakly_wcount; eauto. }
  destruct s as [m vs rs ws ts lo ev now]. pose proof CO as (N & H & F). cbn in N, F.
  destruct l; cbn [step] in ST;
    repeat match type of ST with
           | context [take_many ?a ?b] => destruct (take_many a b) as [[? ?]| |] eqn:?; cbn [bind] in ST; try discriminate
           | context [take_res ?a ?b] => destruct (take_res a b) as [[? ?]| |] eqn:?; cbn [bind] in ST; try discriminate
           end;
    repeat match goal with
           | T : take_many _ _ = _ |- _ => apply take_many_ok in T
           | T : take_res _ _ = _ |- _ => apply take_res_ok in T
           end.
  - destruct (new m a p now l) as [[m1 h]| |] eqn:NW; cbn [bind] in ST; try discriminate. injection ST as <- <-.
    pose proof NW as NW'. unfold new in NW'. destruct (get m a); [discriminate|]. injection NW' as <- <-.
    eapply new_pointers; [exact CO | exact PO | eassumption | exact NW | reflexivity | reflexivity | exact NR].
  - unfold from_box in ST. destruct (new m a p now l) as [[m1 h]| |] eqn:NW; cbn [bind] in ST; try discriminate.
    destruct (project m1 h (Some [])) as [h1| |] eqn:PR; cbn [bind] in ST; try discriminate. injection ST as <- <-.
    pose proof NW as NW'. unfold new in NW'. destruct (get m a); [discriminate|]. injection NW' as <- <-.
    cbn in PR. unfold at_block in PR. cbn in PR. rewrite Nat.eqb_refl in PR. cbn in PR. injection PR as <-.
    eapply new_pointers; [exact CO | exact PO | eassumption | exact NW | reflexivity | reflexivity | exact NR].
  - unfold from_ptr_and_deleter in ST. destruct (new m a p now []) as [[m1 h]| |] eqn:NW; cbn [bind] in ST; try discriminate.
    destruct (valid m1 (ptr h)); cbn [bind] in ST; try discriminate.
    destruct is_null; [discriminate|].
    destruct (valid m1 (Into a)); cbn [bind] in ST; try discriminate. injection ST as <- <-.
    pose proof NW as NW'. unfold new in NW'. destruct (get m a); [discriminate|]. injection NW' as <- <-.
    eapply (new_pointers m a p now []); [exact CO | exact PO | apply Permutation_refl | exact NW | reflexivity | reflexivity | exact NR].
  - injection ST as <- <-. apply (pointers_next (State m vs rs ws ts lo ev now)); auto; unfold strongs; cbn.
    intros h [<-|I]; auto. right. exact Logic.I.
  - (* clone *)
    assert (IH : In h (strongs (State m vs rs ws ts lo ev now))).
    { unfold strongs; cbn. apply in_app_iff. left. rewrite Heqr0. now left. }
    unfold clone, shared_ptr_ref, at_block in ST. destruct (cntrl h) as [c|] eqn:CH.
    + destruct (get m c) as [b|] eqn:G; cbn [bind] in ST; try discriminate. injection ST as <- <-.
      match goal with |- pointers (State (set m c ?b') _ _ _ _ _ _ _) => pose proof (val_set_same m c b b' G eq_refl) as VS end.
      apply (pointers_next (State m vs rs ws ts lo ev now)); auto; unfold strongs in *; cbn [mem vars raws lost] in *.
      * intros k w _. now rewrite VS.
      * intros x I. cbn in I. destruct I as [<-|I]; [|now left]. left. destruct h; cbn in *. now rewrite <- CH.
      * intros k w. rewrite VS. now left.
    + cbn [bind] in ST. injection ST as <- <-. apply (pointers_next (State m vs rs ws ts lo ev now)); auto; unfold strongs in *; cbn [mem vars raws lost] in *.
      intros x I. cbn in I. destruct I as [<-|I]; [|now left]. left. destruct h; cbn in *. now rewrite <- CH.
  - (* drop *)
    injection ST as <- <-. apply (pointers_next (State m vs rs ws ts lo ev now)); auto; unfold strongs, weakly in *; cbn [mem vars raws lost weaks tasks] in *.
    + intros x I. left. rewrite !in_app_iff in *. rewrite Heqr0. cbn. tauto.
    + intros x I. right. assert (I' : In x (ws ++ flat_map locking ts)); [|split; [exact I' | now apply WK]].
      rewrite !in_app_iff in *. destruct I as [I|I]; [now left | right].
      rewrite flat_map_app, in_app_iff in I. destruct I as [I|I]; [|exact I].
      unfold shared_ptr_unref in I. destruct (cntrl h); cbn in I; tauto.
  - (* project *)
    destruct (project m h f) as [h1| |] eqn:PR; cbn [bind] in ST; try discriminate. injection ST as <- <-.
    assert (IH : In h (strongs (State m vs rs ws ts lo ev now))).
    { unfold strongs; cbn. apply in_app_iff. left. rewrite Heqr0. now left. }
    pose proof (project_ok _ h f CO PO (proj1 PO h IH) (strongs_owned _ h IH)) as OK. cbn [mem] in OK. rewrite PR in OK.
    apply (pointers_next (State m vs rs ws ts lo ev now)); auto; unfold strongs in *; cbn [mem vars raws lost] in *.
    intros x I. cbn in I. destruct I as [<-|I]; [now right|]. left. rewrite !in_app_iff in *. rewrite Heqr0. cbn. tauto.
  - (* project panics *)
    assert (IH : forall x, In x (l ++ rs ++ h :: lo) -> In x (vs ++ rs ++ lo)).
    { intros x. rewrite !in_app_iff. cbn. rewrite Heqr0. cbn. tauto. }
    destruct (ptr h); try discriminate; destruct (valid m _); cbn [bind] in ST; try discriminate; injection ST as <- <-;
    (apply (pointers_next (State m vs rs ws ts lo ev now)); auto; unfold strongs in *; cbn [mem vars raws lost] in *; intros x I; left; auto).
  - injection ST as <- <-. apply (pointers_next (State m vs rs ws ts lo ev now)); auto; unfold strongs in *; cbn [mem vars raws lost] in *.
    intros x I. cbn in I. destruct I as [<-|I]; [right; exact Logic.I|]. left. rewrite !in_app_iff in *. cbn in I. rewrite ?in_app_iff in I. rewrite Heqr0. cbn. tauto.
  - injection ST as <- <-. apply (pointers_next (State m vs rs ws ts lo ev now)); auto; unfold strongs in *; cbn [mem vars raws lost] in *.
    intros x I. left. rewrite !in_app_iff in *. cbn in I. rewrite Heqr0. cbn. tauto.
  - destruct (try_as_ref m h); cbn [bind] in ST; try discriminate. now injection ST as <- <-.
  - destruct (shared_ptr_use_count m (cntrl h)); cbn [bind] in ST; try discriminate. now injection ST as <- <-.
  - now injection ST as <- <-.
  - (* weak from shared *)
    assert (IH : In h (strongs (State m vs rs ws ts lo ev now))).
    { unfold strongs; cbn. apply in_app_iff. left. rewrite Heqr0. now left. }
    unfold add_weak, at_block in ST. destruct (cntrl h) as [c|] eqn:CH.
    + destruct (get m c) as [b|] eqn:G; cbn [bind] in ST; try discriminate. injection ST as <- <-.
      match goal with |- pointers (State (set m c ?b') _ _ _ _ _ _ _) => pose proof (val_set_same m c b b' G eq_refl) as VS end.
      apply (pointers_next (State m vs rs ws ts lo ev now)); auto; unfold weakly in *; cbn [mem vars raws lost weaks tasks] in *.
      * intros k w _. now rewrite VS.
      * intros k w. rewrite VS. now left.
      * intros x I. cbn in I. destruct I as [<-|I]; auto.
    + cbn [bind] in ST. injection ST as <- <-. apply (pointers_next (State m vs rs ws ts lo ev now)); auto; unfold weakly in *; cbn [mem vars raws lost weaks tasks] in *.
      intros x I. cbn in I. destruct I as [<-|I]; auto.
  - (* copy of a weak *)
    assert (IH : In h (weakly (State m vs rs ws ts lo ev now))).
    { unfold weakly; cbn. apply in_app_iff. left. rewrite Heqr0. now left. }
    unfold add_weak, at_block in ST. destruct (cntrl h) as [c|] eqn:CH.
    + destruct (get m c) as [b|] eqn:G; cbn [bind] in ST; try discriminate. injection ST as <- <-.
      match goal with |- pointers (State (set m c ?b') _ _ _ _ _ _ _) => pose proof (val_set_same m c b b' G eq_refl) as VS end.
      apply (pointers_next (State m vs rs ws ts lo ev now)); auto; unfold weakly in *; cbn [mem vars raws lost weaks tasks] in *.
      * intros k w _. now rewrite VS.
      * intros k w. rewrite VS. now left.
      * intros x I. cbn in I. destruct I as [<-|I]; auto.
    + cbn [bind] in ST. injection ST as <- <-. apply (pointers_next (State m vs rs ws ts lo ev now)); auto; unfold weakly in *; cbn [mem vars raws lost weaks tasks] in *.
      intros x I. cbn in I. destruct I as [<-|I]; auto.
  - (* drop of a weak *)
    injection ST as <- <-. apply (pointers_next (State m vs rs ws ts lo ev now)); auto; unfold strongs, weakly in *; cbn [mem vars raws lost weaks tasks] in *.
    intros x I. right. assert (I' : In x (ws ++ flat_map locking ts)); [|split; [exact I' | now apply WK]].
    rewrite !in_app_iff in *. destruct I as [I|I]; [left; rewrite Heqr0; now right | right].
    rewrite flat_map_app, in_app_iff in I. destruct I as [I|I]; [|exact I].
    unfold release_weak in I. destruct (cntrl h); cbn in I; tauto.
  - (* lock *)
    destruct (cntrl h) as [c|] eqn:CH; injection ST as <- <-.
    + apply (pointers_next (State m vs rs ws ts lo ev now)); auto; unfold strongs, weakly in *; cbn [mem vars raws lost weaks tasks flat_map locking app] in *.
      intros x I. right. assert (I' : In x (ws ++ flat_map locking ts)); [|split; [exact I' | now apply WK]].
      rewrite !in_app_iff in *. rewrite Heqr0. cbn in *. tauto.
    + apply (pointers_next (State m vs rs ws ts lo ev now)); auto; unfold strongs; cbn.
      intros x [<-|I]; auto. right. exact Logic.I.
  - (* a task *)
    destruct (advance m t) as [e| |] eqn:AD; cbn [bind] in ST; try discriminate. injection ST as <- <-.
    assert (W0 : forall x, In x (ws ++ flat_map locking l) -> In x (ws ++ flat_map locking ts)).
    { intros x. rewrite !in_app_iff. intros [I|I]; [now left | right]. apply in_flat_map in I. destruct I as (t' & I & L).
      apply in_flat_map. exists t'. split; [|exact L]. rewrite Heqr0. now right. }
    assert (L0 : forall x, In x (locking t) -> In x (ws ++ flat_map locking ts)).
    { intros x I. rewrite in_app_iff. right. apply in_flat_map. exists t. split; [|exact I]. rewrite Heqr0. now left. }
    assert (GEN : (forall c ow, owners c (State m vs rs ws ts lo ev now) <> 0 -> val m c = Some ow -> val (e_mem e) c = Some ow) ->
                  (forall h, In h (e_vars e) -> handle_ok (e_mem e) h) ->
                  (forall c ow, val (e_mem e) c = Some ow -> val m c = Some ow) ->
                  (forall h, In h (e_weaks e) \/ In h (flat_map locking (e_tasks e)) -> In h (locking t)) ->
                  pointers (State (e_mem e) (e_vars e ++ vs) rs (e_weaks e ++ ws) (e_tasks e ++ l) lo (ev ++ e_events e) now)).
    { intros A B C D. apply (pointers_next (State m vs rs ws ts lo ev now)); auto; unfold strongs, weakly in *; cbn [mem vars raws lost weaks tasks] in *.
      - intros x I. rewrite !in_app_iff in *. destruct I as [[I|I]|I]; auto.
      - intros x I. right. assert (I' : In x (ws ++ flat_map locking ts)); [|split; [exact I' | now apply WK]].
        rewrite flat_map_app, !in_app_iff in I. destruct I as [[I|I]|[I|I]].
        + apply L0, D. now left.
        + apply W0, in_app_iff. now left.
        + apply L0, D. now right.
        + apply W0, in_app_iff. now right. }
    assert (TO : task_ok t) by (apply (Permutation_Forall Heqr0) in F; now inversion F).
    apply GEN; clear GEN W0 L0.
    all: destruct t as [c|c|c|c|c|h c|h c x]; cbn [advance] in AD; unfold deleter, at_block in AD;
      (destruct (get m c) as [b|] eqn:G; [|discriminate]).
    (* memory *)
    + injection AD as <-. cbn [e_mem]. intros k w _. rewrite (val_set_same _ _ _ _ G); auto.
    + destruct (value b) as [ow0|] eqn:V; [|discriminate]. injection AD as <-. cbn [e_mem]. intros k w O VK.
      destruct (Nat.eq_dec k c) as [->|NE].
      * exfalso. pose proof (H c) as HC. unfold cell_ok in HC. cbn [mem] in HC. rewrite G in HC. unfold block_ok in HC. rewrite V in HC.
        destruct HC as (_ & _ & _ & _ & HC). specialize (HC O). cbn [tasks] in HC. rewrite (sum_perm _ _ _ Heqr0) in HC.
        cbn in HC. rewrite Nat.eqb_refl in HC. discriminate.
      * unfold val. rewrite get_set_other by exact NE. exact VK.
    + injection AD as <-. cbn [e_mem]. auto.
    + injection AD as <-. cbn [e_mem]. intros k w _. rewrite (val_set_same _ _ _ _ G); auto.
    + cbn [bind] in AD. injection AD as <-. cbn [e_mem]. intros k w O VK. destruct (Nat.eq_dec k c) as [->|NE].
      * exfalso. pose proof (H c) as HC. unfold cell_ok in HC. cbn [mem] in HC. rewrite G in HC. unfold block_ok in HC.
        unfold val in VK. rewrite G in VK. rewrite VK in HC. destruct HC as (_ & HC & _). cbn [tasks] in HC.
        rewrite (sum_perm _ _ _ Heqr0) in HC. cbn in HC. rewrite Nat.eqb_refl in HC. discriminate.
      * unfold val. rewrite get_remove_other by exact NE. exact VK.
    + injection AD as <-. unfold lock_try. destruct (strong b =? -1)%Z; cbn [e_mem]; auto.
    + destruct (strong b =? x)%Z; injection AD as <-.
      * cbn [e_mem]. intros k w _. rewrite (val_set_same _ _ _ _ G); auto.
      * unfold lock_try. destruct (strong b =? -1)%Z; cbn [e_mem]; auto.
    (* new variables *)
    + injection AD as <-. cbn. tauto.
    + destruct (value b) as [ow0|] eqn:V; [|discriminate]. injection AD as <-. cbn. tauto.
    + injection AD as <-. cbn. tauto.
    + injection AD as <-. cbn. tauto.
    + cbn [bind] in AD. injection AD as <-. cbn. tauto.
    + injection AD as <-. unfold lock_try. destruct (strong b =? -1)%Z; cbn; [|tauto]. intros h0 [<-|[]]. exact Logic.I.
    + destruct (strong b =? x)%Z eqn:SX; injection AD as <-.
      * cbn [e_mem e_vars]. intros h0 [<-|[]]. apply Z.eqb_eq in SX. cbn in TO. destruct TO as [CH NX].
        apply (handle_ext m); [intros k; apply (val_set_same _ _ _ _ G); reflexivity|].
        apply (proj2 (proj2 PO) h).
        -- unfold weakly. cbn. apply in_app_iff. right. apply in_flat_map. exists (TLockCas h c x). split; [rewrite Heqr0; now left | now left].
        -- intros c' E. rewrite CH in E. injection E as <-. pose proof (strong_eq _ c b CO G). lia.
      * unfold lock_try. destruct (strong b =? -1)%Z; cbn; [|tauto]. intros h0 [<-|[]]. exact Logic.I.
    (* values *)
    + injection AD as <-. cbn [e_mem]. intros k w. rewrite (val_set_same _ _ _ _ G); auto.
    + destruct (value b) as [ow0|] eqn:V; [|discriminate]. injection AD as <-. cbn [e_mem]. intros k w VK.
      destruct (Nat.eq_dec k c) as [->|NE]; unfold val in *.
      * rewrite (get_set_same _ _ _ _ G) in VK. discriminate.
      * rewrite get_set_other in VK by exact NE. exact VK.
    + injection AD as <-. cbn [e_mem]. auto.
    + injection AD as <-. cbn [e_mem]. intros k w. rewrite (val_set_same _ _ _ _ G); auto.
    + cbn [bind] in AD. injection AD as <-. cbn [e_mem]. intros k w VK. destruct (Nat.eq_dec k c) as [->|NE]; unfold val in *.
      * rewrite (get_remove_same _ _ N) in VK. discriminate.
      * rewrite get_remove_other in VK by exact NE. exact VK.
    + injection AD as <-. unfold lock_try. destruct (strong b =? -1)%Z; cbn [e_mem]; auto.
    + destruct (strong b =? x)%Z; injection AD as <-.
      * cbn [e_mem]. intros k w. rewrite (val_set_same _ _ _ _ G); auto.
      * unfold lock_try. destruct (strong b =? -1)%Z; cbn [e_mem]; auto.
    (* weak pointers *)
    + injection AD as <-. cbn [e_weaks e_tasks]. intros h [[]|I]. destruct (strong b - 1 =? -1)%Z; cbn in I; tauto.
    + destruct (value b) as [ow0|] eqn:V; [|discriminate]. injection AD as <-. cbn [e_weaks e_tasks]. intros h [[]|I].
      rewrite flat_map_app, in_app_iff in I. cbn in I. destruct I as [I|[]]. apply in_flat_map in I. destruct I as (t & I & L).
      apply in_flat_map in I. destruct I as (h0 & _ & I). unfold shared_ptr_unref in I. destruct (cntrl h0); [|destruct I].
      destruct I as [<-|[]]. destruct L.
    + injection AD as <-. cbn [e_weaks e_tasks]. intros h [[]|I]. destruct (weak b =? 0)%Z; cbn in I; tauto.
    + injection AD as <-. cbn [e_weaks e_tasks]. intros h [[]|I]. destruct (weak b - 1 =? -1)%Z; cbn in I; tauto.
    + cbn [bind] in AD. injection AD as <-. cbn. tauto.
    + injection AD as <-. unfold lock_try. destruct (strong b =? -1)%Z; cbn; tauto.
    + destruct (strong b =? x)%Z; injection AD as <-; [cbn; tauto|]. unfold lock_try. destruct (strong b =? -1)%Z; cbn; tauto.
Qed.
