(** The scanner recognises well-formed characters and maximal subparts. *)
From Coq Require Import List NArith Bool Arith Lia.
From Verif.Lossy Require Import Model Spec.
Import ListNotations.
Local Open Scope N_scope.
Local Open Scope list_scope.

Lemma between_spec lo hi b : between lo hi b = true <-> rng lo hi b.
Proof. unfold between, rng. rewrite andb_true_iff, !N.leb_le. tauto. Qed.
Lemma between_false lo hi b : between lo hi b = false <-> ~ rng lo hi b.
Proof. rewrite <- between_spec. destruct (between lo hi b); split; congruence. Qed.

Lemma walk_cut x : forall lo hi k acc q, walk lo hi k acc x = Cut q ->
  q = acc ++ x /\ (List.length x <= k)%nat /\
  exists lo' hi' k', (lo <= hi -> lo' <= hi') /\ forall y, walk lo hi k acc (x ++ y) = walk lo' hi' k' (acc ++ x) y.
Proof.
  induction x as [|c x IH]; intros lo hi k acc q H; cbn in H.
  - injection H as <-. rewrite app_nil_r. split; [reflexivity|]. split; [cbn; lia|]. exists lo, hi, k. split; [tauto|reflexivity].
  - destruct (between lo hi c) eqn:B; [|discriminate]. destruct k as [|k]; [discriminate|].
    destruct (IH _ _ _ _ _ H) as (-> & L & lo' & hi' & k' & Hl & G). rewrite <- app_assoc. split; [reflexivity|]. split; [cbn; lia|].
    exists lo', hi', k'. split; [intro; apply Hl; lia|]. intro y. cbn. rewrite B, G. now rewrite <- app_assoc.
Qed.
Lemma walk_done x : forall lo hi k acc c r, walk lo hi k acc x = Done c r ->
  (exists m, c = acc ++ m /\ x = m ++ r /\ m <> []) /\ forall y, walk lo hi k acc (x ++ y) = Done c (r ++ y).
Proof.
  induction x as [|e x IH]; intros lo hi k acc c r H; cbn in H; [discriminate|].
  destruct (between lo hi e) eqn:B; [|discriminate]. destruct k as [|k].
  - injection H as <- <-. split; [exists [e]; split; [reflexivity|split; [reflexivity|discriminate]]|]. intro y. cbn. now rewrite B.
  - destruct (IH _ _ _ _ _ _ H) as [(m & -> & -> & Hm) G]. split.
    + exists (e :: m). rewrite <- app_assoc. split; [reflexivity|split; [reflexivity|discriminate]].
    + intro y. specialize (G y). rewrite <- app_assoc in G. cbn. rewrite B. rewrite <- !app_assoc in *. exact G.
Qed.
Lemma walk_broken x : forall lo hi k acc p r, walk lo hi k acc x = Broken p r ->
  (exists m, p = acc ++ m /\ x = m ++ r /\ r <> [] /\ walk lo hi k acc m = Cut p) /\ forall y, walk lo hi k acc (x ++ y) = Broken p (r ++ y).
Proof.
  induction x as [|e x IH]; intros lo hi k acc p r H; cbn in H; [discriminate|].
  destruct (between lo hi e) eqn:B.
  - destruct k as [|k]; [discriminate|]. destruct (IH _ _ _ _ _ _ H) as [(m & -> & -> & Hr & Hw) G]. split.
    + exists (e :: m). rewrite <- app_assoc. split; [reflexivity|]. split; [reflexivity|]. split; [exact Hr|]. cbn. rewrite B. rewrite <- app_assoc in Hw. exact Hw.
    + intro y. cbn. rewrite B. exact (G y).
  - injection H as <- <-. split.
    + exists []. rewrite app_nil_r. split; [reflexivity|]. split; [reflexivity|]. split; [discriminate|reflexivity].
    + intro y. cbn. now rewrite B.
Qed.

Lemma first_done s c r : first_char s = Done c r -> s = c ++ r /\ c <> [] /\ forall y, first_char (s ++ y) = Done c (r ++ y).
Proof.
  destruct s as [|b s]; [discriminate|]. cbn [first_char app]. destruct (b <? 128) eqn:E.
  - intro H. injection H as <- <-. split; [reflexivity|]. split; [discriminate|]. reflexivity.
  - destruct (lead b) as [[[lo hi] k]|]; [|discriminate]. intro H. destruct (walk_done _ _ _ _ _ _ _ H) as [(m & -> & -> & _) G].
    split; [reflexivity|]. split; [discriminate|]. exact G.
Qed.
Lemma first_broken s p r : first_char s = Broken p r ->
  s = p ++ r /\ p <> [] /\ (first_char p = Cut p /\ r <> [] \/ exists b, p = [b] /\ first_char p = Broken [b] []) /\
  forall y, first_char (s ++ y) = Broken p (r ++ y).
Proof.
  destruct s as [|b s]; [discriminate|]. cbn [first_char app]. destruct (b <? 128) eqn:E; [discriminate|].
  destruct (lead b) as [[[lo hi] k]|] eqn:L.
  - intro H. destruct (walk_broken _ _ _ _ _ _ _ H) as [(m & -> & -> & Hr & Hw) G].
    split; [reflexivity|]. split; [discriminate|]. split; [left; split; [cbn; rewrite E, L; exact Hw|exact Hr]|]. exact G.
  - intro H. injection H as <- <-. split; [reflexivity|]. split; [discriminate|]. split; [right; exists b; split; [reflexivity|]; cbn; now rewrite E, L|]. reflexivity.
Qed.
Lemma lead_bound b lo hi k : lead b = Some (lo, hi, k) -> (k <= 2)%nat.
Proof. unfold lead. repeat match goal with |- (if ?x then _ else _) = _ -> _ => destruct x; [intro H; injection H as <- <- <-; lia|] end. discriminate. Qed.
Lemma first_cut s p : first_char s = Cut p -> p = s /\ (List.length s <= 3)%nat.
Proof.
  destruct s as [|b s]; cbn [first_char]; [intro H; injection H as <-; split; [reflexivity|cbn; lia]|].
  destruct (b <? 128) eqn:E; [discriminate|]. destruct (lead b) as [[[lo hi] k]|] eqn:L; [|discriminate].
  intro H. destruct (walk_cut _ _ _ _ _ _ H) as (-> & Hk & _). split; [reflexivity|]. apply lead_bound in L. cbn. lia.
Qed.
(** What a longer text can make of a cut character. *)
Lemma first_after_cut s y : s <> [] -> first_char s = Cut s ->
  match first_char (s ++ y) with
  | Done c r => exists m, m <> [] /\ c = s ++ m /\ y = m ++ r
  | Broken p r => exists m, p = s ++ m /\ y = m ++ r
  | Cut p => True
  end.
Proof.
  destruct s as [|b s]; [contradiction|]. intros _. cbn [first_char app]. destruct (b <? 128) eqn:E; [discriminate|].
  destruct (lead b) as [[[lo hi] k]|] eqn:L; [|discriminate]. intro H. destruct (walk_cut _ _ _ _ _ _ H) as (_ & _ & lo' & hi' & k' & _ & G).
  rewrite G. destruct (walk lo' hi' k' ([b] ++ s) y) eqn:X; [|  |exact I].
  - apply walk_done in X as [(m & -> & -> & Hm) _]. exists m. split; [exact Hm|]. split; reflexivity.
  - apply walk_broken in X as [(m & -> & -> & _ & _) _]. exists m. split; reflexivity.
Qed.

(** ** Well-formed characters *)
Ltac bools := repeat match goal with
  | H : between _ _ _ = true |- _ => apply between_spec in H
  | H : between _ _ _ = false |- _ => apply between_false in H
  | H : (_ =? _) = true |- _ => apply N.eqb_eq in H
  | H : (_ =? _) = false |- _ => apply N.eqb_neq in H
  | H : (_ <? _) = true |- _ => apply N.ltb_lt in H
  | H : (_ <? _) = false |- _ => apply N.ltb_ge in H
  end; unfold rng in *.
Lemma between_in lo hi b : rng lo hi b -> between lo hi b = true.
Proof. apply between_spec. Qed.
Lemma lead_rows b : lead b =
  if between 0xC2 0xDF b then Some (0x80, 0xBF, 0%nat)
  else if between 0xE0 0xE0 b then Some (0xA0, 0xBF, 1%nat)
  else if between 0xE1 0xEC b then Some (0x80, 0xBF, 1%nat)
  else if between 0xED 0xED b then Some (0x80, 0x9F, 1%nat)
  else if between 0xEE 0xEF b then Some (0x80, 0xBF, 1%nat)
  else if between 0xF0 0xF0 b then Some (0x90, 0xBF, 2%nat)
  else if between 0xF1 0xF3 b then Some (0x80, 0xBF, 2%nat)
  else if between 0xF4 0xF4 b then Some (0x80, 0x8F, 2%nat)
  else None.
Proof.
  assert (Q : forall x, between x x b = (b =? x)).
  { intro x. destruct (N.eqb_spec b x) as [->|Hne]; [apply between_spec; unfold rng; lia|]. apply between_false. unfold rng. lia. }
  unfold lead. now rewrite !Q.
Qed.
Ltac leads := rewrite lead_rows; repeat match goal with |- context [between ?l ?h ?b] =>
  let B := fresh in destruct (between l h b) eqn:B; bools; try (exfalso; lia) end.
Lemma wf_first c : wf c -> forall r, first_char (c ++ r) = Done c r.
Proof.
  intros H r. destruct H; cbn [app first_char].
  1: unfold rng in *; destruct (N.ltb_spec a 128); [reflexivity|lia].
  all: match goal with |- context [?b <? 128] => destruct (N.ltb_spec b 128) as [HL|_]; [unfold rng in *; lia|] end.
  all: match goal with |- context [lead ?b] => let X := fresh in
         assert (X : lead b = lead b) by reflexivity; revert X; generalize (lead b) at 1 3; intro o; rewrite lead_rows end.
  all: repeat match goal with |- context [between ?l ?h ?b] =>
         first [ let B := fresh in assert (B : between l h b = true) by (apply between_spec; unfold rng in *; lia); rewrite B
               | let B := fresh in assert (B : between l h b = false) by (apply between_false; unfold rng in *; lia); rewrite B ] end.
  all: intros ->; cbn [walk app].
  all: repeat (match goal with |- context [between ?l ?h ?b] =>
         let B := fresh in assert (B : between l h b = true) by (apply between_spec; unfold rng in *; lia); rewrite B end; cbn [walk app]).
  all: reflexivity.
Qed.
Lemma first_wf s c r : first_char s = Done c r -> wf c.
Proof.
  destruct s as [|a s]; [discriminate|]. cbn [first_char]. destruct (N.ltb_spec a 128).
  - intro X. injection X as <- _. constructor. unfold rng. lia.
  - rewrite lead_rows.
    repeat match goal with |- context [between ?l ?h a] => destruct (between l h a) eqn:?B end; intro X; try discriminate.
    all: repeat (destruct s as [|?b s]; cbn [walk app] in X; [discriminate|];
         match type of X with context [between ?l ?h ?b] => destruct (between l h b) eqn:?B; [|discriminate] end).
    all: injection X as <- _; bools.
    all: repeat match goal with H : ?l <= ?x <= ?l |- _ => is_var x; assert (x = l) by lia; subst x end.
    all: first [solve [apply wf_2; unfold rng; lia]|solve [apply wf_E0; unfold rng; lia]|solve [apply wf_ED; unfold rng; lia]|solve [apply wf_F0; unfold rng; lia]|solve [apply wf_F4; unfold rng; lia]|solve [apply wf_E1; unfold rng; lia]|solve [apply wf_EE; unfold rng; lia]|solve [apply wf_F1; unfold rng; lia]].
Qed.
Lemma walk_complete k : forall lo hi acc, lo <= hi -> exists q, q <> [] /\ walk lo hi k acc q = Done (acc ++ q) [].
Proof.
  induction k as [|k IH]; intros lo hi acc L.
  - exists [lo]. split; [discriminate|]. cbn. rewrite between_in by (unfold rng; lia). reflexivity.
  - destruct (IH 0x80 0xBF (acc ++ [lo])) as (q & Hq & E); [lia|]. exists (lo :: q). split; [discriminate|]. cbn.
    rewrite between_in by (unfold rng; lia). cbn iota. etransitivity; [exact E|]. rewrite <- app_assoc. reflexivity.
Qed.
Lemma lead_ok b lo hi k : lead b = Some (lo, hi, k) -> lo <= hi.
Proof. unfold lead. repeat match goal with |- (if ?x then _ else _) = _ -> _ => destruct x; [intro H; injection H as <- <- <-; lia|] end. discriminate. Qed.
Lemma cut_proper s : s <> [] -> first_char s = Cut s -> proper_initial s.
Proof.
  intros Hne H. split; [exact Hne|]. destruct s as [|b s]; [contradiction|]. pose proof H as H0. cbn [first_char] in H. destruct (b <? 128) eqn:E; [discriminate|].
  destruct (lead b) as [[[lo hi] k]|] eqn:L; [|discriminate]. destruct (walk_cut _ _ _ _ _ _ H) as (_ & _ & lo' & hi' & k' & Hl & G).
  destruct (walk_complete k' lo' hi' ([b] ++ s)) as (q & Hq & Ew); [apply Hl; eapply lead_ok; exact L|]. exists q. split; [exact Hq|].
  apply (first_wf ((b :: s) ++ q) _ []). cbn [app first_char]. rewrite E, L, G. exact Ew.
Qed.
Lemma proper_cut p : proper_initial p -> first_char p = Cut p.
Proof.
  intros (Hne & q & Hq & Hw). pose proof (wf_first _ Hw []) as F. rewrite app_nil_r in F. destruct (first_char p) as [c r|c r|c] eqn:E.
  - apply first_done in E as (_ & _ & G). rewrite G in F. injection F as _ F. apply app_eq_nil in F as [_ F]. contradiction.
  - apply first_broken in E as (_ & _ & _ & G). rewrite G in F. discriminate.
  - apply first_cut in E as [-> _]. reflexivity.
Qed.
Lemma initial_cases p : p <> [] -> initial p -> wf p \/ proper_initial p.
Proof. intros Hne (q & H). destruct q as [|x q]; [rewrite app_nil_r in H; now left|]. right. split; [exact Hne|]. exists (x :: q). split; [discriminate|exact H]. Qed.

(** ** One step of the decoding *)
Lemma lossy_done s c r o : first_char s = Done c r -> lossy r o -> lossy s (c ++ o).
Proof. intros H L. pose proof (first_wf _ _ _ H) as Hw. apply first_done in H as (-> & _). now apply lossy_char. Qed.
Lemma no_wf s : (forall c r, first_char s <> Done c r) -> forall c r, s = c ++ r -> ~ wf c.
Proof. intros H c r -> Hw. eapply H. apply wf_first. exact Hw. Qed.
Lemma lossy_broken s p r o : first_char s = Broken p r -> lossy r o -> lossy s (REPL ++ o).
Proof.
  intros H L. pose proof H as H0. apply first_broken in H as (-> & Hne & Hc & G). apply lossy_bad; [|  |exact L].
  - apply no_wf. rewrite H0. discriminate.
  - split; [exact Hne|]. split; [now exists r|]. split.
    + destruct Hc as [[Hc _]|(b & -> & _)]; [|now right]. left. apply cut_proper in Hc; [|exact Hne]. destruct Hc as (_ & q & _ & Hq). now exists q.
    + intros p' (r' & E) I. destruct p' as [|x p']; [cbn; lia|]. set (q := x :: p') in *.
      destruct (initial_cases q) as [Hw|Hp]; [discriminate|exact I| |].
      * pose proof (wf_first _ Hw r') as F. rewrite <- E in F. congruence.
      * apply proper_cut in Hp. pose proof (first_after_cut q r' ltac:(discriminate) Hp) as F. rewrite <- E, H0 in F. destruct F as (m & -> & _). rewrite app_length. lia.
Qed.
Lemma lossy_cut s : s <> [] -> first_char s = Cut s -> lossy s REPL.
Proof.
  intros Hne H. rewrite <- (app_nil_r s). change REPL with (REPL ++ []). apply lossy_bad; [|  |constructor]; rewrite app_nil_r.
  - apply no_wf. rewrite H. discriminate.
  - split; [exact Hne|]. split; [exists []; now rewrite app_nil_r|]. split.
    + left. apply cut_proper in H; [|exact Hne]. destruct H as (_ & q & _ & Hq). now exists q.
    + intros p' (r & ->) _. rewrite app_length. lia.
Qed.
(** The decoding is a function. *)
Lemma maximal_unique s p p' : maximal_subpart p s -> maximal_subpart p' s -> p = p'.
Proof.
  intros (Hn & (r & ->) & Hc & M) (Hn' & (r' & E) & Hc' & M').
  assert (L : List.length p = List.length p').
  { assert (P1 : forall q : bytes, q <> [] -> (1 <= List.length q)%nat) by (intros [|? ?] H; [contradiction|cbn; lia]).
    pose proof (P1 _ Hn). pose proof (P1 _ Hn'). assert (A : (List.length p' <= List.length p)%nat).
    { destruct Hc' as [I|I]; [|lia]. apply M; [now exists r'|exact I]. }
    assert (B : (List.length p <= List.length p')%nat) by (destruct Hc as [I|I]; [apply M'; [now exists r|exact I]|lia]). lia. }
  clear - L E. revert p' L E. induction p as [|x p IH]; intros [|y p'] L E; try discriminate; [reflexivity|]. cbn in *. injection E as -> E. f_equal. apply IH; [lia|exact E].
Qed.
Theorem lossy_unique s o1 o2 : lossy s o1 -> lossy s o2 -> o1 = o2.
Proof.
  intro H. revert o2. induction H as [|c s o Hw H IH|p r o Hno M H IH]; intros o2 H2.
  - inversion H2 as [|c s o Hw Hl E|p r o _ M _ E]; subst; [reflexivity| |].
    + apply app_eq_nil in E as [-> _]. inversion Hw.
    + apply app_eq_nil in E as [-> _]. destruct M as [M _]. contradiction.
  - inversion H2 as [E|c2 s2 o2' Hw2 Hl E|p r o2' Hno _ _ E]; subst.
    + symmetry in E. apply app_eq_nil in E as [-> _]. inversion Hw.
    + pose proof (wf_first _ Hw s) as F1. pose proof (wf_first _ Hw2 s2) as F2. rewrite E in F2. rewrite F1 in F2. injection F2 as <- <-. f_equal. now apply IH.
    + exfalso. eapply Hno; [exact E|exact Hw].
  - inversion H2 as [E|c2 s2 o2' Hw2 Hl E|p2 r2 o2' Hno2 M2 Hl E]; subst.
    + symmetry in E. apply app_eq_nil in E as [-> _]. destruct M as [M _]. contradiction.
    + exfalso. eapply Hno; [symmetry; exact E|exact Hw2].
    + rewrite E in M2. pose proof (maximal_unique _ _ _ M M2). subst p2. apply app_inv_head in E as ->. f_equal. now apply IH.
Qed.

Lemma lossy_total s : exists o, lossy s o.
Proof.
  remember (List.length s) as n eqn:Hn. revert s Hn. induction n as [n IH] using lt_wf_ind. intros s ->.
  destruct s as [|b s]; [exists []; constructor|]. destruct (first_char (b :: s)) as [c r|p r|p] eqn:E.
  - destruct (IH (List.length r)) with (s := r) as [o Ho]; [|reflexivity|exists (c ++ o); eapply lossy_done; eassumption].
    apply first_done in E as (E & Hc & _). rewrite E, app_length. destruct c; [contradiction|]. cbn. lia.
  - destruct (IH (List.length r)) with (s := r) as [o Ho]; [|reflexivity|exists (REPL ++ o); eapply lossy_broken; eassumption].
    apply first_broken in E as (E & Hc & _). rewrite E, app_length. destruct p; [contradiction|]. cbn. lia.
  - exists REPL. pose proof (first_cut _ _ E) as [-> _]. apply lossy_cut; [discriminate|exact E].
Qed.
Lemma wf_tail c : wf c -> forall x, In x (tl c) -> 0x80 <= x.
Proof. intros H x Hx. destruct H; cbn in Hx; unfold rng in *; repeat (destruct Hx as [<-|Hx]; [lia|]); destruct Hx. Qed.

(** ** Chunks *)
Definition good (inc : bytes) : Prop := inc = [] \/ first_char inc = Cut inc.
Lemma next_chunk_nil n : next_chunk n [] = ([], [], []).
Proof. destruct n; reflexivity. Qed.
Lemma next_chunk_spec n : forall s, (List.length s < n)%nat -> s <> [] -> exists v i r,
  next_chunk n s = (v, i, r) /\ s = v ++ i ++ r /\ (forall t o, lossy t o -> lossy (v ++ t) (v ++ o)) /\
  ((i = [] /\ r = [] /\ v <> []) \/ (i <> [] /\ first_char (i ++ r) = Broken i r) \/ (i <> [] /\ r = [] /\ first_char i = Cut i)).
Proof.
  induction n as [|n IH]; intros s Hn Hne; [lia|]. cbn [next_chunk]. destruct s as [|b s]; [contradiction|].
  destruct (first_char (b :: s)) as [c r|p r|p] eqn:E.
  - pose proof (first_wf _ _ _ E) as Hw. apply first_done in E as (E & Hc & _).
    assert (Lr : (List.length r < n)%nat) by (rewrite E, app_length in Hn; destruct c; [contradiction|]; cbn in Hn; lia).
    destruct r as [|x r].
    + rewrite next_chunk_nil. exists (c ++ []), [], []. split; [reflexivity|]. rewrite (app_nil_r c). split; [rewrite E; reflexivity|].
      split; [intros t o H; now apply lossy_char|]. left. auto.
    + destruct (IH (x :: r)) as (v & i & r' & E1 & E2 & Hv & C); [exact Lr|discriminate|]. rewrite E1. exists (c ++ v), i, r'.
      split; [reflexivity|]. split; [rewrite E, E2; now rewrite <- app_assoc|]. split.
      * intros t o H. rewrite <- !app_assoc. apply lossy_char; [exact Hw|]. now apply Hv.
      * destruct C as [(-> & -> & Hnv)|C]; [|now right]. left. split; [reflexivity|]. split; [reflexivity|]. destruct c; [contradiction|discriminate].
  - exists [], p, r. pose proof (first_broken _ _ _ E) as (E1 & Hp & _). split; [reflexivity|]. split; [exact E1|]. split; [intros t o H; exact H|].
    right. left. split; [exact Hp|]. rewrite <- E1. exact E.
  - pose proof (first_cut _ _ E) as [-> _]. exists [], (b :: s), []. split; [reflexivity|]. split; [cbn; now rewrite app_nil_r|]. split; [intros t o H; exact H|].
    right. right. split; [discriminate|]. auto.
Qed.
Lemma chunks_n_enough n1 : forall n2 s, (List.length s < n1)%nat -> (List.length s < n2)%nat -> chunks_n n1 s = chunks_n n2 s.
Proof.
  induction n1 as [|n1 IH]; intros n2 s L1 L2; [lia|]. destruct n2 as [|n2]; [lia|]. cbn [chunks_n]. destruct s as [|b s]; [reflexivity|].
  destruct (next_chunk_spec (S (List.length (b :: s))) (b :: s)) as (v & i & r & E & E2 & _ & C); [lia|discriminate|]. rewrite E. f_equal. 
  assert (Lr : (List.length r < List.length (b :: s))%nat).
  { rewrite E2, !app_length. destruct C as [(-> & -> & Hv)|[(Hi & _)|(Hi & -> & _)]].
    - destruct v; [contradiction|]. cbn. lia.
    - destruct i; [contradiction|]. cbn. lia.
    - destruct i; [contradiction|]. cbn. lia. }
  apply IH; lia.
Qed.
Lemma chunks_cons s : s <> [] -> exists v i r, utf8_chunks s = (v, i) :: utf8_chunks r /\ s = v ++ i ++ r /\
  (forall t o, lossy t o -> lossy (v ++ t) (v ++ o)) /\ (List.length r < List.length s)%nat /\
  ((i = [] /\ r = [] /\ v <> []) \/ (i <> [] /\ first_char (i ++ r) = Broken i r) \/ (i <> [] /\ r = [] /\ first_char i = Cut i)).
Proof.
  intro Hne. destruct (next_chunk_spec (S (List.length s)) s) as (v & i & r & E & E2 & Hv & C); [lia|exact Hne|]. exists v, i, r.
  assert (Lr : (List.length r < List.length s)%nat).
  { rewrite E2, !app_length. destruct C as [(-> & -> & Hv')|[(Hi & _)|(Hi & -> & _)]].
    - destruct v; [contradiction|]. cbn. lia.
    - destruct i; [contradiction|]. cbn. lia.
    - destruct i; [contradiction|]. cbn. lia. }
  split; [|auto]. unfold utf8_chunks at 1. cbn [chunks_n]. destruct s as [|b s]; [contradiction|]. rewrite E. f_equal. apply chunks_n_enough; lia.
Qed.
Lemma chunks_nil s : utf8_chunks s = [] <-> s = [].
Proof.
  split; [|intros ->; reflexivity]. destruct s as [|b s]; [reflexivity|]. intro H. destruct (chunks_cons (b :: s)) as (v & i & r & E & _); [discriminate|]. congruence.
Qed.
Lemma from_utf8_cut s : s <> [] -> first_char s = Cut s -> from_utf8 s = Some false.
Proof. intros Hne H. unfold from_utf8. cbn [from_utf8_n]. destruct s; [contradiction|]. now rewrite H. Qed.
Lemma from_utf8_broken s p r : s <> [] -> first_char s = Broken p r -> from_utf8 s = Some true.
Proof. intros Hne H. unfold from_utf8. cbn [from_utf8_n]. destruct s; [contradiction|]. now rewrite H. Qed.
Lemma chunks_single_done s : s <> [] -> first_char s = Done s [] -> utf8_chunks s = [(s, [])].
Proof.
  intros Hne H. unfold utf8_chunks. cbn [chunks_n]. destruct s as [|b s]; [contradiction|].
  change (next_chunk (S (List.length (b :: s))) (b :: s)) with
    (match first_char (b :: s) with Done c r => let '(v, i, r') := next_chunk (List.length (b :: s)) r in (c ++ v, i, r') | Broken p r => ([], p, r) | Cut p => ([], p, []) end).
  rewrite H, next_chunk_nil, app_nil_r. reflexivity.
Qed.
Lemma chunks_single_stop s p r : s <> [] -> (first_char s = Broken p r \/ first_char s = Cut p /\ r = []) -> utf8_chunks s = ([], p) :: utf8_chunks r.
Proof.
  intros Hne H. unfold utf8_chunks at 1. cbn [chunks_n]. destruct s as [|b s]; [contradiction|].
  change (next_chunk (S (List.length (b :: s))) (b :: s)) with
    (match first_char (b :: s) with Done c r => let '(v, i, r') := next_chunk (List.length (b :: s)) r in (c ++ v, i, r') | Broken p r => ([], p, r) | Cut p => ([], p, []) end).
  assert (Lr : (List.length r < List.length (b :: s))%nat).
  { destruct H as [H|[_ ->]]; [|cbn; lia]. apply first_broken in H as (E & Hp & _). rewrite E, app_length. destruct p; [contradiction|]. cbn. lia. }
  destruct H as [H|[H ->]]; rewrite H; f_equal; apply chunks_n_enough; cbn in *; lia.
Qed.

(** ** The buffer *)
Definition texts (p : push_state) : list bytes :=
  match p with
  | PIncomplete => [] | PValid c => [c] | PInvalid => [REPL] | PInvalidThenValid c => [REPL; c] | PInvalidThenInvalid => [REPL; REPL]
  end.
Lemma good_len inc : good inc -> (List.length inc <= 3)%nat.
Proof. intros [->|H]; [cbn; lia|]. now apply first_cut in H as [_ H]. Qed.
Lemma copy_good inc : good inc -> copy_from_slice inc = Some inc.
Proof. intro H. unfold copy_from_slice. apply good_len in H. apply Nat.leb_le in H. now rewrite H. Qed.
Lemma push_spec inc b : good inc -> exists p inc', push inc b = Some (p, inc') /\ good inc' /\
  forall ys o, lossy (inc' ++ ys) o -> lossy (inc ++ b :: ys) (List.concat (texts p) ++ o).
Proof.
  intro G. unfold push. set (s := inc ++ [b]). assert (Hs : s <> []) by (unfold s; destruct inc; discriminate).
  assert (Ey : forall ys, inc ++ b :: ys = s ++ ys) by (intro; unfold s; now rewrite <- app_assoc).
  destruct (first_char s) as [c r|p r|p] eqn:E.
  - (* a whole character *)
    pose proof (first_wf _ _ _ E) as Hw. pose proof (first_done _ _ _ E) as (Es & Hc & St).
    assert (r = []).
    { destruct G as [->|G].
      - cbn in s. subst s. destruct c as [|x c]; [contradiction|]. injection Es as _ Es. symmetry in Es. now apply app_eq_nil in Es.
      - destruct inc as [|x inc]; [cbn in s; subst s; destruct c as [|x c]; [contradiction|]; injection Es as _ Es; symmetry in Es; now apply app_eq_nil in Es|].
        pose proof (first_after_cut (x :: inc) [b] ltac:(discriminate) G) as F. fold s in F. rewrite E in F. destruct F as (m & Hm & _ & F).
        destruct m as [|y m]; [contradiction|]. injection F as _ F. symmetry in F. now apply app_eq_nil in F. }
    subst r. rewrite app_nil_r in Es. rewrite <- Es in *. rewrite chunks_single_done by assumption. cbn [from_utf8 from_utf8_n List.length].
    unfold first_of. destruct s as [|x s0] eqn:E0; [contradiction|]. rewrite E. exists (PValid (x :: s0)), []. split; [reflexivity|]. split; [now left|].
    intros ys o L. rewrite Ey. cbn [texts List.concat]. rewrite app_nil_r. apply lossy_char; [exact Hw|exact L].
  - (* a broken one *)
    pose proof (first_broken _ _ _ E) as (Es & Hp & C & St). destruct C as [(C & Hr)|(b0 & -> & C)].
    + assert (p = inc /\ r = [b] /\ inc <> []) as (-> & -> & Hi).
      { destruct inc as [|x inc].
        - exfalso. unfold s in Es. cbn in Es. destruct p as [|y p]; [contradiction|]. injection Es as _ Es. symmetry in Es. apply app_eq_nil in Es as [_ Es]. contradiction.
        - destruct G as [G|G]; [discriminate|]. pose proof (first_after_cut (x :: inc) [b] ltac:(discriminate) G) as F. fold s in F. rewrite E in F. destruct F as (m & -> & F).
          destruct m as [|y m]; [rewrite app_nil_r; cbn in F; subst r; repeat split; discriminate|]. injection F as _ F. symmetry in F. apply app_eq_nil in F as [_ F]. contradiction. }
      rewrite (chunks_single_stop s inc [b]) by auto. rewrite from_utf8_cut by assumption.
      destruct (first_char [b]) as [c r|p r|p] eqn:Eb.
      * pose proof (first_wf _ _ _ Eb) as Hwb. pose proof (first_done _ _ _ Eb) as (E1 & Hc & _). destruct c as [|y c]; [contradiction|]. injection E1 as <- E1. symmetry in E1. apply app_eq_nil in E1 as [-> ->].
        rewrite chunks_single_done by (discriminate || exact Eb). cbn [from_utf8 from_utf8_n List.length first_of]. rewrite Eb. eexists _, []. split; [reflexivity|]. split; [now left|].
        intros ys o L. cbn [texts List.concat app]. rewrite Ey. change (b :: o) with ([b] ++ o). rewrite <- (app_nil_r [b]), <- app_assoc. change (REPL ++ [b] ++ [] ++ o) with (REPL ++ ([b] ++ o)).
        eapply lossy_broken; [apply St|]. cbn [app]. change (b :: ys) with ([b] ++ ys). change (b :: o) with ([b] ++ o). apply lossy_char; [exact Hwb|exact L].
      * pose proof (first_broken _ _ _ Eb) as (E1 & Hp' & _). destruct p as [|y p]; [contradiction|]. injection E1 as <- E1. symmetry in E1. apply app_eq_nil in E1 as [-> ->].
        rewrite (chunks_single_stop [b] [b] []) by (discriminate || auto). change (utf8_chunks []) with (@nil (bytes * bytes)). rewrite (from_utf8_broken [b] [b] []) by (discriminate || exact Eb).
        exists PInvalidThenInvalid, []. split; [reflexivity|]. split; [now left|]. intros ys o L. rewrite Ey. cbn [texts List.concat]. rewrite app_nil_r, <- app_assoc.
        eapply lossy_broken; [apply St|]. cbn [app]. apply (lossy_broken (b :: ys) [b] ys); [|exact L]. apply first_broken in Eb as (_ & _ & _ & Eb). exact (Eb ys).
      * pose proof (first_cut _ _ Eb) as [-> _]. rewrite (chunks_single_stop [b] [b] []) by (discriminate || auto). change (utf8_chunks []) with (@nil (bytes * bytes)). rewrite from_utf8_cut by (discriminate || exact Eb).
        rewrite copy_good by (right; exact Eb). exists PInvalid, [b]. split; [reflexivity|]. split; [right; exact Eb|]. intros ys o L. rewrite Ey. cbn [texts List.concat]. rewrite app_nil_r.
        eapply lossy_broken; [apply St|exact L].
    + assert (inc = [] /\ b0 = b /\ r = []) as (-> & -> & ->).
      { destruct inc as [|x inc]; [unfold s in Es; cbn in Es; injection Es as -> ->; auto|]. exfalso. destruct G as [G|G]; [discriminate|].
        pose proof (first_after_cut (x :: inc) [b] ltac:(discriminate) G) as F. fold s in F. rewrite E in F. destruct F as (m & F & _). injection F as -> F. symmetry in F. apply app_eq_nil in F as [-> ->]. congruence. }
      cbn in s. subst s. rewrite (chunks_single_stop [b] [b] []) by auto. change (utf8_chunks []) with (@nil (bytes * bytes)). rewrite (from_utf8_broken [b] [b] []) by assumption.
      exists PInvalid, []. split; [reflexivity|]. split; [now left|]. intros ys o L. rewrite Ey. cbn [texts List.concat]. rewrite app_nil_r. eapply lossy_broken; [apply St|exact L].
  - pose proof (first_cut _ _ E) as [-> _]. rewrite (chunks_single_stop s s []) by auto. change (utf8_chunks []) with (@nil (bytes * bytes)). rewrite from_utf8_cut by assumption.
    rewrite copy_good by (right; exact E). exists PIncomplete, s. split; [reflexivity|]. split; [right; exact E|]. intros ys o L. rewrite Ey. exact L.
Qed.
