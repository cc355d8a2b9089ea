(** Generated names; the table. *)
From Coq Require Import List NArith ZArith Ascii String Bool Lia FinFun.
From Verif.Lifetimes Require Import Model.
From Verif.FnLifetimes Require Import Model.
From Verif.LifetimeDecl Require Import Model Spec.
Import ListNotations.
Local Open Scope N_scope.
Local Open Scope list_scope.

Lemma text_eqb_spec a b : reflect (a = b) (text_eqb a b).
Proof. unfold text_eqb. destruct (list_eq_dec ascii_dec a b); constructor; assumption. Qed.
Lemma text_eqb_refl a : text_eqb a a = true.
Proof. destruct (text_eqb_spec a a); congruence. Qed.

(** ** The sequence a, b, ..., z, aa, ... *)
Fixpoint rep (k : nat) : N := match k with O => 0 | S k' => 26 * rep k' + 1 end.
Lemma letter_N i : i < 26 -> N_of_ascii (letter i) = 97 + i.
Proof. intro H. unfold letter. apply N_ascii_embedding. lia. Qed.
Lemma pow_S k : 26 ^ N.of_nat (S k) = 26 * 26 ^ N.of_nat k.
Proof. rewrite Nat2N.inj_succ, N.pow_succ_r'. reflexivity. Qed.

Lemma place_letters : forall k i acc a, i < 26 ^ N.of_nat k ->
  fold_left (fun a c => 26 * a + (N_of_ascii c - 96)) (letters k i acc) a =
  fold_left (fun a c => 26 * a + (N_of_ascii c - 96)) acc (26 ^ N.of_nat k * a + i + rep k).
Proof.
  induction k as [|k IH]; intros i acc a H.
  - cbn [letters rep]. change (26 ^ N.of_nat 0) with 1 in *. f_equal. lia.
  - cbn [letters]. rewrite pow_S in H. rewrite IH.
    + cbn [fold_left]. f_equal. rewrite letter_N by (apply N.mod_lt; lia). rewrite pow_S. cbn [rep].
      pose proof (N.div_mod i 26 ltac:(lia)) as D. clear H IH. revert D. generalize (i mod 26). generalize (i / 26). intros d m ->.
      replace (97 + m - 96) with (m + 1) by lia. ring.
    + apply N.div_lt_upper_bound; [lia|exact H].
Qed.
Lemma letters_lower : forall k i acc, Forall is_lower acc -> Forall is_lower (letters k i acc).
Proof.
  induction k as [|k IH]; intros i acc F; [exact F|]. cbn [letters]. apply IH. constructor; [|exact F].
  unfold is_lower. rewrite letter_N by (apply N.mod_lt; lia). pose proof (N.mod_lt i 26 ltac:(lia)) as M. revert M. generalize (i mod 26). intros m M. lia.
Qed.
Lemma letters_length : forall k i acc, List.length (letters k i acc) = (k + List.length acc)%nat.
Proof. induction k as [|k IH]; intros i acc; [reflexivity|]. cbn [letters]. rewrite IH. cbn [List.length]. lia. Qed.

Lemma shift_spec : forall fuel index k, index < 26 ^ N.of_nat k * 2 ^ N.of_nat fuel ->
  forall i k', shift fuel index k (26 ^ N.of_nat k) = (i, k') -> i < 26 ^ N.of_nat k' /\ i + rep k' = index + rep k /\ (k <= k')%nat.
Proof.
  induction fuel as [|fuel IH]; intros index k H i k' E; cbn [shift] in E.
  - injection E as <- <-. change (2 ^ N.of_nat 0) with 1 in H. split; [lia|]. split; [reflexivity|lia].
  - destruct (N.leb_spec (26 ^ N.of_nat k) index) as [L|L].
    + rewrite (N.mul_comm (26 ^ N.of_nat k) 26), <- pow_S in E. apply IH in E.
      * destruct E as (A & B & C). split; [exact A|]. split; [|lia]. rewrite B. cbn [rep].
        assert (R : forall k, 25 * rep k + 1 = 26 ^ N.of_nat k) by (clear; induction k as [|k IH]; [reflexivity|rewrite pow_S, <- IH; cbn [rep]; lia]).
        specialize (R k). lia.
      * rewrite pow_S. rewrite Nat2N.inj_succ, N.pow_succ_r' in H.
        assert (P : 0 < 2 ^ N.of_nat fuel) by (apply N.neq_0_lt_0, N.pow_nonzero; lia).
        generalize dependent (26 ^ N.of_nat k). generalize dependent (2 ^ N.of_nat fuel). intros. nia.
    + injection E as <- <-. split; [exact L|]. split; [reflexivity|lia].
Qed.

Lemma name_place i : place (name_from_index i) = i + 1 /\ word (name_from_index i).
Proof.
  unfold name_from_index. destruct (shift (S (N.to_nat (N.log2 i))) i 1 26) as [j k] eqn:E.
  change 26 with (26 ^ N.of_nat 1) in E. apply shift_spec in E.
  - destruct E as (A & B & C). change (rep 1) with 1 in B. split.
    + unfold place. rewrite place_letters by exact A. cbn [fold_left]. lia.
    + split; [|apply letters_lower; constructor]. intro K. pose proof (letters_length k j []) as L. rewrite K in L. cbn in L. lia.
  - change (26 ^ N.of_nat 1) with 26. rewrite Nat2N.inj_succ, N2Nat.id. destruct (N.eq_dec i 0) as [->|Z]; [reflexivity|].
    pose proof (N.log2_spec i ltac:(lia)) as (_ & U). lia.
Qed.
Lemma name_inj i j : name_from_index i = name_from_index j -> i = j.
Proof. intro E. pose proof (proj1 (name_place i)) as A. pose proof (proj1 (name_place j)) as B. rewrite E in A. lia. Qed.

Lemma place_snoc w c : place (w ++ [c]) = 26 * place w + (N_of_ascii c - 96).
Proof. unfold place. now rewrite fold_left_app. Qed.
Lemma place_pos w : word w -> 0 < place w.
Proof.
  intros (N & F). destruct (exists_last N) as (w' & c & ->). rewrite place_snoc. apply Forall_app in F. destruct F as (_ & F).
  inversion F as [|? ? L _]; subst. unfold is_lower in L. lia.
Qed.
Lemma place_inj : forall w w', Forall is_lower w -> Forall is_lower w' -> place w = place w' -> w = w'.
Proof.
  intro w. induction w as [|c w IH] using rev_ind; intros w' F F' E.
  - destruct w' as [|c' w'] using rev_ind; [reflexivity|]. exfalso. pose proof (place_pos (w' ++ [c'])) as P.
    assert (0 < place (w' ++ [c'])) by (apply P; split; [now destruct w'|exact F']). change (place []) with 0 in E. lia.
  - destruct w' as [|c' w' _] using rev_ind.
    + exfalso. pose proof (place_pos (w ++ [c])) as P. assert (0 < place (w ++ [c])) by (apply P; split; [now destruct w|exact F]).
      change (place []) with 0 in E. lia.
    + apply Forall_app in F, F'. destruct F as (F & L), F' as (F' & L'). inversion L as [|? ? L1 _]; subst. inversion L' as [|? ? L2 _]; subst.
      rewrite !place_snoc in E. unfold is_lower in *. assert (Ew : place w = place w') by lia.
      assert (Ec : N_of_ascii c = N_of_ascii c') by lia.
      rewrite (IH w' F F' Ew). f_equal. f_equal. rewrite <- (ascii_N_embedding c), <- (ascii_N_embedding c'). now f_equal.
Qed.
Lemma name_of_place w : word w -> name_from_index (place w - 1) = w.
Proof.
  intro W. pose proof (place_pos w W) as P. destruct (name_place (place w - 1)) as (E & (_ & F)).
  apply place_inj; [exact F|apply W|]. lia.
Qed.

(** ** Finding a free name *)
Lemma find_name_in n m l : find_name n m = Some l -> In (n, l) m.
Proof.
  induction m as [|[k v] m IH]; cbn; [discriminate|]. destruct (text_eqb_spec n k) as [->|_]; [intro E; injection E as ->; now left|auto].
Qed.
Lemma find_name_none n m : find_name n m = None <-> ~ In n (map fst m).
Proof.
  induction m as [|[k v] m IH]; cbn; [tauto|]. destruct (text_eqb_spec n k) as [->|D].
  - split; [discriminate|intro H; exfalso; auto].
  - rewrite IH. split; [intros H [K|K]; [congruence|contradiction]|auto].
Qed.
Lemma find_lifetime_none l m : find_lifetime l m = None <-> ~ In l (map fst m).
Proof.
  induction m as [|[k v] m IH]; cbn; [tauto|]. destruct (Z.eqb_spec l k) as [->|D].
  - split; [discriminate|intro H; exfalso; auto].
  - rewrite IH. split; [intros H [K|K]; [congruence|contradiction]|auto].
Qed.

Lemma free_index_spec m : forall fuel i, exists k,
  free_index fuel i m = i + N.of_nat k /\ (k <= fuel)%nat /\
  (forall j, (j < k)%nat -> In (name_from_index (i + N.of_nat j)) (map fst m)) /\
  ((k < fuel)%nat -> ~ In (name_from_index (i + N.of_nat k)) (map fst m)).
Proof.
  induction fuel as [|fuel IH]; intro i; cbn [free_index].
  - exists 0%nat. split; [lia|]. split; [lia|]. split; [lia|lia].
  - destruct (find_name (name_from_index i) m) as [l|] eqn:E.
    + destruct (IH (i + 1)) as (k & A & B & C & D). exists (S k). split; [lia|]. split; [lia|]. split.
      * intros [|j] H; [rewrite N.add_0_r; apply find_name_in in E; change (name_from_index i) with (fst (name_from_index i, l)); now apply in_map|].
        replace (i + N.of_nat (S j)) with (i + 1 + N.of_nat j) by lia. apply C. lia.
      * intro H. replace (i + N.of_nat (S k)) with (i + 1 + N.of_nat k) by lia. apply D. lia.
    + exists 0%nat. split; [lia|]. split; [lia|]. split; [lia|]. intros _. rewrite N.add_0_r. now apply find_name_none.
Qed.
Lemma free_is_free i m : exists k, free_index (List.length m) i m = i + N.of_nat k /\
  (forall j, (j < k)%nat -> In (name_from_index (i + N.of_nat j)) (map fst m)) /\
  ~ In (name_from_index (i + N.of_nat k)) (map fst m).
Proof.
  destruct (free_index_spec m (List.length m) i) as (k & A & B & C & D). exists k. split; [exact A|]. split; [exact C|].
  destruct (Nat.eq_dec k (List.length m)) as [E|N]; [|apply D; lia]. intro I.
  set (ns := map (fun j => name_from_index (i + N.of_nat j)) (seq 0 (S k))).
  assert (ND : NoDup ns).
  { apply FinFun.Injective_map_NoDup; [|apply seq_NoDup]. intros a b H. apply name_inj in H. lia. }
  assert (Sub : incl ns (map fst m)).
  { intros n J. apply in_map_iff in J. destruct J as (j & <- & J). apply in_seq in J. destruct (Nat.eq_dec j k) as [->|]; [exact I|apply C; lia]. }
  pose proof (NoDup_incl_length ND Sub) as L. unfold ns in L. rewrite !map_length, seq_length in L. lia.
Qed.
