(** C36, C37: the binding context and the lifetime states. *)
From Coq Require Import List Arith ZArith Bool Lia Strings.String DecimalString DecimalNat Sorting.Permutation.
From Verif.LifetimeNames Require Import Model Spec.
Import ListNotations.
Local Open Scope string_scope.

Lemma mem_in x l : mem x l = true <-> In x l.
Proof. induction l as [|y l IH]; cbn [mem In]; [split; [discriminate|tauto]|]. rewrite orb_true_iff, String.eqb_eq, IH. intuition congruence. Qed.
Lemma dec_inj a b : dec a = dec b -> a = b.
Proof.
  assert (D : forall n, option_map Nat.of_uint (NilZero.uint_of_string (dec n)) = Some n).
  { intro n. unfold dec. rewrite <- (Unsigned.of_to n) at 2. destruct (Nat.to_uint n); [reflexivity|..]; rewrite NilZero.usu by discriminate; reflexivity. }
  intro E. pose proof (D a) as Da. rewrite E, D in Da. congruence.
Qed.
Lemma append_inj a : forall b c, a ++ b = a ++ c -> b = c.
Proof. induction a as [|x a IH]; intros b c E; [exact E|]. cbn in E. injection E as E. now apply IH. Qed.
Definition cand (id : string) (ix : nat) : string := id ++ "_" ++ dec ix.
Lemma cand_inj id a b : cand id a = cand id b -> a = b.
Proof. unfold cand. intro E. apply append_inj, append_inj in E. now apply dec_inj. Qed.
Lemma search_spec ns id fuel : forall ix, exists k, k <= fuel /\ search ns id fuel ix = cand id (ix + k) /\ (forall j, j < k -> In (cand id (ix + j)) ns) /\ (k < fuel -> ~ In (cand id (ix + k)) ns).
Proof.
  induction fuel as [|fuel IH]; intro ix; cbn [search].
  - exists 0. rewrite Nat.add_0_r. split; [lia|]. split; [reflexivity|]. split; intros; lia.
  - fold (cand id ix). destruct (mem (cand id ix) ns) eqn:E.
    + destruct (IH (S ix)) as (k & Hk & Es & Hin & Hout). exists (S k). replace (ix + S k) with (S ix + k) by lia. split; [lia|]. split; [exact Es|]. split; [|intro; apply Hout; lia].
      intros [|j] Hj; [rewrite Nat.add_0_r; now apply mem_in|]. replace (ix + S j) with (S ix + j) by lia. apply Hin. lia.
    + exists 0. rewrite Nat.add_0_r. split; [lia|]. split; [reflexivity|]. split; [intros; lia|]. intros _ H. apply mem_in in H. congruence.
Qed.
(** The search ends at the first free candidate. *)
Lemma search_fresh ns id : exists k, search ns id (List.length ns) 0 = cand id k /\ ~ In (cand id k) ns /\ forall j, j < k -> In (cand id j) ns.
Proof.
  destruct (search_spec ns id (List.length ns) 0) as (k & Hk & E & Hin & Hout). exists k. split; [exact E|]. split; [|exact Hin].
  destruct (Nat.eq_dec k (List.length ns)) as [->|N]; [|apply Hout; lia]. intro H.
  assert (I : incl (map (cand id) (seq 0 (S (List.length ns)))) ns).
  { intros x Hx. apply in_map_iff in Hx as (j & <- & Hj). apply in_seq in Hj. destruct (Nat.eq_dec j (List.length ns)) as [->|]; [exact H|]. apply (Hin j). lia. }
  apply NoDup_incl_length in I; [rewrite map_length, seq_length in I; lia|]. apply FinFun.Injective_map_NoDup; [intros a b; apply cand_inj|apply seq_NoDup].
Qed.
Lemma fresh_not_in c id : ~ In (fresh_name_for c id) (names c).
Proof. unfold fresh_name_for. destruct (mem id (names c)) eqn:E; [destruct (search_fresh (names c) id) as (k & -> & N & _); exact N|]. intro H. apply mem_in in H. congruence. Qed.
Lemma fresh_same c id : ~ In id (names c) -> fresh_name_for c id = id.
Proof. intro N. unfold fresh_name_for. destruct (mem id (names c)) eqn:E; [apply mem_in in E; contradiction|reflexivity]. Qed.
Lemma push_fresh_eq c h : push_fresh_binding c h = push_new_binding c (fst (push_fresh_binding c h)) /\ fst (push_fresh_binding c h) = fresh_name_for c (match h with Some i => i | None => "lt" end).
Proof. assert (E : fst (push_fresh_binding c h) = fresh_name_for c (match h with Some i => i | None => "lt" end)) by (unfold push_fresh_binding; cbn [push_new_binding fst]; apply fresh_same, fresh_not_in). split; [|exact E]. rewrite E. reflexivity. Qed.

(** C36: a new name is the requested one, or the requested one with the least free suffix; never one seen before. *)
Theorem C36_fresh_name c id : let n := fresh_name_for c id in ~ In n (names c) /\
  (n = id \/ In id (names c) /\ exists k, n = id ++ "_" ++ dec k /\ forall j, j < k -> In (id ++ "_" ++ dec j) (names c)).
Proof.
  cbn zeta. split; [apply fresh_not_in|]. unfold fresh_name_for. destruct (mem id (names c)) eqn:E; [|now left]. right. split; [now apply mem_in|]. destruct (search_fresh (names c) id) as (k & -> & _ & H). exists k. split; [reflexivity|exact H].
Qed.
Print Assumptions C36_fresh_name.

(** * Histories *)
Record hist (c : ctx) (evs : list event) : Prop := Hist {
  h_names : forall n, In n (names c) <-> In n (generated evs);
  h_nodup : NoDup (generated evs);
  h_bind : forall id, bindings c id = match stack_from id [] evs with [] => None | s => Some (rev s) end;
  h_key : forall id, bindings c id <> None -> In id (names c) }.
Lemma generated_app a b : generated (a ++ b) = (generated a ++ generated b)%list.
Proof. induction a as [|[] a IH]; cbn; [reflexivity|now rewrite IH|exact IH]. Qed.
Lemma stack_app id a : forall s b, stack_from id s (a ++ b) = stack_from id (stack_from id s a) b.
Proof. induction a as [|[] a IH]; intros s b; cbn; [reflexivity|apply IH|apply IH]. Qed.
Lemma nodup_snoc {A} (l : list A) x : ~ In x l -> NoDup l -> NoDup (l ++ [x]).
Proof. intros N D. apply (Permutation_NoDup (l := x :: l)); [apply Permutation_cons_append|now constructor]. Qed.
Lemma hist_push c evs id : hist c evs -> hist (snd (push_new_binding c id)) (evs ++ [Bound id (fst (push_new_binding c id))]).
Proof.
  intros [N D B K]. cbn [push_new_binding fst snd]. pose proof (fresh_not_in c id) as F. constructor; cbn [names bindings].
  - intro n. rewrite generated_app, in_app_iff. cbn. rewrite N. tauto.
  - rewrite generated_app. cbn. apply nodup_snoc; [rewrite <- N; exact F|exact D].
  - intro k. rewrite stack_app. cbn [stack_from]. unfold upd. rewrite (String.eqb_sym id k). destruct (String.eqb_spec k id) as [->|Nk].
    + cbn [rev]. rewrite B. destruct (stack_from id [] evs) as [|x s]; reflexivity.
    + apply B.
  - intros k Hb. unfold upd in Hb. destruct (String.eqb k id) eqn:Ek; [|right; now apply K]. apply String.eqb_eq in Ek. subst k.
    unfold fresh_name_for. destruct (mem id (names c)) eqn:E; [right; now apply mem_in|now left].
Qed.
Lemma last_of_snoc l x : last_of (l ++ [x]) = Some x.
Proof. induction l as [|y l IH]; [reflexivity|]. cbn. destruct (l ++ [x])%list eqn:E; [destruct l; discriminate|]. rewrite <- E in *. exact IH. Qed.
Lemma last_of_rev x s : last_of (rev (x :: s)) = Some x.
Proof. cbn [rev]. apply last_of_snoc. Qed.
Lemma hist_get c evs id : hist c evs ->
  match stack_from id [] evs with
  | n :: _ => get_or_push_new_binding c id = Some (n, false, c)
  | [] => get_or_push_new_binding c id = Some (fst (push_new_binding c id), true, snd (push_new_binding c id))
  end.
Proof.
  intro H. unfold get_or_push_new_binding. rewrite (h_bind _ _ H). destruct (stack_from id [] evs) as [|n s] eqn:E; [reflexivity|]. now rewrite last_of_rev.
Qed.
Lemma hist_pop c evs id : hist c evs ->
  match stack_from id [] evs with
  | [] => pop_binding c id = None
  | _ => exists c', pop_binding c id = Some c' /\ hist c' (evs ++ [Popped id])
  end.
Proof.
  intros H. pose proof H as [N D B K]. unfold pop_binding. rewrite B. destruct (stack_from id [] evs) as [|n s] eqn:E; [reflexivity|]. eexists. split; [reflexivity|].
  cbn [rev]. rewrite removelast_last. constructor; cbn [names bindings].
  - intro m. rewrite generated_app, in_app_iff. cbn. rewrite N. tauto.
  - rewrite generated_app. cbn. now rewrite app_nil_r.
  - intro k. rewrite stack_app. cbn [stack_from]. unfold upd. rewrite (String.eqb_sym id k). destruct (String.eqb_spec k id) as [->|Nk].
    + rewrite E. cbn [tl]. destruct s as [|y s]; [reflexivity|]. cbn [rev]. destruct (rev s ++ [y])%list eqn:E2; [destruct (rev s); discriminate|reflexivity].
    + apply B.
  - intros k Hk. unfold upd in Hk. destruct (String.eqb k id) eqn:Ek; [apply String.eqb_eq in Ek; subst k|]; apply K; [rewrite B, E; discriminate|exact Hk].
Qed.
Lemma hist_step c evs o : hist c evs ->
  match step c o with
  | Some (r, ev, c') => hist c' (evs ++ ev)
  | None => exists id, o = Pop id /\ stack_from id [] evs = []
  end.
Proof.
  intro H. destruct o as [id|h|id|id]; cbn [step].
  - destruct (push_new_binding c id) as [n c'] eqn:E. pose proof (hist_push c evs id H) as P. now rewrite E in P.
  - destruct (push_fresh_eq c h) as [E _]. destruct (push_fresh_binding c h) as [n c'] eqn:E'. cbn [fst] in E. pose proof (hist_push c evs n H) as P. rewrite <- E in P. exact P.
  - pose proof (hist_get c evs id H) as G. destruct (stack_from id [] evs) as [|n s]; rewrite G; [apply hist_push; exact H|]. now rewrite app_nil_r.
  - pose proof (hist_pop c evs id H) as P. destruct (stack_from id [] evs) as [|n s] eqn:E; [rewrite P; exists id; auto|]. destruct P as (c' & -> & P). exact P.
Qed.
Lemma hist_new : hist new_ctx builtin.
Proof.
  assert (H0 : hist (Ctx (fun _ => None) []) []) by (constructor; [intro; cbn; tauto|constructor|reflexivity|intros id H; now destruct H]).
  pose proof (hist_push _ _ "static" H0) as H1. pose proof (hist_push _ _ "unknown" H1) as H2. exact H2.
Qed.
Lemma hist_run ops : forall c evs evs' c', hist c evs -> run c ops = Some (evs', c') -> hist c' (evs ++ evs').
Proof.
  induction ops as [|o ops IH]; intros c evs evs' c' H R; cbn [run] in R; [injection R as <- <-; now rewrite app_nil_r|].
  pose proof (hist_step c evs o H) as S. destruct (step c o) as [[[r ev] c1]|]; [|discriminate]. destruct (run c1 ops) as [[evs1 c2]|] eqn:E; [|discriminate]. injection R as <- <-. rewrite app_assoc. eapply IH; [exact S|exact E].
Qed.

(** C36: no history hands out a name twice, or one of the built-in lifetimes. *)
Theorem C36_names_never_reused ops evs c : run new_ctx ops = Some (evs, c) -> NoDup ("static" :: "unknown" :: generated evs).
Proof. intro R. apply (h_nodup _ _ (hist_run ops _ _ _ _ hist_new R)). Qed.
Print Assumptions C36_names_never_reused.
(** After any history, looking up an id gives the innermost binding not yet popped, and otherwise binds a new name. *)
Theorem C36_lookup ops evs c id : run new_ctx ops = Some (evs, c) ->
  match stack_from id [] (builtin ++ evs) with
  | n :: _ => step c (Get id) = Some (Some n, [], c)
  | [] => exists n c', step c (Get id) = Some (Some n, [Bound id n], c') /\ ~ In n (generated (builtin ++ evs))
  end.
Proof.
  intro R. pose proof (hist_run ops _ _ _ _ hist_new R) as H. pose proof (hist_get _ _ id H) as G. cbn [step]. destruct (stack_from id [] (builtin ++ evs)) as [|n s]; rewrite G; [|reflexivity].
  do 2 eexists. split; [reflexivity|]. rewrite <- (h_names _ _ H). cbn [push_new_binding fst]. apply fresh_not_in.
Qed.
Print Assumptions C36_lookup.
(** The only operation that panics is popping an id that is not bound. *)
Theorem C36_panics_exactly ops evs c o : run new_ctx ops = Some (evs, c) ->
  (step c o = None <-> exists id, o = Pop id /\ stack_from id [] (builtin ++ evs) = []).
Proof.
  intro R. pose proof (hist_run ops _ _ _ _ hist_new R) as H. split.
  - intro E. pose proof (hist_step c _ o H) as S. now rewrite E in S.
  - intros (id & -> & E). pose proof (hist_pop _ _ id H) as P. rewrite E in P. cbn [step]. now rewrite P.
Qed.
Print Assumptions C36_panics_exactly.
(** Popping undoes the matching push for every id, and leaves other ids alone. *)
Theorem C36_pop_restores ops evs c id n c1 : run new_ctx ops = Some (evs, c) -> step c (Push id) = Some (Some n, [Bound id n], c1) ->
  exists c2, step c1 (Pop id) = Some (None, [Popped id], c2) /\ forall k, bindings c2 k = bindings c k.
Proof.
  intros R S. pose proof (hist_run ops _ _ _ _ hist_new R) as H. cbn [step] in S. destruct (push_new_binding c id) as [n0 c0] eqn:E. inversion S; subst n0 c0; clear S.
  pose proof (hist_push c _ id H) as P. rewrite E in P. cbn [fst snd] in P. pose proof (hist_pop _ _ id P) as Q. rewrite stack_app in Q. cbn [stack_from] in Q. rewrite String.eqb_refl in Q. destruct Q as (c2 & Ec & Q). exists c2. cbn [step]. rewrite Ec. split; [reflexivity|]. intro k.
  rewrite (h_bind _ _ Q), (h_bind _ _ H), !stack_app. cbn [stack_from]. destruct (String.eqb id k); reflexivity.
Qed.
Print Assumptions C36_pop_restores.
(** A fresh binding is bound under its own name: looking that name up gives it back. *)
Theorem C36_fresh_binding_found ops evs c hint n c1 : run new_ctx ops = Some (evs, c) -> step c (Fresh hint) = Some (Some n, [Bound n n], c1) ->
  step c1 (Get n) = Some (Some n, [], c1).
Proof.
  intros R S. pose proof (hist_run ops _ _ _ _ hist_new R) as H. pose proof (hist_step c _ (Fresh hint) H) as P. rewrite S in P. pose proof (hist_get _ _ n P) as G. rewrite stack_app in G. cbn [stack_from] in G. rewrite String.eqb_refl in G. cbn [step]. now rewrite G.
Qed.
Print Assumptions C36_fresh_binding_found.
Example history : exists c, run new_ctx [Push "a"; Push "a"; Pop "a"; Get "a"; Push "a"; Fresh None; Fresh None; Push "static"] =
  Some ([Bound "a" "a"; Bound "a" "a_0"; Popped "a"; Bound "a" "a_1"; Bound "lt" "lt"; Bound "lt_0" "lt_0"; Bound "static" "static_0"], c).
Proof. eexists. reflexivity. Qed.

(** C37: folding states. *)
Definition fold_states (l : list lstate) : lstate := fold_left update l Unseen.
Lemma update_assoc a b c : update (update a b) c = update a (update b c).
Proof.
  destruct a as [|a|], b as [|b|], c as [|c|]; try reflexivity; cbn; repeat match goal with |- context [String.eqb ?x ?y] => destruct (String.eqb_spec x y); subst; cbn end; try congruence; try reflexivity.
  all: repeat match goal with |- context [String.eqb ?x ?y] => destruct (String.eqb_spec x y); subst; cbn end; congruence.
Qed.
Lemma update_comm a b : update a b = update b a.
Proof. destruct a as [|a|], b as [|b|]; try reflexivity. cbn. rewrite (String.eqb_sym b a). destruct (String.eqb_spec a b) as [->|]; reflexivity. Qed.
Lemma fold_from s l : fold_left update l s = update s (fold_states l).
Proof. unfold fold_states. revert s. induction l as [|x l IH]; intro s; cbn [fold_left]; [destruct s; reflexivity|]. rewrite IH, (IH (update Unseen x)), update_assoc. reflexivity. Qed.
Lemma fold_cons x l : fold_states (x :: l) = update x (fold_states l).
Proof. unfold fold_states at 1. cbn [fold_left update]. apply fold_from. Qed.
Theorem C37_unseen l : fold_states l = Unseen <-> forall x, In x l -> x = Unseen.
Proof.
  induction l as [|x l IH]; [cbn; split; [intros _ ? []|reflexivity]|]. rewrite fold_cons. split.
  - intros E y [<-|Hy]; [destruct x, (fold_states l); cbn in E; try discriminate; try reflexivity; destruct (String.eqb _ _); discriminate|]. apply IH; [|exact Hy]. destruct x, (fold_states l); cbn in E; try discriminate; try reflexivity; destruct (String.eqb _ _); discriminate.
  - intro H. rewrite (H x (or_introl eq_refl)). cbn. apply IH. intros y Hy. apply H. now right.
Qed.
Print Assumptions C37_unseen.
Theorem C37_single l a : fold_states l = Single a <-> In (Single a) l /\ forall x, In x l -> x = Unseen \/ x = Single a.
Proof.
  induction l as [|x l IH]; [cbn; split; [discriminate|intros [[] _]]|]. rewrite fold_cons. split.
  - intro E. destruct x as [|b|].
    + cbn in E. apply IH in E as [E1 E2]. split; [now right|]. intros y [<-|Hy]; auto.
    + destruct (fold_states l) as [|c|] eqn:F; cbn in E.
      * injection E as ->. split; [now left|]. intros y [<-|Hy]; [now right|]. left. exact (proj1 (C37_unseen l) F y Hy).
      * destruct (String.eqb_spec b c) as [->|]; [|discriminate]. injection E as ->. destruct (proj1 IH eq_refl) as [E1 E2]. split; [now left|]. intros y [<-|Hy]; auto.
      * discriminate.
    + destruct (fold_states l); discriminate E.
  - intros [Hin Hall]. assert (Hl : forall y, In y l -> y = Unseen \/ y = Single a) by (intros; apply Hall; now right). destruct (Hall x (or_introl eq_refl)) as [->| ->].
    + cbn. apply IH. split; [|exact Hl]. now destruct Hin as [E|Hin].
    + destruct (fold_states l) as [|c|] eqn:F; cbn; [reflexivity| |].
      * destruct (String.eqb_spec a c) as [->|N]; [reflexivity|]. exfalso. assert (In (Single c) l). { clear - F. revert F. induction l as [|y l IHl]; [discriminate|]. rewrite fold_cons. intro F. destruct y as [|b|]; [right; apply IHl; exact F| |destruct (fold_states l); discriminate F]. destruct (fold_states l) as [|e|]; cbn in F; [injection F as ->; now left| |discriminate]. destruct (String.eqb_spec b e) as [->|]; [|discriminate]. injection F as ->. now left. }
        destruct (Hl _ H) as [E|E]; congruence.
      * exfalso. assert (U : fold_states l = Unseen \/ fold_states l = Single a). { clear - Hl. induction l as [|y l IHl]; [now left|]. rewrite fold_cons. destruct (Hl y (or_introl eq_refl)) as [->| ->]; destruct (IHl (fun z Hz => Hl z (or_intror Hz))) as [->| ->]; cbn; try rewrite String.eqb_refl; auto. }
        destruct U; congruence.
Qed.
Print Assumptions C37_single.
(** Otherwise it is [Unknown]: exactly when [Unknown] was seen or two different lifetimes were. *)
Theorem C37_unknown l : fold_states l = Unknown <-> In Unknown l \/ exists a b, a <> b /\ In (Single a) l /\ In (Single b) l.
Proof.
  split.
  - induction l as [|x l IH]; [discriminate|]. rewrite fold_cons. intro E. destruct x as [|b|]; [|destruct (fold_states l) as [|c|] eqn:F; cbn in E; try discriminate|left; now left].
    + destruct (IH E) as [H|(a & b & N & Ha & Hb)]; [left; now right|right; exists a, b; auto using in_cons].
    + destruct (String.eqb_spec b c) as [|N]; [discriminate|]. apply C37_single in F as [F _]. right. exists b, c. split; [exact N|]. split; [now left|now right].
    + destruct (IH eq_refl) as [H|(a & b' & N & Ha & Hb)]; [left; now right|right; exists a, b'; auto using in_cons].
  - intro H. destruct (fold_states l) as [|c|] eqn:F; [| |reflexivity]; exfalso.
    + pose proof (proj1 (C37_unseen l) F) as U. destruct H as [H|(a & b & _ & H & _)]; discriminate (U _ H).
    + destruct (proj1 (C37_single l c) F) as [_ U]. destruct H as [H|(a & b & N & Ha & Hb)]; [destruct (U _ H); discriminate|]. destruct (U _ Ha), (U _ Hb); congruence.
Qed.
Print Assumptions C37_unknown.
Theorem C37_order_irrelevant l l' : Permutation l l' -> fold_states l = fold_states l'.
Proof. induction 1 as [|x l l' _ IH|x y l|l l' l'' _ IH1 _ IH2]; [reflexivity|now rewrite !fold_cons, IH| |congruence]. rewrite !fold_cons, <- !update_assoc. f_equal. apply update_comm. Qed.
Print Assumptions C37_order_irrelevant.
(** Folding parameters in groups gives the same. *)
Theorem C37_grouping_irrelevant l l' : fold_states (l ++ l') = update (fold_states l) (fold_states l').
Proof. induction l as [|x l IH]; [reflexivity|]. cbn [app]. now rewrite !fold_cons, IH, update_assoc. Qed.
Print Assumptions C37_grouping_irrelevant.
Example folds : fold_states [Unseen; Single "a"; Single "a"] = Single "a" /\ fold_states [Single "a"; Unseen; Single "b"; Single "a"] = Unknown.
Proof. split; reflexivity. Qed.
