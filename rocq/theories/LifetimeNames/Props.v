(** C51-C54: scoping of lifetimes and the default rules, for functions without Clang annotations. *)
From Coq Require Import List Arith ZArith Bool Lia Strings.String Sorting.Permutation.
From Verif.LifetimeNames Require Import Model Spec Names Transform Func.
Import ListNotations.
Local Open Scope string_scope.
Local Open Scope list_scope.

(** C51: the lifetimes a function binds are new: no two are equal, and none is bound by an enclosing item or built in. *)
Theorem C51_function_binders_never_shadow d fuel f f' : explicit_arity (enclosing f) -> add_lifetime_to_func d fuel f = Some f' ->
  exists sc, enclosing_scope (enclosing f) sc /\ NoDup (map snd sc ++ inputs f').
Proof.
  intros A H. destruct (func_transformed _ _ _ _ A H) as (sc & own & new & tn & ps & ret & ps1 & zs & O). exists sc. split; [apply O|]. rewrite (o_inputs _ _ _ _ _ _ _ _ _ _ _ O). pose proof (o_nodup _ _ _ _ _ _ _ _ _ _ _ O) as N. rewrite <- app_assoc, !map_app in N.
  assert (E : map snd (combine (inputs f) own) = own). { pose proof (o_own _ _ _ _ _ _ _ _ _ _ _ O) as L. clear - L. revert L. generalize (inputs f). induction own as [|x own IH]; intros [|y l] L; try discriminate; [reflexivity|]. cbn. f_equal. apply IH. now injection L. }
  now rewrite E in N.
Qed.
Print Assumptions C51_function_binders_never_shadow.
Lemma combine_snd {A B} (l : list A) : forall (r : list B), List.length r = List.length l -> map snd (combine l r) = r.
Proof. induction l as [|x l IH]; intros [|y r] L; try discriminate; [reflexivity|]. cbn. f_equal. apply IH. now injection L. Qed.
Lemma combine_fst {A B} (l : list A) : forall (r : list B), List.length r = List.length l -> map fst (combine l r) = l.
Proof. induction l as [|x l IH]; intros [|y r] L; try discriminate; [reflexivity|]. cbn. f_equal. apply IH. now injection L. Qed.
Theorem C51_record_binders_never_shadow ins arity outer ns : explicit_arity outer -> add_lifetime_to_record ins arity outer = Some ns ->
  exists sc, enclosing_scope outer sc /\ NoDup (map snd sc ++ ns).
Proof.
  intros A H. unfold add_lifetime_to_record in H. destruct (bind_enclosing new_ctx outer) as [[tn c]|] eqn:E; [|discriminate]. destruct (bind_enclosing_ok _ A _ _ E) as (sc & rest & S & R & _). exists sc. split; [exact S|].
  assert (G : exists l, ns = fst (push_all c l)) by (destruct ins as [|i ins]; [destruct arity as [n|]; [exists (repeat "__implicit" n); congruence|discriminate]|exists (i :: ins); congruence]).
  destruct G as [l ->]. destruct (push_all c l) as [r c'] eqn:Ep. destruct (push_all_ok _ _ _ _ _ R Ep) as [L R2]. pose proof (r_nodup _ _ R2) as N. now rewrite map_app, combine_snd in N.
Qed.
Print Assumptions C51_record_binders_never_shadow.
Theorem C51_alias_binders_never_shadow d ins t outer ns t' : explicit_arity outer -> add_lifetime_to_type_alias d ins t outer = Some (ns, t') ->
  (exists sc, enclosing_scope outer sc /\ NoDup (map snd sc ++ ns)) /\ (lifetimes t = [] -> lifetimes t' = ns) /\ (lifetimes t <> [] -> t' = t /\ ns = []).
Proof.
  intros A H. unfold add_lifetime_to_type_alias in H. destruct (bind_enclosing new_ctx outer) as [[tn c]|] eqn:E; [|discriminate]. destruct (bind_enclosing_ok _ A _ _ E) as (sc & rest & S & R & _). destruct (negb (is_nil ins)); [discriminate|].
  assert (Z : exists sc0, enclosing_scope outer sc0 /\ NoDup (map snd sc0 ++ [])) by (exists sc; split; [exact S|rewrite app_nil_r; apply R]).
  destruct (lifetimes t) as [|l ls] eqn:El.
  - destruct (lifetime_arity d t) as [n|].
    + injection H as <- <-. split; [|split; [|congruence]].
      * exists sc. split; [exact S|]. destruct (push_all c (alias_names 0 n)) as [r c'] eqn:Ep. destruct (push_all_ok _ _ _ _ _ R Ep) as [L R2]. pose proof (r_nodup _ _ R2) as N. now rewrite map_app, combine_snd in N.
      * intros _. now destruct t.
    + injection H as <- <-. split; [exact Z|]. split; [auto|congruence].
  - injection H as <- <-. split; [exact Z|]. split; [discriminate|auto].
Qed.
Print Assumptions C51_alias_binders_never_shadow.

(** * Access by position *)
Lemma params_nth d sc new ctor : forall ps ix ps' zs i p, params_ok d sc new ctor ix ps ps' zs -> nth_error ps i = Some p ->
  exists p' z, nth_error ps' i = Some p' /\ nth_error zs i = Some z /\ param_ok d sc new (this_ix ctor (ix + i) p) p p' z.
Proof.
  induction ps as [|q ps IH]; intros ix [|q' ps'] [|z zs] [|i] p H E; cbn in *; try discriminate; try contradiction; destruct H as [H1 H2].
  - injection E as ->. exists q', z. rewrite Nat.add_0_r. auto.
  - destruct (IH _ _ _ _ _ H2 E) as (p' & z' & E1 & E2 & P). exists p', z'. replace (ix + S i) with (S ix + i) by lia. auto.
Qed.
Lemma promote_nth ctor ps i q : nth_error (promote ctor ps) i = Some q -> exists p, nth_error ps i = Some p /\ lifetimes (ptype q) = lifetimes (ptype p) /\
  (q = p \/ i = 0 /\ is_this_param p && negb ctor = true /\ exists k v l ls, ptype p = Ty (Pointer k v) (l :: ls) /\ ptype q = Ty (Pointer LValueRef v) (l :: ls)).
Proof.
  destruct ps as [|p ps]; [destruct i; discriminate|]. cbn [promote]. destruct (is_this_param p && negb ctor) eqn:E; [|intro H; exists q; auto].
  destruct p as [pi pb [[id a|k v| | |] [|l ls]]]; cbn [ptype ident bound]; try (intro H; exists q; auto; fail). destruct i as [|i]; cbn; [|intro H; exists q; auto]. intro H. injection H as <-. eexists. split; [reflexivity|]. cbn. split; [reflexivity|]. right. split; [reflexivity|]. split; [exact E|]. do 4 eexists. split; reflexivity.
Qed.
Lemma this_at_ix f p i : nth_error (params f) i = Some p -> this_at f i = this_ix (constructor f) i p.
Proof. unfold this_at, this_ix, is_this_param. destruct i as [|i]; [|reflexivity]. destruct (params f) as [|q r]; [discriminate|]. cbn. intro E. injection E as ->. reflexivity. Qed.
Lemma decided_resolved sc new lts z : decided sc new lts z -> resolved sc new lts (lifetime_for z).
Proof. destruct lts as [|id [|id' r]]; cbn; [intros (n & -> & H); exists n; split; [reflexivity|exact H]|intros (n & B & ->); exists n; split; [exact B|]; destruct (String.eqb n "unknown"); reflexivity|intros ->; reflexivity]. Qed.
(** One parameter of a function without Clang annotations. *)
Lemma param_resolved d f f' sc own new tn ps ret ps1 zs i t t' : func_ok d f f' sc own new tn ps ret ps1 zs -> ps = params f -> param_types f f' i t t' ->
  exists z, nth_error zs i = Some z /\
  if takes d (this_at f i) t then decided ((sc ++ combine (inputs f) own) ++ new) new (lifetimes t) z /\ lifetimes t' = lifetime_for z else z = Unseen /\ t' = t.
Proof.
  intros O -> (p & p' & Ep & Ep' & -> & ->). destruct (params_nth _ _ _ _ _ _ _ _ _ _ (o_params _ _ _ _ _ _ _ _ _ _ _ O) Ep) as (q & z & Eq & Ez & P). rewrite (o_params' _ _ _ _ _ _ _ _ _ _ _ O) in Ep'. destruct (promote_nth _ _ _ _ Ep') as (q' & Eq' & L & K). assert (q' = q) by congruence. subst q'. exists z. split; [exact Ez|]. rewrite (this_at_ix f p i Ep). cbn [Nat.add] in P. destruct P as (Hi & Hb & Hh & P).
  destruct (takes d (this_ix (constructor f) i p) (ptype p)) eqn:Tk.
  - destruct P as (D & E & _). split; [exact D|congruence].
  - destruct P as [-> E]. split; [reflexivity|]. destruct K as [->|(-> & Tp & k & v & l & ls & Ek & _)]; [exact E|]. exfalso. rewrite E in Ek. rewrite Ek in Tk. cbn in Tk. unfold this_ix in Tk. rewrite Nat.eqb_refl in Tk. cbn in Tk. unfold is_this_param in Tp, Tk. rewrite Hi in Tp. rewrite Tp in Tk. discriminate.
Qed.

(** C52: lifetimes are resolved lexically: in the function's own binders, then in those of the enclosing items from the
    inside out, then the built-in ones; any other name is bound, once, by a new binder of the function.  Types that take
    no lifetime are left alone. *)
Theorem C52_lexical_scoping d fuel f f' : explicit_arity (enclosing f) -> no_lifetimebound f -> add_lifetime_to_func d fuel f = Some f' ->
  exists sc own new, enclosing_scope (enclosing f) sc /\ List.length own = List.length (inputs f) /\ inputs f' = own ++ map snd new /\
  let base := sc ++ combine (inputs f) own in added base new /\
  (forall i t t', param_types f f' i t t' ->
     (takes_lifetime d (this_at f i) t -> resolved (base ++ new) new (lifetimes t) (lifetimes t')) /\ (~ takes_lifetime d (this_at f i) t -> t' = t)) /\
  (takes_lifetime d false (return_type f) -> lifetimes (return_type f) <> [] ->
     exists r, Forall2 (bound_to (base ++ new)) (lifetimes (return_type f)) r /\
     lifetimes (return_type f') = match return_type f with Ty (Pointer _ _) _ => r | _ => if mem "unknown" r then [] else r end).
Proof.
  intros A Nb H. destruct (func_transformed _ _ _ _ A H) as (sc & own & new & tn & ps & ret & ps1 & zs & O). destruct (o_lower _ _ _ _ _ _ _ _ _ _ _ O) as (c & _ & Lw). destruct (lower_none _ _ _ _ _ _ Nb Lw) as [Eps Eret].
  exists sc, own, new. split; [apply O|]. split; [apply O|]. split; [apply O|]. cbn zeta. split; [apply (o_grow _ _ _ _ _ _ _ _ _ _ _ O)|]. split.
  - intros i t t' Pt. destruct (param_resolved _ _ _ _ _ _ _ _ _ _ _ _ _ _ O Eps Pt) as (z & _ & P). rewrite <- takes_spec. destruct (takes d (this_at f i) t); [|split; [discriminate|intros _; apply P]]. split; [|congruence]. intros _. destruct P as [D ->]. now apply decided_resolved.
  - intros Tr Nl. destruct (o_ret _ _ _ _ _ _ _ _ _ _ _ O) as (hint & R & _). rewrite Eret in R. clear - R Tr Nl. apply takes_spec in Tr. destruct (return_type f) as [[id a|k p| | |] l]; cbn in Tr; try discriminate; cbn [lifetimes] in *.
    + cbn in R. rewrite Tr in R. destruct R as (a' & R). destruct l as [|x l]; [contradiction|]. destruct R as (r & F & ->). exists r. auto.
    + destruct k; try discriminate. cbn in R. destruct l as [|x l]; [contradiction|]. destruct R as (r & F & ->). exists r. auto.
Qed.
Print Assumptions C52_lexical_scoping.
(** So every lifetime a parameter ends up with is bound: by the function, an enclosing item, or as ['static]. *)
Theorem C52_parameters_well_scoped d fuel f f' : explicit_arity (enclosing f) -> no_lifetimebound f -> add_lifetime_to_func d fuel f = Some f' ->
  exists sc, enclosing_scope (enclosing f) sc /\
  forall i t t', param_types f f' i t t' -> takes_lifetime d (this_at f i) t ->
  forall n, In n (lifetimes t') -> n <> "unknown" /\ (In n (inputs f') \/ In n (map snd sc)).
Proof.
  intros A Nb H. destruct (func_transformed _ _ _ _ A H) as (sc & own & new & tn & ps & ret & ps1 & zs & O). destruct (o_lower _ _ _ _ _ _ _ _ _ _ _ O) as (c & _ & Lw). destruct (lower_none _ _ _ _ _ _ Nb Lw) as [Eps _]. exists sc. split; [apply O|].
  intros i t t' Pt Tk n Hn. apply takes_spec in Tk. destruct (param_resolved _ _ _ _ _ _ _ _ _ _ _ _ _ _ O Eps Pt) as (z & Ez & P). rewrite Tk in P. destruct P as [D E]. rewrite E in Hn. destruct z as [|m|]; cbn in Hn; try contradiction. destruct Hn as [->|[]]. destruct (o_values _ _ _ _ _ _ _ _ _ _ _ O n (nth_error_In _ _ Ez)) as [V Nu]. split; [exact Nu|]. rewrite (o_inputs _ _ _ _ _ _ _ _ _ _ _ O). rewrite !map_app, !in_app_iff in V. rewrite (combine_snd _ _ (o_own _ _ _ _ _ _ _ _ _ _ _ O)) in V. rewrite in_app_iff. tauto.
Qed.
Print Assumptions C52_parameters_well_scoped.
(** The same annotation gives the same lifetime; different annotations give different ones. *)
Theorem C52_annotations_injective d fuel f f' i j t t' u u' a b : explicit_arity (enclosing f) -> no_lifetimebound f -> add_lifetime_to_func d fuel f = Some f' ->
  param_types f f' i t t' -> param_types f f' j u u' -> takes_lifetime d (this_at f i) t -> takes_lifetime d (this_at f j) u -> lifetimes t = [a] -> lifetimes u = [b] ->
  (a = b -> lifetimes t' = lifetimes u') /\ (a <> b -> lifetimes t' <> lifetimes u' \/ lifetimes t' = [] /\ lifetimes u' = []).
Proof.
  intros A Nb H Pt Pu Tt Tu Et Eu. destruct (func_transformed _ _ _ _ A H) as (sc & own & new & tn & ps & ret & ps1 & zs & O). destruct (o_lower _ _ _ _ _ _ _ _ _ _ _ O) as (c & _ & Lw). destruct (lower_none _ _ _ _ _ _ Nb Lw) as [Eps _].
  apply takes_spec in Tt, Tu. destruct (param_resolved _ _ _ _ _ _ _ _ _ _ _ _ _ _ O Eps Pt) as (z & _ & P). rewrite Tt, Et in P. destruct P as [(n & B & ->) E]. destruct (param_resolved _ _ _ _ _ _ _ _ _ _ _ _ _ _ O Eps Pu) as (z' & _ & P'). rewrite Tu, Eu in P'. destruct P' as [(n' & B' & ->) E'].
  split.
  - intros <-. rewrite (bound_unique _ _ _ _ B B') in E. congruence.
  - intro Nab. rewrite E, E'. destruct (String.eqb_spec n "unknown") as [->|N1], (String.eqb_spec n' "unknown") as [->|N2]; cbn; [auto|left; discriminate|left; discriminate|]. left. intro En. injection En as <-. apply Nab. eapply nodup_snd_inj; [apply O|apply bound_in; exact B|apply bound_in; exact B'].
Qed.
Print Assumptions C52_annotations_injective.
(** A name bound by the function itself stands for that binder, whatever encloses the function. *)
Theorem C52_own_binder_wins d fuel f f' before id after i t t' : explicit_arity (enclosing f) -> no_lifetimebound f -> add_lifetime_to_func d fuel f = Some f' ->
  inputs f = before ++ id :: after -> ~ In id after -> param_types f f' i t t' -> takes_lifetime d (this_at f i) t -> lifetimes t = [id] ->
  exists n, nth_error (inputs f') (List.length before) = Some n /\ lifetimes t' = [n].
Proof.
  intros A Nb H Ei Na Pt Tt Et. destruct (func_transformed _ _ _ _ A H) as (sc & own & new & tn & ps & ret & ps1 & zs & O). destruct (o_lower _ _ _ _ _ _ _ _ _ _ _ O) as (c & _ & Lw). destruct (lower_none _ _ _ _ _ _ Nb Lw) as [Eps _].
  apply takes_spec in Tt. destruct (param_resolved _ _ _ _ _ _ _ _ _ _ _ _ _ _ O Eps Pt) as (z & Ez & P). rewrite Tt, Et in P. destruct P as [(n & B & Zn) E]. pose proof (o_own _ _ _ _ _ _ _ _ _ _ _ O) as Lo.
  assert (Lb : List.length before < List.length own) by (rewrite Lo, Ei, app_length; cbn; lia). destruct (nth_error own (List.length before)) as [m|] eqn:Em; [|apply nth_error_None in Em; lia].
  assert (Bm : bound_to (sc ++ combine (inputs f) own) id m).
  { apply nth_error_split in Em as (o1 & o2 & -> & Lo1). rewrite Ei. exists (sc ++ combine before o1), (combine after o2). rewrite Ei, !app_length in Lo. cbn in Lo. split.
    - rewrite <- app_assoc. f_equal. clear - Lo1. revert o1 Lo1. induction before as [|x b IH]; intros [|y o1] L; try discriminate; [reflexivity|]. cbn. f_equal. apply IH. now injection L.
    - rewrite combine_fst by lia. exact Na. }
  assert (n = m) by (eapply bound_unique; [exact B|apply bound_grow; [apply O|exact Bm]]). subst m. exists n. split; [rewrite (o_inputs _ _ _ _ _ _ _ _ _ _ _ O), nth_error_app1 by lia; exact Em|].
  rewrite E, Zn. destruct (String.eqb_spec n "unknown") as [->|]; [|reflexivity]. exfalso.
  (* the built-in name is never given to a binder *)
  pose proof (o_nodup _ _ _ _ _ _ _ _ _ _ _ O) as Nd. destruct (o_builtin _ _ _ _ _ _ _ _ _ _ _ O) as [rest Er]. rewrite Er in Nd. cbn [builtins app map] in Nd. inversion Nd as [|? ? _ Nd2]; subst. inversion Nd2 as [|? ? Nu _]; subst. apply Nu. cbn [snd]. rewrite !map_app, !in_app_iff. left. right. rewrite combine_snd by exact Lo. eapply nth_error_In; exact Em.
Qed.
Print Assumptions C52_own_binder_wins.
(** A parameter without annotation gets a lifetime that no earlier parameter, enclosing item or own binder has. *)
Theorem C52_unannotated_is_fresh d fuel f f' i j t t' u u' n : explicit_arity (enclosing f) -> no_lifetimebound f -> add_lifetime_to_func d fuel f = Some f' ->
  param_types f f' i t t' -> param_types f f' j u u' -> takes_lifetime d (this_at f i) t -> takes_lifetime d (this_at f j) u -> i < j -> lifetimes u = [] -> lifetimes u' = [n] -> lifetimes t' <> [n].
Proof.
  intros A Nb H Pt Pu Tt Tu Lt Eu En. destruct (func_transformed _ _ _ _ A H) as (sc & own & new & tn & ps & ret & ps1 & zs & O). destruct (o_lower _ _ _ _ _ _ _ _ _ _ _ O) as (c & _ & Lw). destruct (lower_none _ _ _ _ _ _ Nb Lw) as [Eps _].
  apply takes_spec in Tt, Tu. destruct (param_resolved _ _ _ _ _ _ _ _ _ _ _ _ _ _ O Eps Pt) as (z & Ez & P). rewrite Tt in P. destruct P as [_ E]. destruct (param_resolved _ _ _ _ _ _ _ _ _ _ _ _ _ _ O Eps Pu) as (z' & Ez' & P'). rewrite Tu, Eu in P'. destruct P' as [(m & -> & _) E']. rewrite En in E'. injection E' as <-.
  pose proof (o_fresh _ _ _ _ _ _ _ _ _ _ _ O) as F. destruct Pu as (p & p' & Ep & _ & Eu2 & _). subst ps. rewrite (this_at_ix f p j Ep) in Tu. subst u. destruct (F j p n Ep Tu Eu Ez') as [_ F2]. rewrite E. intro Ec. apply (F2 i Lt). rewrite Ez. destruct z as [|k|]; cbn in Ec; try discriminate. congruence.
Qed.
Print Assumptions C52_unannotated_is_fresh.

(** * The default rules (C53) *)
Lemma returned_default d sc hint t t' : takes_lifetime d false t -> lifetimes t = [] -> returned d sc hint t t' ->
  lifetimes t' = hint /\ match t with Ty (Pointer _ _) _ => exists p', t' = Ty (Pointer (match hint with [] => NonNull | _ => LValueRef end) p') hint | _ => True end.
Proof.
  intros T L R. apply takes_spec in T. destruct t as [[id a|k p| | |] l]; cbn in T; try discriminate; cbn in L; subst l.
  - cbn in R. rewrite T in R. destruct R as (a' & ->). auto.
  - destruct k; try discriminate. cbn in R. destruct R as (p' & ->). split; [reflexivity|eauto].
Qed.
(** C53: in a member function, an unannotated returned reference (or view) gets the lifetime of [this]; if [this] has
    none (its annotation was ['unknown]), a returned reference becomes a non-null pointer. *)
Theorem C53_this_rule d fuel f f' t t' : explicit_arity (enclosing f) -> no_lifetimebound f -> add_lifetime_to_func d fuel f = Some f' ->
  this_at f 0 = true -> param_types f f' 0 t t' -> (exists k p l, t = Ty (Pointer k p) l) -> takes_lifetime d false (return_type f) -> lifetimes (return_type f) = [] ->
  lifetimes (return_type f') = lifetimes t' /\
  match return_type f with Ty (Pointer _ _) _ => exists p', return_type f' = Ty (Pointer (match lifetimes t' with [] => NonNull | _ => LValueRef end) p') (lifetimes t') | _ => True end.
Proof.
  intros A Nb H Th Pt (k & q & l & Et) Tr Lr. destruct (func_transformed _ _ _ _ A H) as (sc & own & new & tn & ps & ret & ps1 & zs & O). destruct (o_lower _ _ _ _ _ _ _ _ _ _ _ O) as (c & _ & Lw). destruct (lower_none _ _ _ _ _ _ Nb Lw) as [Eps Eret].
  destruct (param_resolved _ _ _ _ _ _ _ _ _ _ _ _ _ _ O Eps Pt) as (z & Ez & P). rewrite Th, Et in P. cbn [takes orb] in P. destruct P as [D E]. pose proof (decided_seen _ _ _ _ D) as Nz.
  destruct (o_ret _ _ _ _ _ _ _ _ _ _ _ O) as (hint & R & Hh). subst ret. destruct (returned_default _ _ _ _ _ Tr Lr R) as [R1 R2].
  assert (Hint : hint = lifetimes t').
  { rewrite Hh, E. destruct Pt as (p & p' & Ep & _ & Ept & _). unfold is_this_state. rewrite Eps. unfold this_at in Th. destruct (params f) as [|p0 r]; [discriminate|]. cbn in Ep. injection Ep as ->. unfold is_this_param. rewrite Th, <- Ept, Et. cbn [is_pointer andb]. destruct zs as [|z0 zs0]; [discriminate|]. cbn in Ez. injection Ez as ->. destruct z; [contradiction|reflexivity|reflexivity]. }
  rewrite <- Hint. auto.
Qed.
Print Assumptions C53_this_rule.
(** C53: otherwise it gets the one lifetime the parameters have; if they have none, several, or an unknown one, a returned
    reference becomes a non-null pointer and a view gets none. *)
Theorem C53_single_lifetime_rule d fuel f f' : explicit_arity (enclosing f) -> no_lifetimebound f -> add_lifetime_to_func d fuel f = Some f' ->
  this_at f 0 = false -> takes_lifetime d false (return_type f) -> lifetimes (return_type f) = [] ->
  let out := lifetimes (return_type f') in
  (forall n, out = [n] <-> (exists i t', deciding d f f' i t') /\ forall i t', deciding d f f' i t' -> lifetimes t' = [n]) /\
  (out = [] \/ exists n, out = [n]) /\
  match return_type f with Ty (Pointer _ _) _ => exists p', return_type f' = Ty (Pointer (match out with [] => NonNull | _ => LValueRef end) p') out | _ => True end.
Proof.
  intros A Nb H Th Tr Lr out. destruct (func_transformed _ _ _ _ A H) as (sc & own & new & tn & ps & ret & ps1 & zs & O). destruct (o_lower _ _ _ _ _ _ _ _ _ _ _ O) as (c & _ & Lw). destruct (lower_none _ _ _ _ _ _ Nb Lw) as [Eps Eret].
  destruct (o_ret _ _ _ _ _ _ _ _ _ _ _ O) as (hint & R & Hh). subst ret. destruct (returned_default _ _ _ _ _ Tr Lr R) as [R1 R2]. fold out in R1.
  assert (Hint : out = lifetime_for (fold_states zs)).
  { rewrite R1, Hh. unfold is_this_state. rewrite Eps. unfold this_at in Th. destruct (params f) as [|p0 r]; [reflexivity|]. unfold is_this_param. now rewrite Th. }
  assert (Zs : forall i z, nth_error zs i = Some z -> exists t t', param_types f f' i t t').
  { intros i z Ez. assert (Lz : List.length zs = List.length ps /\ List.length ps1 = List.length ps).
    { pose proof (o_params _ _ _ _ _ _ _ _ _ _ _ O) as P. clear - P. revert P. generalize 0. revert ps1 zs. induction ps as [|p ps IH]; intros [|p1 ps1] [|z zs] k; cbn; try contradiction; auto. intros [_ P]. destruct (IH _ _ _ P). split; congruence. }
    assert (Li : i < List.length ps) by (rewrite <- (proj1 Lz); apply nth_error_Some; congruence). destruct (nth_error (params f) i) as [p|] eqn:Ep; [|apply nth_error_None in Ep; rewrite Eps in Li; lia].
    assert (Lp : List.length (params f') = List.length ps1) by (rewrite (o_params' _ _ _ _ _ _ _ _ _ _ _ O); destruct ps1 as [|q r]; [reflexivity|]; cbn [promote]; destruct (_ && _); [|reflexivity]; destruct (ptype q) as [[] [|]]; reflexivity).
    destruct (nth_error (params f') i) as [p'|] eqn:Ep'; [|apply nth_error_None in Ep'; lia]. exists (ptype p), (ptype p'). exists p, p'. auto. }
  assert (Dz : forall i t', deciding d f f' i t' -> exists z, nth_error zs i = Some z /\ z <> Unseen /\ lifetimes t' = lifetime_for z).
  { intros i t' (t & Pt & Tk). apply takes_spec in Tk. destruct (param_resolved _ _ _ _ _ _ _ _ _ _ _ _ _ _ O Eps Pt) as (z & Ez & P). rewrite Tk in P. destruct P as [D E]. exists z. split; [exact Ez|]. split; [eapply decided_seen; exact D|exact E]. }
  assert (Zd : forall i z, nth_error zs i = Some z -> z = Unseen \/ exists t', deciding d f f' i t' /\ lifetimes t' = lifetime_for z).
  { intros i z Ez. destruct (Zs i z Ez) as (t & t' & Pt). destruct (param_resolved _ _ _ _ _ _ _ _ _ _ _ _ _ _ O Eps Pt) as (z' & Ez' & P). assert (z' = z) by congruence. subst z'. destruct (takes d (this_at f i) t) eqn:Tk; [|left; apply P]. right. exists t'. split; [exists t; split; [exact Pt|now apply takes_spec]|apply P]. }
  assert (Single_iff : forall n, out = [n] <-> fold_states zs = Single n) by (intro n; rewrite Hint; destruct (fold_states zs); cbn; split; congruence).
  split; [|split].
  - intro n. rewrite Single_iff, C37_single. split.
    + intros [Hin Hall]. split.
      * apply In_nth_error in Hin as [i Ez]. destruct (Zd i _ Ez) as [E|(t' & Dt & _)]; [discriminate|eauto].
      * intros i t' Dt. destruct (Dz i t' Dt) as (z & Ez & Nz & E). destruct (Hall z (nth_error_In _ _ Ez)) as [->| ->]; [contradiction|exact E].
    + intros [(i & t' & Dt) Hall]. split.
      * destruct (Dz i t' Dt) as (z & Ez & Nz & E). rewrite (Hall i t' Dt) in E. destruct z as [|m|]; cbn in E; try discriminate. injection E as <-. eapply nth_error_In; exact Ez.
      * intros z Hz. apply In_nth_error in Hz as [j Ez]. destruct (Zd j z Ez) as [->|(u' & Du & E)]; [now left|]. right. rewrite (Hall j u' Du) in E. destruct z as [|m|]; cbn in E; try discriminate. congruence.
  - rewrite Hint. destruct (fold_states zs); cbn; eauto.
  - rewrite R1. exact R2.
Qed.
Print Assumptions C53_single_lifetime_rule.

(** C54: a returned reference always has a lifetime, with or without Clang annotations. *)
Theorem C54_returned_reference_has_lifetime d fuel f f' p l : explicit_arity (enclosing f) -> add_lifetime_to_func d fuel f = Some f' ->
  return_type f' = Ty (Pointer LValueRef p) l -> l <> [].
Proof.
  intros A H E. destruct (func_transformed _ _ _ _ A H) as (sc & own & new & tn & ps & ret & ps1 & zs & O). destruct (o_ret _ _ _ _ _ _ _ _ _ _ _ O) as (hint & R & _). rewrite E in R. destruct ret as [[id a|k q| | |] lr]; cbn in R; try discriminate.
  - destruct R as (a' & R). destruct (binds d id); [|discriminate]. destruct lr; [discriminate|]. destruct R as (r & _ & R). discriminate.
  - destruct k; try discriminate. destruct lr as [|x lr].
    + destruct R as (p' & R). injection R as E1 _ ->. destruct hint; [discriminate|discriminate].
    + destruct R as (r & F & R). injection R as _ ->. inversion F; discriminate.
Qed.
Print Assumptions C54_returned_reference_has_lifetime.
