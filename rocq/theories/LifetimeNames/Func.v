(** Assembling the transformation of a function. *)
From Coq Require Import List Arith ZArith Bool Lia Strings.String Sorting.Permutation.
From Verif.LifetimeNames Require Import Model Spec Names Transform.
Import ListNotations.
Local Open Scope string_scope.
Local Open Scope list_scope.

Lemma push_all_ok l : forall c sc ns c', rep c sc -> push_all c l = (ns, c') -> List.length ns = List.length l /\ rep c' (sc ++ combine l ns).
Proof.
  induction l as [|x l IH]; intros c sc ns c' R H; cbn [push_all] in H; [injection H as <- <-; cbn; rewrite app_nil_r; auto|].
  pose proof (rep_push c sc x R) as P. destruct (push_new_binding c x) as [n c1]. cbn [fst snd] in P. destruct (push_all c1 l) as [r c2] eqn:E. injection H as <- <-. destruct (IH _ _ _ _ P E) as [L R2]. cbn [combine List.length]. split; [now rewrite L|]. now rewrite <- app_assoc in R2.
Qed.
Definition builtins : scope := [("static", "static"); ("unknown", "unknown")].
Lemma rep_new : rep new_ctx builtins.
Proof.
  assert (H0 : rep (Ctx (fun _ => None) []) []) by (constructor; [reflexivity|intro; cbn; tauto|constructor|intros k []]).
  pose proof (rep_push _ _ "static" H0) as H1. pose proof (rep_push _ _ "unknown" H1) as H2. exact H2.
Qed.
Lemma record_names ins n c : (ins <> [] -> n = List.length ins) ->
  (if negb (Nat.eqb n (List.length ins)) then push_all c (repeat "__implicit" n) else push_all c ins) = push_all c (record_binders ins n).
Proof.
  intro A. destruct ins as [|x ins]; cbn [record_binders].
  - destruct n; reflexivity.
  - rewrite <- (A ltac:(discriminate)), Nat.eqb_refl. reflexivity.
Qed.
(** The names of the innermost item, if it is a record, end the scope. *)
Definition innermost (items : list item) (ns : list string) (sc : scope) : Prop :=
  match items with
  | IRecord ins (Some n) :: _ => exists sc0, sc = builtins ++ sc0 ++ combine (record_binders ins n) ns /\ List.length ns = List.length (record_binders ins n)
  | _ => ns = []
  end.
Lemma bind_enclosing_ok items : explicit_arity items -> forall ns c, bind_enclosing new_ctx items = Some (ns, c) ->
  exists sc rest, enclosing_scope items sc /\ rep c sc /\ sc = builtins ++ rest /\ innermost items ns sc.
Proof.
  induction items as [|i items IH]; intros A ns c H; cbn [bind_enclosing] in H.
  - injection H as <- <-. exists builtins, []. split; [constructor|]. split; [apply rep_new|]. split; reflexivity.
  - destruct (bind_enclosing new_ctx items) as [[ns0 c1]|] eqn:E; [|discriminate]. destruct (IH (fun ins a Hi => A ins a (or_intror Hi)) ns0 c1 eq_refl) as (sc & rest & S & R & Eb & _). destruct i as [ins|ins [n|]|].
    + injection H as <- <-. destruct (push_all c1 ins) as [r c2] eqn:Ep. destruct (push_all_ok _ _ _ _ _ R Ep) as [L R2]. exists (sc ++ combine ins r), (rest ++ combine ins r). split; [now constructor|]. split; [exact R2|]. split; [now rewrite Eb, app_assoc|reflexivity].
    + assert (An : ins <> [] -> n = List.length ins) by (intro Hn; specialize (A ins (Some n) (or_introl eq_refl) Hn); congruence). rewrite (record_names ins n c1 An) in H. injection H as H. destruct (push_all_ok _ _ _ _ _ R H) as [L R2]. exists (sc ++ combine (record_binders ins n) ns), (rest ++ combine (record_binders ins n) ns).
      split; [|split; [exact R2|split; [now rewrite Eb, app_assoc|exists rest; split; [now rewrite Eb, <- app_assoc|exact L]]]]. constructor; [exact S|]. unfold add_lifetime_to_record. rewrite E. destruct ins as [|x ins]; cbn [record_binders] in H; rewrite H; reflexivity.
    + discriminate.
    + injection H as <- <-. exists sc, rest. split; [now constructor|]. split; [exact R|]. split; [exact Eb|reflexivity].
Qed.
Lemma agree_has ctor ps : forall ix rl has rl' has', agree ctor ix ps rl has = Some (rl', has') -> has' = true -> has = true \/ exists p, In p ps /\ bound p = true.
Proof.
  induction ps as [|p ps IH]; intros ix rl has rl' has' H Hh; cbn [agree] in H; [injection H as _ <-; auto|].
  assert (C : forall rl0 h0, agree ctor (S ix) ps rl0 h0 = Some (rl', has') -> h0 = has || bound p \/ h0 = has -> has = true \/ exists p0, In p0 (p :: ps) /\ bound p0 = true).
  { intros rl0 h0 H0 Eh. destruct (IH _ _ _ _ _ H0 Hh) as [E|(q & Hq & Bq)]; [|right; exists q; split; [now right|exact Bq]]. destruct Eh as [->| ->]; [|auto]. apply orb_prop in E as [E|E]; [auto|right; exists p; split; [now left|exact E]]. }
  destruct (concerned ctor ix p); [|eapply C; [exact H|auto]]. cbn zeta in H. destruct (is_nil rl); [eapply C; [exact H|auto]|]. destruct (_ && _); [discriminate|]. eapply C; [exact H|auto].
Qed.
Lemma lower_none d c f names ps ret : no_lifetimebound f -> lower d c f names = Some (ps, ret) -> ps = params f /\ ret = return_type f.
Proof.
  intros N H. unfold lower in H. destruct (agree _ _ _ _ _) as [[rl has]|] eqn:E; [|discriminate]. destruct has; [|injection H as <- <-; auto]. destruct (agree_has _ _ _ _ _ _ _ E eq_refl) as [Hf|(p & Hp & Bp)]; [discriminate|]. rewrite (N p Hp) in Bp. discriminate.
Qed.

(** Everything about one transformed function.  [sc]: enclosing scope, [own]: the lifetimes of its own binders, [new]:
    the binders added; [ps], [ret]: after lowering Clang annotations; [ps1]: before promoting [this]. *)
Record func_ok (d : db) (f f' : func) (sc : scope) (own : list string) (new : scope) (this_names : list string) (ps : list param) (ret : ty) (ps1 : list param) (zs : list lstate) : Prop := FuncOk {
  o_sc : enclosing_scope (enclosing f) sc;
  o_builtin : exists rest, sc = builtins ++ rest;
  o_inner : innermost (enclosing f) this_names sc;
  o_own : List.length own = List.length (inputs f);
  o_inputs : inputs f' = own ++ map snd new;
  o_nodup : NoDup (map snd ((sc ++ combine (inputs f) own) ++ new));
  o_grow : grow (sc ++ combine (inputs f) own) new;
  o_lower : exists c, rep c (sc ++ combine (inputs f) own) /\ lower d c f this_names = Some (ps, ret);
  o_params : params_ok d ((sc ++ combine (inputs f) own) ++ new) new (constructor f) 0 ps ps1 zs;
  o_fresh : fresh_ok d (constructor f) (sc ++ combine (inputs f) own) 0 ps zs;
  o_values : forall n, In (Single n) zs -> In n (map snd ((sc ++ combine (inputs f) own) ++ new)) /\ n <> "unknown";
  o_params' : params f' = promote (constructor f) ps1;
  o_ret : exists hint, returned d ((sc ++ combine (inputs f) own) ++ new) hint ret (return_type f') /\
    hint = (if is_this_state (constructor f) ps then match zs with z :: _ => match z with Unseen => lifetime_for (fold_states zs) | _ => lifetime_for z end | [] => [] end else lifetime_for (fold_states zs));
  o_same : constructor f' = constructor f /\ enclosing f' = enclosing f }.
Theorem func_transformed d fuel f f' : explicit_arity (enclosing f) -> add_lifetime_to_func d fuel f = Some f' ->
  exists sc own new this_names ps ret ps1 zs, func_ok d f f' sc own new this_names ps ret ps1 zs.
Proof.
  intros A H. unfold add_lifetime_to_func in H. destruct (bind_enclosing new_ctx (enclosing f)) as [[tn c1]|] eqn:E1; [|discriminate]. destruct (bind_enclosing_ok _ A _ _ E1) as (sc & rest & Sc & R1 & Eb & In1).
  destruct (push_all c1 (inputs f)) as [own c2] eqn:E2. destruct (push_all_ok _ _ _ _ _ R1 E2) as [Lo R2]. destruct (lower d c2 f tn) as [[ps ret]|] eqn:E3; [|discriminate].
  destruct (input_params d fuel (constructor f) 0 ps Unseen Unseen (St c2 own)) as [[[[ps1 x] y] s]|] eqn:E4; [|discriminate]. destruct (output_type d fuel _ s ret) as [[ret' s']|] eqn:E5; [|discriminate]. injection H as <-.
  assert (Ku : In "unknown" (map snd (sc ++ combine (inputs f) own))) by (rewrite Eb, !map_app, !in_app_iff; left; left; right; now left).
  destruct (input_params_ok _ _ _ _ _ _ _ (St c2 own) _ _ _ _ _ R2 Ku E4) as (e1 & zs & S1 & P & F & V & _ & U). specialize (U eq_refl).
  destruct (output_type_ok _ _ _ _ _ _ _ _ (s_rep _ _ _ _ S1) E5) as (e2 & S2 & Rt). pose proof (steps_trans _ _ _ _ _ _ S1 S2) as S.
  exists sc, own, (e1 ++ e2), tn, ps, ret, ps1, zs. constructor; cbn [inputs params return_type constructor enclosing]; auto.
  - eauto.
  - rewrite (s_new _ _ _ _ S). reflexivity.
  - apply (r_nodup _ _ (s_rep _ _ _ _ S)).
  - apply S.
  - exists c2. auto.
  - rewrite app_assoc. eapply params_ok_grow; [apply S2|apply incl_appl, incl_refl|exact P].
  - intros n Hn. destruct (V n Hn) as [V1 V2]. split; [|exact V2]. rewrite app_assoc, map_app, in_app_iff. now left.
  - eexists. rewrite app_assoc. split; [exact Rt|]. destruct (is_this_state (constructor f) ps) eqn:Et.
    + destruct U as [Ux (z & zs' & -> & Uy)]. cbn in Ux, Uy. subst x y. destruct z as [| |]; reflexivity.
    + destruct U as [-> ->]. reflexivity.
Qed.
