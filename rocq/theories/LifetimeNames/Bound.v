(** C52 (capture), C54 (unknown lifetimes), C55-C56 (Clang's [[lifetimebound]]). *)
From Coq Require Import List Arith ZArith Bool Lia Strings.String Sorting.Permutation.
From Verif.LifetimeNames Require Import Model Spec Names Transform Func Props.
Import ListNotations.
Local Open Scope string_scope.
Local Open Scope list_scope.

(** * Concrete functions *)
(** Declaration 1 is a view type (one lifetime), declaration 2 has none. *)
Definition views : db := Db (fun id => if Z.eqb id 1 then Some 1 else if Z.eqb id 2 then Some 0 else None) (fun _ => None).
Definition ref (l : list string) : ty := Ty (Pointer LValueRef (Ty Primitive [])) l.
Definition view (l : list string) : ty := Ty (Decl 1 None) l.
Definition free (ps : list param) (ret : ty) (ins : list string) : func := Func false ps ret ins [].
Definition this (k : bool) (pointee : Z) (l : list string) : param := Param "__this" k (Ty (Pointer Nullable (Ty (Decl pointee None) l)) []).
(** [int& f(int& x)]: one lifetime, shared with the result. *)
Example elided : add_lifetime_to_func views 5 (free [Param "x" false (ref [])] (ref []) []) = Some (free [Param "x" false (ref ["x"])] (ref ["x"]) ["x"]).
Proof. reflexivity. Qed.
(** Two lifetimes: the result becomes a pointer. *)
Example ambiguous : add_lifetime_to_func views 5 (free [Param "x" false (ref []); Param "y" false (ref [])] (ref []) [])
  = Some (free [Param "x" false (ref ["x"]); Param "y" false (ref ["y"])] (Ty (Pointer NonNull (Ty Primitive [])) []) ["x"; "y"]).
Proof. reflexivity. Qed.
(** A member function with a binder of the record's name: renamed; the result borrows from [this]. *)
Definition member : func := Func false [this false 2 []; Param "y" false (view ["a"])] (ref []) ["a"] [IRecord ["a"] (Some 1)].
Definition member' : func := Func false [Param "__this" false (Ty (Pointer LValueRef (Ty (Decl 2 None) [])) ["__this"]); Param "y" false (view ["a_0"])] (ref ["__this"]) ["a_0"; "__this"] [IRecord ["a"] (Some 1)].
Example member_renamed : add_lifetime_to_func views 5 member = Some member'.
Proof. reflexivity. Qed.
(** The hypotheses of the theorems of Props.v hold of it. *)
Example member_meets : explicit_arity (enclosing member) /\ no_lifetimebound member /\ this_at member 0 = true /\ takes_lifetime views false (return_type member) /\
  takes_lifetime views (this_at member 0) (ptype (this false 2 [])) /\ takes_lifetime views (this_at member 1) (view ["a"]) /\
  inputs member = [] ++ "a" :: [] /\ (exists sc, enclosing_scope (enclosing member) sc).
Proof.
  split; [intros ins a [E|[]]; injection E as <- <-; reflexivity|]. split; [intros p [<-|[<-|[]]]; reflexivity|]. split; [reflexivity|]. split; [now right|]. split; [now left|]. split; [reflexivity|]. split; [reflexivity|].
  eexists. eapply ERecord; [constructor|reflexivity].
Qed.

(** C52, refuted part: a name nothing binds should not be captured by a lifetime invented for another parameter; but the
    lifetime invented for a parameter [x] captures a later annotation ['x].  In the other order they differ. *)
Theorem C52_no_capture_refuted : exists f f', no_lifetimebound f /\ enclosing f = [] /\ inputs f = [] /\ add_lifetime_to_func views 5 f = Some f' /\
  param_types f f' 0 (ref []) (ref ["x"]) /\ param_types f f' 1 (ref ["x"]) (ref ["x"]).
Proof.
  exists (free [Param "x" false (ref []); Param "y" false (ref ["x"])] (ref []) []). eexists. split; [intros p [<-|[<-|[]]]; reflexivity|]. split; [reflexivity|]. split; [reflexivity|]. split; [reflexivity|]. split; do 2 eexists; repeat (split; [reflexivity|]); reflexivity.
Qed.
Print Assumptions C52_no_capture_refuted.
Example not_captured_in_other_order : add_lifetime_to_func views 5 (free [Param "y" false (ref ["x"]); Param "x" false (ref [])] (ref []) [])
  = Some (free [Param "y" false (ref ["x"]); Param "x" false (ref ["x_0"])] (Ty (Pointer NonNull (Ty Primitive [])) []) ["x"; "x_0"]).
Proof. reflexivity. Qed.
(** C52, refuted part: annotations of rvalue references are not resolved.  In a record that binds ['a], a function that binds
    its own ['a] and uses it twice gets two different lifetimes: its own and the record's. *)
Theorem C52_rvalue_references_refuted : exists f f' t, no_lifetimebound f /\ explicit_arity (enclosing f) /\ inputs f = ["a"] /\ add_lifetime_to_func views 5 f = Some f' /\
  enclosing_scope (enclosing f) [("static", "static"); ("unknown", "unknown"); ("a", "a")] /\ inputs f' = ["a_0"; "__this"] /\
  param_types f f' 1 (ref ["a"]) (ref ["a_0"]) /\ param_types f f' 2 t t /\ t = Ty (Pointer RValueRef (Ty Primitive [])) ["a"].
Proof.
  exists (Func false [this false 2 []; Param "x" false (ref ["a"]); Param "y" false (Ty (Pointer RValueRef (Ty Primitive [])) ["a"])] (Ty Primitive []) ["a"] [IRecord ["a"] (Some 1)]). do 2 eexists.
  split; [intros p [<-|[<-|[<-|[]]]]; reflexivity|]. split; [intros ins a [E|[]]; injection E as <- <-; reflexivity|]. split; [reflexivity|]. split; [reflexivity|].
  split; [exact (ERecord ["a"] 1 ["a"] [] _ ENone eq_refl)|]. split; [reflexivity|]. split; [|split; [|reflexivity]]; do 2 eexists; repeat (split; [reflexivity|]); reflexivity.
Qed.
Print Assumptions C52_rvalue_references_refuted.

(** C54, refuted parts: a parameter reference annotated ['unknown] stays a reference and has no lifetime; and a returned
    one keeps ['unknown], which nothing binds. *)
Theorem C54_unknown_reference_refuted : exists f f', no_lifetimebound f /\ enclosing f = [] /\ add_lifetime_to_func views 5 f = Some f' /\ inputs f' = [] /\
  param_types f f' 0 (ref ["unknown"]) (ref []) /\ return_type f' = ref ["unknown"].
Proof.
  exists (free [Param "x" false (ref ["unknown"])] (ref ["unknown"]) []). eexists. split; [intros p [<-|[]]; reflexivity|]. split; [reflexivity|]. split; [reflexivity|]. split; [reflexivity|]. split; [|reflexivity]. do 2 eexists. repeat (split; [reflexivity|]). reflexivity.
Qed.
Print Assumptions C54_unknown_reference_refuted.

(** * Lowering *)
Lemma agree_origin ctor ps : forall ix rl has rl' has', agree ctor ix ps rl has = Some (rl', has') ->
  (rl' = rl \/ exists i p, nth_error ps i = Some p /\ concerned ctor (ix + i) p = true /\ rl' = lifetimes (ptype p)) /\
  (has' = false -> forall p, In p ps -> bound p = false).
Proof.
  induction ps as [|p ps IH]; intros ix rl has rl' has' H; cbn [agree] in H; [injection H as <- <-; split; [auto|intros _ q []]|].
  assert (C : forall rl0 h0, agree ctor (S ix) ps rl0 h0 = Some (rl', has') -> (rl0 = rl \/ concerned ctor ix p = true /\ rl0 = lifetimes (ptype p)) -> (bound p = true -> h0 = true) ->
    (rl' = rl \/ exists i q, nth_error (p :: ps) i = Some q /\ concerned ctor (ix + i) q = true /\ rl' = lifetimes (ptype q)) /\ (has' = false -> forall q, In q (p :: ps) -> bound q = false)).
  { intros rl0 h0 H0 O Hb. destruct (IH _ _ _ _ _ H0) as [O' Hh]. split.
    - destruct O' as [->|(i & q & Eq & Cq & El)]; [destruct O as [->|[Cp ->]]; [now left|]|].
      + right. exists 0, p. rewrite Nat.add_0_r. auto.
      + right. exists (S i), q. replace (ix + S i) with (S ix + i) by lia. auto.
    - intros E q [<-|Hq]; [|auto]. destruct (bound p); [|reflexivity]. rewrite (Hb eq_refl) in H0. exfalso. clear - H0 E. revert H0. generalize (S ix). revert rl0. induction ps as [|r ps IH2]; intros rl0 k H0; cbn [agree] in H0; [injection H0 as _ <-; discriminate|]. destruct (concerned ctor k r); [|eauto]. cbn [orb] in H0. destruct (is_nil rl0); [eauto|]. destruct (_ && _); [discriminate|eauto]. }
  destruct (concerned ctor ix p) eqn:Cp.
  - cbn zeta in H. assert (Hb : bound p = true -> has || bound p = true) by (intros ->; apply orb_true_r). destruct (is_nil rl); [eapply C; [exact H|right; auto|exact Hb]|]. destruct (_ && _); [discriminate|]. eapply C; [exact H|now left|exact Hb].
  - eapply C; [exact H|now left|]. intro Hb. unfold concerned in Cp. rewrite Hb in Cp. discriminate.
Qed.
(** A parameter after lowering. *)
Definition lowered (ctor member : bool) (tn rl : list string) (i : nat) (p q : param) : Prop :=
  ident q = ident p /\ bound q = bound p /\
  if concerned ctor i p then
    if member && Nat.eqb i 0 && negb (is_nil tn) then exists k v l, ptype p = Ty (Pointer k v) l /\ ptype q = Ty (Pointer k (set_lifetimes v rl)) l
    else ptype q = set_lifetimes (ptype p) rl
  else q = p.
Lemma annotate_ok ctor member tn rl ps : forall ix ps', annotate ctor member tn rl ix ps = Some ps' ->
  forall i p, nth_error ps i = Some p -> exists q, nth_error ps' i = Some q /\ lowered ctor member tn rl (ix + i) p q.
Proof.
  induction ps as [|p ps IH]; intros ix ps' H i r Er; [destruct i; discriminate|]. cbn [annotate] in H.
  destruct (if concerned ctor ix p then _ else _) as [p'|] eqn:E; [|discriminate]. destruct (annotate ctor member tn rl (S ix) ps) as [r'|] eqn:E2; [|discriminate]. injection H as <-. destruct i as [|i]; cbn in Er |- *.
  - injection Er as <-. exists p'. split; [reflexivity|]. rewrite Nat.add_0_r. unfold lowered. destruct (concerned ctor ix p); [|injection E as <-; auto]. destruct (member && Nat.eqb ix 0 && negb (is_nil tn)); [|injection E as <-; auto].
    unfold inject in E. destruct p as [pi pb [[id a|k v| | |] l]]; cbn [ptype ident bound] in *; try discriminate. destruct (_ && _); [discriminate|]. injection E as <-. cbn. split; [reflexivity|]. split; [reflexivity|]. exists k, v, l. auto.
  - destruct (IH _ _ E2 i r Er) as (q & Eq & L). exists q. replace (ix + S i) with (S ix + i) by lia. auto.
Qed.
(** Where the lifetime that lowering writes comes from. *)
Definition origin (d : db) (c : ctx) (f : func) (tn rl : list string) : Prop :=
  rl = lifetimes (return_type f) \/ (exists i p, nth_error (params f) i = Some p /\ concerned (constructor f) i p = true /\ rl = lifetimes (ptype p)) \/
  rl = tn \/ (constructor f = false /\ (rl = [fresh_name_for c "__this"] \/ exists n, lifetime_arity d (return_type f) = Some n /\ rl = repeat (fresh_name_for c "__rv") n)).
Lemma lower_ok d c f tn ps ret : (exists p, In p (params f) /\ bound p = true) -> lower d c f tn = Some (ps, ret) ->
  exists rl, origin d c f tn rl /\ (rl = [] -> if constructor f then tn = [] else lifetime_arity d (return_type f) = Some 0) /\
  (forall i p, nth_error (params f) i = Some p -> exists q, nth_error ps i = Some q /\ lowered (constructor f) (match params f with this :: _ => is_this_param this | [] => false end) tn rl i p q) /\
  if constructor f then ret = return_type f else exists n, lifetime_arity d (return_type f) = Some n /\ ret = set_lifetimes (return_type f) (if Nat.eqb n (List.length rl) then rl else []).
Proof.
  intros (pb & Hpb & Bpb) H. unfold lower in H. destruct (agree (constructor f) 0 (params f) (lifetimes (return_type f)) false) as [[rl has]|] eqn:E; [|discriminate]. destruct (agree_origin _ _ _ _ _ _ _ E) as [O Hh]. destruct has; [|rewrite (Hh eq_refl pb Hpb) in Bpb; discriminate].
  destruct (params f) as [|this r] eqn:Ep; [destruct Hpb|]. cbn zeta in H.
  match type of H with (match ?m with Some _ => _ | None => _ end) = _ => destruct m as [rl2|] eqn:Em; [|discriminate] end.
  destruct (annotate (constructor f) (is_this_param this) tn rl2 0 (this :: r)) as [ps0|] eqn:Ea; [|discriminate]. pose proof (annotate_ok _ _ _ _ _ _ _ Ea) as An.
  assert (Or : origin d c f tn rl2).
  { unfold origin. rewrite Ep. destruct (is_nil rl) eqn:En.
    - destruct (constructor f) eqn:Ec; [injection Em as <-; auto|]. destruct (is_this_param this && bound this) eqn:Eb.
      + destruct (negb (is_nil tn)); [injection Em as <-; auto|]. destruct (negb (is_nil (lifetimes (ptype this)))); [|injection Em as <-; right; right; right; auto]. injection Em as <-. right. left. exists 0, this. split; [reflexivity|]. split; [|reflexivity]. apply andb_prop in Eb as [_ Eb]. unfold concerned. now rewrite Eb.
      + destruct (lifetime_arity d (return_type f)) as [n|]; [|discriminate]. injection Em as <-. right. right. right. split; [reflexivity|]. right. exists n. auto.
    - injection Em as <-. destruct O as [->|O]; [now left|right; left; exact O]. }
  exists rl2. split; [exact Or|]. split.
  { intros ->. destruct (is_nil rl) eqn:En; [|injection Em as ->; discriminate]. destruct (constructor f); [now injection Em as ->|]. destruct (is_this_param this && bound this).
    - destruct tn; cbn in Em; [|discriminate]. destruct (lifetimes (ptype this)); cbn in Em; discriminate.
    - destruct (lifetime_arity d (return_type f)) as [[|n]|]; [reflexivity|discriminate|discriminate]. }
  destruct (constructor f) eqn:Ec.
  - injection H as <- <-. split; [exact An|reflexivity].
  - destruct (lifetime_arity d (return_type f)) as [n|]; [|discriminate]. injection H as <- <-. split; [exact An|eauto].
Qed.
Lemma takes_set d b t l : takes d b (set_lifetimes t l) = takes d b t.
Proof. destruct t as [[] ]; reflexivity. Qed.
Lemma lifetimes_set t l : lifetimes (set_lifetimes t l) = l.
Proof. now destruct t. Qed.
(** C55: with [[lifetimebound]] parameters, the result has the lifetime that all of them lend. *)
Theorem C55_lifetimebound d fuel f f' n : explicit_arity (enclosing f) -> add_lifetime_to_func d fuel f = Some f' -> constructor f = false ->
  (exists p, In p (params f) /\ bound p = true) -> takes_lifetime d false (return_type f) -> plainly_annotated f -> record_lifetimes f n -> n <= 1 ->
  exists l, lifetimes (return_type f') = [l] /\ forall i p p', nth_error (params f) i = Some p -> bound p = true -> nth_error (params f') i = Some p' ->
  lent d (Nat.eqb n 1) (this_at f i) (ptype p) (ptype p') l.
Proof.
  intros A H Ec Hb Tr [Pr Pp] Rn Ln. destruct (func_transformed _ _ _ _ A H) as (sc & own & new & tn & ps & ret & ps1 & zs & O). destruct (o_lower _ _ _ _ _ _ _ _ _ _ _ O) as (c & R & Lw). destruct (lower_ok _ _ _ _ _ _ Hb Lw) as (rl & Or & Ne & Lo & Lr). rewrite Ec in Lr. destruct Lr as (ar & Ear & Eret).
  set (full := (sc ++ combine (inputs f) own) ++ new) in *.
  assert (Far : ar = 1). { apply takes_spec in Tr. destruct (return_type f) as [[id a|k p| | |] l0]; cbn in Ear, Tr; try discriminate; [unfold binds in Tr; destruct (decl_arity d id) as [[|[|m]]|]; try discriminate; congruence|congruence]. } subst ar.
  assert (Tn : List.length tn = n).
  { pose proof (o_inner _ _ _ _ _ _ _ _ _ _ _ O) as I. unfold record_lifetimes in Rn. unfold innermost in I. destruct (enclosing f) as [|[ins|ins [m|]|] outer] eqn:En; try (subst; reflexivity).
    - injection Rn as <-. destruct I as (sc0 & _ & L). rewrite L. destruct ins as [|x ins]; cbn [record_binders]; [apply repeat_length|]. specialize (A (x :: ins) (Some m) (or_introl eq_refl) ltac:(discriminate)). injection A as ->. reflexivity.
    - discriminate. }
  assert (Uk : In ("unknown", "unknown") full) by (destruct (o_builtin _ _ _ _ _ _ _ _ _ _ _ O) as [rest Er]; unfold full; rewrite Er; right; now left).
  assert (Fu : forall h, fresh_name_for c h <> "unknown"). { intros h E. destruct (rep_fresh_key c _ h R) as [_ F]. apply F. rewrite E. destruct (o_builtin _ _ _ _ _ _ _ _ _ _ _ O) as [rest Er]. rewrite Er. right. now left. }
  assert (Nd : NoDup (map snd full)) by apply O.
  assert (X : exists x, rl = [x] /\ x <> "unknown").
  { assert (X : rl = [] \/ exists x, rl = [x] /\ x <> "unknown"); [|destruct X as [->|X]; [specialize (Ne eq_refl); rewrite Ec in Ne; congruence|exact X]].
    destruct Or as [->|[(i & p & Ep & Cp & ->)|[->|[_ [->|(m & Em & ->)]]]]].
    - exact Pr.
    - apply Pp; [eapply nth_error_In; exact Ep|]. unfold concerned in Cp. rewrite Ec in Cp. cbn in Cp. now rewrite orb_false_r in Cp.
    - destruct tn as [|x [|y tn]]; [now left| |cbn in Tn; lia]. right. exists x. split; [reflexivity|]. intros ->.
      pose proof (o_inner _ _ _ _ _ _ _ _ _ _ _ O) as I. unfold innermost in I. destruct (enclosing f) as [|[ins|ins [m|]|] outer]; try discriminate. destruct I as (sc0 & Es & L).
      unfold full in Nd. rewrite Es in Nd. cbn [builtins app map snd] in Nd. inversion Nd as [|? ? _ Nd2]; subst. inversion Nd2 as [|? ? Nu _]; subst. apply Nu. rewrite !map_app, !in_app_iff. left. left. right. rewrite combine_snd by exact L. now left.
    - right. eexists. split; [reflexivity|]. apply Fu.
    - rewrite Ear in Em. injection Em as <-. right. eexists. split; [reflexivity|]. apply Fu. }
  destruct X as (x & -> & Nx). cbn [List.length Nat.eqb] in Eret.
  assert (Nu : forall m, bound_to full x m -> String.eqb m "unknown" = false). { intros m B. apply String.eqb_neq. intros ->. apply Nx. eapply nodup_snd_inj; [exact Nd|apply bound_in; exact B|exact Uk]. }
  destruct (o_ret _ _ _ _ _ _ _ _ _ _ _ O) as (hint & Rt & _). fold full in Rt. rewrite Eret in Rt.
  assert (Q : exists m, bound_to full x m /\ lifetimes (return_type f') = [m]).
  { apply takes_spec in Tr. destruct (return_type f) as [[id a|k p| | |] l0]; cbn in Tr; try discriminate; cbn [set_lifetimes returned] in Rt.
    - rewrite Tr in Rt. destruct Rt as (a' & r & F & ->). inversion F as [|? m ? ? B F2]; subst. inversion F2; subst. exists m. split; [exact B|]. cbn [mem lifetimes]. rewrite String.eqb_sym, (Nu m B). reflexivity.
    - destruct k; try discriminate. destruct Rt as (r & F & ->). inversion F as [|? m ? ? B F2]; subst. inversion F2; subst. exists m. auto. }
  destruct Q as (m & B & Er). exists m. split; [exact Er|]. intros i p p' Ep Bp Ep'. destruct (Lo i p Ep) as (q & Eq & Hi & Hb2 & L). unfold concerned in L. rewrite Bp in L. cbn [orb] in L.
  destruct (params_nth _ _ _ _ _ _ _ _ _ _ (o_params _ _ _ _ _ _ _ _ _ _ _ O) Eq) as (q1 & z & Eq1 & Ez & P). rewrite (o_params' _ _ _ _ _ _ _ _ _ _ _ O) in Ep'. destruct (promote_nth _ _ _ _ Ep') as (q' & Eq' & Lq & K). assert (q' = q1) by congruence. subst q'. cbn [Nat.add] in P. fold full in P. destruct P as (Hi1 & Hb1 & Hh & P).
  assert (Ti : this_at f i = this_ix (constructor f) i q). { rewrite (this_at_ix f p i Ep). unfold this_ix, is_this_param. now rewrite Hi. }
  assert (Db : forall z0, decided full new [x] z0 -> lifetime_for z0 = [m]). { intros z0 (m0 & B0 & ->). rewrite (bound_unique _ _ _ _ B0 B). rewrite (Nu m B). reflexivity. }
  assert (Mi : (match params f with this0 :: _ => is_this_param this0 | [] => false end) && Nat.eqb i 0 = this_at f i).
  { unfold this_at. rewrite Ec. cbn [negb]. destruct i as [|i]; [|cbn; now rewrite andb_false_r]. destruct (params f); [reflexivity|]. cbn. now rewrite !andb_true_r. }
  rewrite Mi in L. assert (Nil : negb (is_nil tn) = Nat.eqb n 1) by (rewrite <- Tn; destruct tn as [|? [|? ?]]; [reflexivity|reflexivity|cbn in Tn; lia]). rewrite Nil, andb_comm in L. unfold lent. destruct (Nat.eqb n 1 && this_at f i) eqn:Ev.
  - destruct L as (k0 & v0 & l0 & Ep0 & Eq0). apply andb_prop in Ev as [_ Ev]. intros k v l k' v' l' E1 E2 Tv. rewrite E1 in Ep0. injection Ep0 as <- <- <-. rewrite <- Ti, Ev, Eq0 in P. cbn [takes orb] in P. destruct P as (_ & _ & Pt).
    assert (Ev' : exists k2 l2, ptype q1 = Ty (Pointer k2 v') l2). { destruct K as [->|(_ & _ & k2 & v2 & l2 & ls & K1 & K2)]; [eauto|]. rewrite E2 in K2. injection K2 as _ <- _. eauto. }
    destruct Ev' as (k2 & l2 & E3). rewrite E3 in Pt. cbn [pointee_ok] in Pt. destruct Pt as [_ Pt]. rewrite takes_set in Pt. apply takes_spec in Tv. rewrite Tv, lifetimes_set in Pt. destruct Pt as (z0 & D & ->). now apply Db.
  - intro Tp. apply takes_spec in Tp. rewrite <- Ti, L, takes_set, Tp, lifetimes_set in P. destruct P as (D & E & _). rewrite Lq, E. now apply Db.
Qed.
Print Assumptions C55_lifetimebound.
(** [int& f(int& x [[lifetimebound]], View y [[lifetimebound]], int& z)]. *)
Definition borrowing : func := free [Param "x" true (ref []); Param "y" true (view []); Param "z" false (ref [])] (ref []) [].
Example borrowing_transformed : add_lifetime_to_func views 5 borrowing
  = Some (free [Param "x" true (ref ["__rv"]); Param "y" true (view ["__rv"]); Param "z" false (ref ["z"])] (ref ["__rv"]) ["__rv"; "z"]).
Proof. reflexivity. Qed.
Example borrowing_meets : (exists p, In p (params borrowing) /\ bound p = true) /\ takes_lifetime views false (return_type borrowing) /\ plainly_annotated borrowing /\ record_lifetimes borrowing 0.
Proof. split; [eexists; split; [now left|reflexivity]|]. split; [now right|]. split; [|reflexivity]. split; [now left|]. intros p [<-|[<-|[<-|[]]]] _; now left. Qed.
(** A member of a view type. *)
Definition view_member : func := Func false [this true 1 []] (view []) [] [IRecord ["a"] (Some 1)].
Example view_member_transformed : add_lifetime_to_func views 5 view_member
  = Some (Func false [Param "__this" true (Ty (Pointer LValueRef (view ["a"])) ["__this"])] (view ["a"]) ["__this"] [IRecord ["a"] (Some 1)]).
Proof. reflexivity. Qed.
Example view_member_meets : (exists p, In p (params view_member) /\ bound p = true) /\ takes_lifetime views false (return_type view_member) /\ plainly_annotated view_member /\ record_lifetimes view_member 1.
Proof. split; [eexists; split; [now left|reflexivity]|]. split; [reflexivity|]. split; [|reflexivity]. split; [now left|]. intros p [<-|[]] _; now left. Qed.

(** * Constructors (C56) *)
(** C56, partial: when the record's lifetime has not been renamed and the constructor does not bind its name, what
    [[lifetimebound]] parameters of the constructor lend is the lifetime of the constructed object. *)
Theorem C56_constructor_partial d fuel f f' ins outer x : explicit_arity (enclosing f) -> add_lifetime_to_func d fuel f = Some f' -> constructor f = true ->
  enclosing f = IRecord ins (Some 1) :: outer -> record_binders ins 1 = [x] -> add_lifetime_to_record ins (Some 1) outer = Some [x] -> ~ In x (inputs f) ->
  (exists p, In p (params f) /\ bound p = true) -> lifetimes (return_type f) = [] -> (forall i p, nth_error (params f) i = Some p -> i = 0 \/ bound p = true -> lifetimes (ptype p) = []) ->
  (forall i p p', nth_error (params f) i = Some p -> bound p = true -> nth_error (params f') i = Some p' -> is_this_param p = false -> takes_lifetime d false (ptype p) -> lifetimes (ptype p') = [x]) /\
  (forall p p' k v l, nth_error (params f) 0 = Some p -> nth_error (params f') 0 = Some p' -> is_this_param p = true -> ptype p = Ty (Pointer k v) l -> k <> LValueRef -> ptype p' = Ty (Pointer k (set_lifetimes v [x])) l).
Proof.
  intros A H Ec En Rb Rr Nx Hb Lr Lp. destruct (func_transformed _ _ _ _ A H) as (sc & own & new & tn & ps & ret & ps1 & zs & O). destruct (o_lower _ _ _ _ _ _ _ _ _ _ _ O) as (c & R & Lw). destruct (lower_ok _ _ _ _ _ _ Hb Lw) as (rl & Or & Ne & Lo & _).
  pose proof (o_inner _ _ _ _ _ _ _ _ _ _ _ O) as I. rewrite En in I. cbn [innermost] in I. rewrite Rb in I. destruct I as (sc0 & Es & Lt). destruct tn as [|y [|y2 tn]]; try discriminate.
  assert (y = x).
  { pose proof (o_sc _ _ _ _ _ _ _ _ _ _ _ O) as Q. rewrite En in Q. inversion Q as [| | |? ? ns ? sc1 Q1 Q2]; subst. rewrite Rr in Q2. injection Q2 as <-. rewrite Rb in *. match goal with E : _ = builtins ++ sc0 ++ combine [x] [y] |- _ => rewrite app_assoc in E; cbn [combine] in E; apply app_inj_tail in E as [_ E]; congruence end. }
  subst y. cbn [combine] in Es. set (full := (sc ++ combine (inputs f) own) ++ new) in *.
  assert (B : bound_to full x x).
  { apply bound_grow; [apply O|]. exists (builtins ++ sc0), (combine (inputs f) own). split; [rewrite Es, <- !app_assoc; reflexivity|]. rewrite combine_fst by apply O. exact Nx. }
  assert (Xu : String.eqb x "unknown" = false).
  { apply String.eqb_neq. intros ->. pose proof (o_nodup _ _ _ _ _ _ _ _ _ _ _ O) as Nd. rewrite Es in Nd. cbn [builtins app map snd] in Nd. inversion Nd as [|? ? _ Nd2]; subst. inversion Nd2 as [|? ? Nu _]; subst. apply Nu. rewrite !map_app, !in_app_iff. left. left. right. now left. }
  assert (rl = [x]).
  { assert (E : rl <> []) by (intros ->; specialize (Ne eq_refl); rewrite Ec in Ne; discriminate). destruct Or as [->|[(i & p & Ep & Cp & ->)|[->|[Ec2 _]]]]; [contradiction| |reflexivity|congruence]. exfalso. apply E. apply (Lp i p Ep). unfold concerned in Cp. apply orb_prop in Cp as [Cp|Cp]; [now right|]. apply andb_prop in Cp as [_ Cp]. left. now apply Nat.eqb_eq. }
  subst rl. clear Or Ne.
  assert (Pm : forall i p', nth_error (params f') i = Some p' -> nth_error ps1 i = Some p') by (intros i p'; rewrite (o_params' _ _ _ _ _ _ _ _ _ _ _ O), Ec; destruct ps1 as [|q1 r1]; [auto|]; cbn [promote negb]; now rewrite andb_false_r).
  assert (Ti : forall i p, this_ix (constructor f) i p = false) by (intros i p; unfold this_ix; rewrite Ec; cbn; now rewrite andb_false_r).
  split.
  - intros i p p' Ep Bp Ep' Np Tp. destruct (Lo i p Ep) as (q & Eq & Hi & Hb2 & L). unfold concerned in L. rewrite Bp in L. cbn [orb] in L.
    destruct (params_nth _ _ _ _ _ _ _ _ _ _ (o_params _ _ _ _ _ _ _ _ _ _ _ O) Eq) as (q1 & z & Eq1 & Ez & _ & _ & _ & P). pose proof (Pm i p' Ep') as E1. assert (q1 = p') by congruence. subst q1. rewrite Ti in P.
    assert (Mi : (match params f with this0 :: _ => is_this_param this0 | [] => false end) && Nat.eqb i 0 = false). { destruct i as [|i]; [|now rewrite andb_false_r]. destruct (params f) as [|p0 r0]; [reflexivity|]. cbn in Ep. injection Ep as ->. now rewrite Np. }
    rewrite Mi in L. cbn [andb] in L. apply takes_spec in Tp. rewrite L, takes_set, Tp, lifetimes_set in P. destruct P as ((m & Bm & ->) & E & _). fold full in Bm. rewrite E, (bound_unique _ _ _ _ Bm B), Xu. reflexivity.
  - intros p p' k v l Ep Ep' Tp Et Nk. destruct (Lo 0 p Ep) as (q & Eq & Hi & Hb2 & L). unfold concerned in L. rewrite Ec, orb_true_r in L. destruct (params f) as [|p0 r0]; [discriminate|]. cbn in Ep. injection Ep as ->. rewrite Tp in L. cbn in L. destruct L as (k0 & v0 & l0 & E0 & Eq0). rewrite Et in E0. injection E0 as <- <- <-.
    destruct (params_nth _ _ _ _ _ _ _ _ _ _ (o_params _ _ _ _ _ _ _ _ _ _ _ O) Eq) as (q1 & z & Eq1 & Ez & _ & _ & _ & P). pose proof (Pm 0 p' Ep') as E1. assert (q1 = p') by congruence. subst q1. rewrite Ti, Eq0 in P. destruct k; [congruence| | | |]; cbn in P; destruct P as [_ ->]; reflexivity.
Qed.
Print Assumptions C56_constructor_partial.
Definition ctor (own : list string) (outer : list item) : func := Func true [this false 1 []; Param "x" true (ref [])] (Ty Primitive []) own (IRecord ["a"] (Some 1) :: outer).
Example ctor_transformed : add_lifetime_to_func views 5 (ctor [] [])
  = Some (Func true [this false 1 ["a"]; Param "x" true (ref ["a"])] (Ty Primitive []) [] [IRecord ["a"] (Some 1)]).
Proof. reflexivity. Qed.
Example ctor_meets : explicit_arity (enclosing (ctor [] [])) /\ record_binders ["a"] 1 = ["a"] /\ add_lifetime_to_record ["a"] (Some 1) [] = Some ["a"] /\
  (forall i p, nth_error (params (ctor [] [])) i = Some p -> i = 0 \/ bound p = true -> lifetimes (ptype p) = []).
Proof. split; [intros ins a [E|[]]; injection E as <- <-; reflexivity|]. split; [reflexivity|]. split; [reflexivity|]. intros [|[|[|i]]] p E; cbn in E; try discriminate; injection E as <-; reflexivity. Qed.
(** C56, refuted in general: in a nested record with the outer record's binder name, or in a constructor with a binder of
    the record's name, the object keeps the record's lifetime and the parameter gets one that is unrelated to it. *)
Definition unrelated (f f' : func) : Prop := exists x y, param_types f f' 0 (Ty (Pointer Nullable (view [])) []) (Ty (Pointer Nullable (view [x])) []) /\
  param_types f f' 1 (ref []) (ref [y]) /\ x <> y /\ inputs f' = [y].
Theorem C56_nested_record_refuted : exists f f', f = ctor [] [IRecord ["a"] (Some 1)] /\ add_lifetime_to_func views 5 f = Some f' /\ unrelated f f'.
Proof. do 2 eexists. split; [reflexivity|]. split; [reflexivity|]. exists "a_0", "a_0_0". repeat (split; [first [do 2 eexists; repeat (split; [reflexivity|]); reflexivity|discriminate]|]). reflexivity. Qed.
Print Assumptions C56_nested_record_refuted.
Theorem C56_own_binder_refuted : exists f f', f = ctor ["a"] [] /\ add_lifetime_to_func views 5 f = Some f' /\ unrelated f f'.
Proof. do 2 eexists. split; [reflexivity|]. split; [reflexivity|]. exists "a", "a_0". repeat (split; [first [do 2 eexists; repeat (split; [reflexivity|]); reflexivity|discriminate]|]). reflexivity. Qed.
Print Assumptions C56_own_binder_refuted.

(** C55: contradictory annotations are rejected: marked parameters (and the result) that are annotated differently. *)
Lemma agree_all ctor ps : forall ix rl has rl' has', agree ctor ix ps rl has = Some (rl', has') ->
  (rl <> [] -> rl' = rl) /\ forall p, In p ps -> bound p = true -> lifetimes (ptype p) = [] \/ lifetimes (ptype p) = rl'.
Proof.
  induction ps as [|p ps IH]; intros ix rl has rl' has' H; cbn [agree] in H; [injection H as <- <-; split; [auto|intros q []]|]. destruct (concerned ctor ix p) eqn:Cp.
  - cbn zeta in H. destruct rl as [|x rl]; cbn [is_nil] in H.
    + destruct (IH _ _ _ _ _ H) as [I1 I2]. split; [congruence|]. intros q [<-|Hq] Bq; [|auto]. destruct (lifetimes (ptype p)); [now left|right; symmetry; apply I1; discriminate].
    + destruct (negb (is_nil (lifetimes (ptype p))) && negb (list_eqb (lifetimes (ptype p)) (x :: rl))) eqn:E; [discriminate|]. destruct (IH _ _ _ _ _ H) as [I1 I2]. specialize (I1 ltac:(discriminate)). subst rl'. split; [auto|]. intros q [<-|Hq] Bq; [|auto]. destruct (lifetimes (ptype p)) as [|y l]; [now left|right]. cbn [is_nil negb andb] in E. unfold list_eqb in E. destruct (list_eq_dec string_dec (y :: l) (x :: rl)); [assumption|discriminate].
  - destruct (IH _ _ _ _ _ H) as [I1 I2]. split; [exact I1|]. intros q [<-|Hq] Bq; [|auto]. unfold concerned in Cp. rewrite Bq in Cp. discriminate.
Qed.
Theorem C55_contradictions_rejected d fuel f p q : In p (params f) -> bound p = true -> lifetimes (ptype p) <> [] ->
  (In q (params f) /\ bound q = true /\ lifetimes (ptype q) <> [] /\ lifetimes (ptype q) <> lifetimes (ptype p) \/ lifetimes (return_type f) <> [] /\ lifetimes (return_type f) <> lifetimes (ptype p)) ->
  add_lifetime_to_func d fuel f = None.
Proof.
  intros Hp Bp Np Hq. unfold add_lifetime_to_func. destruct (bind_enclosing new_ctx (enclosing f)) as [[tn c1]|]; [|reflexivity]. destruct (push_all c1 (inputs f)) as [own c2]. unfold lower. destruct (agree (constructor f) 0 (params f) (lifetimes (return_type f)) false) as [[rl has]|] eqn:E; [|reflexivity]. exfalso. destruct (agree_all _ _ _ _ _ _ _ E) as [A1 A2]. destruct (A2 p Hp Bp) as [|Ep]; [contradiction|].
  destruct Hq as [(Hq & Bq & Nq & Dq)|[Nr Dr]]; [destruct (A2 q Hq Bq) as [|Eq]; [contradiction|congruence]|]. specialize (A1 Nr). congruence.
Qed.
Print Assumptions C55_contradictions_rejected.
Example contradiction_met : add_lifetime_to_func views 5 (free [Param "x" true (ref ["a"]); Param "y" true (ref ["b"])] (ref []) []) = None.
Proof. reflexivity. Qed.
(** C53: [this] becomes a reference exactly when it has a lifetime. *)
Theorem C53_this_becomes_reference d fuel f f' k v l t' : explicit_arity (enclosing f) -> no_lifetimebound f -> add_lifetime_to_func d fuel f = Some f' ->
  this_at f 0 = true -> param_types f f' 0 (Ty (Pointer k v) l) t' -> exists k' v', t' = Ty (Pointer k' v') (lifetimes t') /\ k' = (match lifetimes t' with [] => k | _ => LValueRef end).
Proof.
  intros A Nb H Th (p & p' & Ep & Ep' & Et & ->). destruct (func_transformed _ _ _ _ A H) as (sc & own & new & tn & ps & ret & ps1 & zs & O). destruct (o_lower _ _ _ _ _ _ _ _ _ _ _ O) as (c & _ & Lw). destruct (lower_none _ _ _ _ _ _ Nb Lw) as [-> _].
  destruct (params_nth _ _ _ _ _ _ _ _ _ _ (o_params _ _ _ _ _ _ _ _ _ _ _ O) Ep) as (q1 & z & Eq1 & Ez & Hi & Hb1 & Hh & P). rewrite <- Et in Hh. rewrite (o_params' _ _ _ _ _ _ _ _ _ _ _ O) in Ep'. assert (Tq : is_this_param q1 && negb (constructor f) = true). { unfold is_this_param. rewrite Hi. unfold this_at in Th. destruct (params f) as [|p0 r]; [discriminate|]. cbn in Ep. now injection Ep as ->. }
  destruct ps1 as [|q0 r1]; [discriminate|]. cbn in Eq1. injection Eq1 as ->. cbn [promote] in Ep'. rewrite Tq in Ep'. destruct q1 as [qi qb [[id a|k1 v1| | |] l1]]; cbn in Hh; try contradiction; try discriminate. subst k1. cbn [ptype ident bound] in Ep'. destruct l1 as [|l0 ls]; cbn in Ep'; injection Ep' as <-; cbn; eauto.
Qed.
Print Assumptions C53_this_becomes_reference.
