(** The transformation of functions, against scopes. *)
From Coq Require Import List Arith ZArith Bool Lia Strings.String Sorting.Permutation.
From Verif.LifetimeNames Require Import Model Spec Names.
Import ListNotations.
Local Open Scope string_scope.
Local Open Scope list_scope.

Definition entries (sc : scope) (id : string) : list string := map snd (filter (fun p => String.eqb (fst p) id) sc).
(** The context represents the scope. *)
Record rep (c : ctx) (sc : scope) : Prop := Rep {
  r_bind : forall id, bindings c id = match entries sc id with [] => None | r => Some r end;
  r_names : forall n, In n (names c) <-> In n (map snd sc);
  r_nodup : NoDup (map snd sc);
  r_key : forall k, In k (map fst sc) -> In k (map snd sc) }.
Lemma entries_app a b id : entries (a ++ b) id = entries a id ++ entries b id.
Proof. unfold entries. now rewrite filter_app, map_app. Qed.
Lemma entries_none sc id : entries sc id = [] <-> unbound sc id.
Proof.
  unfold unbound. induction sc as [|[k n] sc IH]; [cbn; tauto|]. unfold entries in *. cbn [filter fst map In]. destruct (String.eqb_spec k id) as [->|N]; [cbn; split; [discriminate|intro H; exfalso; apply H; now left]|]. rewrite IH. intuition.
Qed.
Lemma entries_last sc id n : last_of (entries sc id) = Some n <-> bound_to sc id n.
Proof.
  induction sc as [|[k m] sc IH] using rev_ind.
  - cbn. split; [discriminate|]. intros (a & b & E & _). destruct a; discriminate.
  - rewrite entries_app. unfold entries at 2. cbn [filter fst]. destruct (String.eqb_spec k id) as [->|N].
    + cbn [map snd]. rewrite last_of_snoc. split.
      * intro E. injection E as ->. exists sc, []. split; [reflexivity|]. intros [].
      * intros (a & b & E & Nb). destruct b as [|x b] using rev_ind; [apply app_inj_tail in E as [_ E]; congruence|]. rewrite app_comm_cons, app_assoc in E. apply app_inj_tail in E as [_ E]. subst x. exfalso. apply Nb. rewrite map_app, in_app_iff. right. now left.
    + cbn [map]. rewrite app_nil_r, IH. split.
      * intros (a & b & -> & Nb). exists a, (b ++ [(k, m)]). split; [now rewrite <- app_assoc|]. rewrite map_app, in_app_iff. intros [H|[H|[]]]; auto.
      * intros (a & b & E & Nb). destruct b as [|x b _] using rev_ind; [apply app_inj_tail in E as [_ E]; congruence|]. rewrite app_comm_cons, app_assoc in E. apply app_inj_tail in E as [E _]. exists a, b. split; [exact E|]. rewrite map_app, in_app_iff in Nb. tauto.
Qed.
Lemma bound_in sc id n : bound_to sc id n -> In (id, n) sc.
Proof. intros (a & b & -> & _). apply in_or_app. right. now left. Qed.
Lemma bound_or_not sc id : (exists n, bound_to sc id n) \/ unbound sc id.
Proof. destruct (entries sc id) as [|x r] eqn:E; [right; now apply entries_none|left]. destruct (last_of (x :: r)) as [n|] eqn:L; [exists n; apply entries_last; now rewrite E|]. exfalso. clear E. revert x L. induction r as [|y r IH]; intros x L; [discriminate|]. exact (IH y L). Qed.
(** Binders added later, for names not bound before. *)
Definition grow (sc e : scope) : Prop := NoDup (map fst e) /\ forall k, In k (map fst e) -> unbound sc k.
Lemma grow_nil sc : grow sc [].
Proof. split; [constructor|intros ? []]. Qed.
Lemma grow_app sc a b : grow sc a -> grow (sc ++ a) b -> grow sc (a ++ b).
Proof.
  intros [N1 H1] [N2 H2]. assert (D : forall k, In k (map fst b) -> ~ In k (map fst a) /\ unbound sc k). { intros k Hk. specialize (H2 k Hk). unfold unbound in *. rewrite map_app, in_app_iff in H2. tauto. }
  split; [|intros k Hk; rewrite map_app, in_app_iff in Hk; destruct Hk as [Hk|Hk]; [auto|apply D; exact Hk]].
  rewrite map_app. revert D N1. generalize (map fst a). intro l. induction l as [|x l IH]; intros D N1; [exact N2|]. cbn. inversion N1; subst. constructor; [|apply IH; auto; intros k Hk; destruct (D k Hk) as [Dk Du]; split; [intro; apply Dk; now right|exact Du]]. rewrite in_app_iff. intros [Hx|Hx]; [contradiction|]. destruct (D x Hx) as [Dk _]. apply Dk. now left.
Qed.
Lemma bound_grow sc e id n : grow sc e -> bound_to sc id n -> bound_to (sc ++ e) id n.
Proof. intros [_ G] (a & b & -> & Nb). exists a, (b ++ e). split; [now rewrite <- app_assoc|]. rewrite map_app, in_app_iff. intros [H|H]; [auto|]. apply (G id H). rewrite map_app, in_app_iff. right. now left. Qed.
Lemma bound_unique sc id n m : bound_to sc id n -> bound_to sc id m -> n = m.
Proof. rewrite <- !entries_last. congruence. Qed.
Lemma nodup_snd_inj (sc : scope) k k' n : NoDup (map snd sc) -> In (k, n) sc -> In (k', n) sc -> k = k'.
Proof.
  induction sc as [|[a b] sc IH]; intros N H H'; [destruct H|]. cbn in N. inversion N as [|? ? Nb N2]; subst. destruct H as [E|H], H' as [E'|H'].
  - congruence.
  - injection E as -> ->. exfalso. apply Nb. change n with (snd (k', n)). now apply in_map.
  - injection E' as -> ->. exfalso. apply Nb. change n with (snd (k, n)). now apply in_map.
  - auto.
Qed.

Lemma rep_push c sc id : rep c sc -> rep (snd (push_new_binding c id)) (sc ++ [(id, fst (push_new_binding c id))]).
Proof.
  intros [B N D K]. cbn [push_new_binding fst snd]. pose proof (fresh_not_in c id) as F. constructor; cbn [names bindings].
  - intro k. rewrite entries_app. unfold entries at 2. cbn [filter fst]. unfold upd. rewrite (String.eqb_sym id k). destruct (String.eqb_spec k id) as [->|Nk].
    + cbn [map snd]. rewrite B. destruct (entries sc id); reflexivity.
    + cbn [map]. rewrite app_nil_r. apply B.
  - intro n. rewrite map_app, in_app_iff. cbn. rewrite N. tauto.
  - rewrite map_app. cbn. apply nodup_snoc; [rewrite <- N; exact F|exact D].
  - intros k H. rewrite map_app, in_app_iff in *. cbn in H |- *. destruct H as [H|[<-|[]]]; [left; auto|]. unfold fresh_name_for. destruct (mem id (names c)) eqn:E; [|right; now left]. left. apply N. now apply mem_in.
Qed.
Lemma rep_fresh_key c sc h : rep c sc -> unbound sc (fresh_name_for c h) /\ ~ In (fresh_name_for c h) (map snd sc).
Proof. intros [B N D K]. pose proof (fresh_not_in c h) as F. rewrite N in F. split; [|exact F]. intro H. apply F. now apply K. Qed.

(** One or more steps of the transformation: the scope grows by [e], and the new binders are recorded. *)
Record steps (s : st) (sc : scope) (s' : st) (e : scope) : Prop := Steps { s_rep : rep (cx s') (sc ++ e); s_new : newb s' = newb s ++ map snd e; s_grow : grow sc e }.
Lemma steps_refl s sc : rep (cx s) sc -> steps s sc s [].
Proof. intro R. constructor; [now rewrite app_nil_r|cbn; now rewrite app_nil_r|apply grow_nil]. Qed.
Lemma steps_trans s sc s1 e1 s2 e2 : steps s sc s1 e1 -> steps s1 (sc ++ e1) s2 e2 -> steps s sc s2 (e1 ++ e2).
Proof. intros [R1 N1 G1] [R2 N2 G2]. constructor; [now rewrite app_assoc|rewrite map_app, N2, N1; now rewrite app_assoc|now apply grow_app]. Qed.
Lemma get_or_push_ok s sc id : rep (cx s) sc -> exists n s' e, get_or_push s id = Some (n, s') /\ steps s sc s' e /\ bound_to (sc ++ e) id n.
Proof.
  intro R. destruct s as [c nb]. cbn [cx newb] in *. unfold get_or_push, get_or_push_new_binding. cbn [cx newb]. rewrite (r_bind _ _ R). destruct (bound_or_not sc id) as [[n H]|H].
  - pose proof (proj2 (entries_last sc id n) H) as L. destruct (entries sc id) as [|x r]; [discriminate|]. rewrite L. exists n, (St c nb), []. split; [reflexivity|]. split; [apply steps_refl; exact R|now rewrite app_nil_r].
  - rewrite (proj2 (entries_none sc id) H). pose proof (rep_push _ _ id R) as P. destruct (push_new_binding c id) as [n c'] eqn:E. cbn [fst snd] in P. exists n, (St c' (nb ++ [n])), [(id, n)]. split; [reflexivity|]. split.
    + constructor; [exact P|reflexivity|]. split; [cbn; repeat constructor; intros []|]. intros k [<-|[]]. exact H.
    + exists sc, []. split; [reflexivity|intros []].
Qed.
Lemma push_fresh_ok s sc hint : rep (cx s) sc -> exists n s', push_fresh s hint = (n, s') /\ steps s sc s' [(n, n)].
Proof.
  intro R. unfold push_fresh. destruct (push_fresh_eq (cx s) (Some hint)) as [E1 E2]. destruct (push_fresh_binding (cx s) (Some hint)) as [n c'] eqn:E. cbn [fst] in *. exists n, (St c' (newb s ++ [n])). split; [reflexivity|].
  pose proof (rep_push _ _ n R) as P. rewrite <- E1 in P. cbn [fst snd] in P. constructor; [exact P|reflexivity|]. split; [cbn; repeat constructor; intros []|]. intros k [<-|[]]. cbn. rewrite E2. now apply rep_fresh_key.
Qed.

(** The state decided for a type with annotated lifetimes [lts], in the final scope; [new] are the binders added. *)
Definition decided (sc new : scope) (lts : list string) (x : lstate) : Prop :=
  match lts with
  | [] => exists n, x = Single n /\ In (n, n) new
  | [id] => exists n, bound_to sc id n /\ x = if String.eqb n "unknown" then Unknown else Single n
  | _ => x = Unknown
  end.
Lemma decided_grow sc new new' lts x e : grow sc e -> incl new new' -> decided sc new lts x -> decided (sc ++ e) new' lts x.
Proof. intros G I D. destruct lts as [|id [|id' r]]; cbn in *; [destruct D as (n & E & H); eauto|destruct D as (n & B & E); exists n; split; [now apply bound_grow|exact E]|exact D]. Qed.
Lemma choose_ok s sc hint lts : rep (cx s) sc -> exists x s' e, choose s hint lts = Some (x, s') /\ steps s sc s' e /\ decided (sc ++ e) e lts x.
Proof.
  intro R. unfold choose, state_for. destruct lts as [|id [|id' r]].
  - destruct (push_fresh_ok s sc hint R) as (n & s' & E & S). rewrite E. do 3 eexists. split; [reflexivity|]. split; [exact S|]. exists n. split; [reflexivity|now left].
  - destruct (get_or_push_ok s sc id R) as (n & s' & e & E & S & B). rewrite E. exists (if String.eqb n "unknown" then Unknown else Single n), s', e. split; [destruct (String.eqb n "unknown"); reflexivity|]. split; [exact S|]. exists n. auto.
  - do 3 eexists. split; [reflexivity|]. split; [apply steps_refl; exact R|reflexivity].
Qed.
Lemma decided_seen sc new lts x : decided sc new lts x -> x <> Unseen.
Proof. destruct lts as [|id [|id' r]]; cbn; [intros (n & -> & _)|intros (n & _ & ->); destruct (String.eqb n "unknown")|intros ->]; discriminate. Qed.

(** Same outermost constructor: the declaration, or the kind of pointer. *)
Definition same_head (t t' : ty) : Prop :=
  match t, t' with
  | Ty (Decl id _) _, Ty (Decl id' _) _ => id = id'
  | Ty (Pointer k _) _, Ty (Pointer k' _) _ => k = k'
  | _, _ => t = t'
  end.
Lemma same_head_refl t : same_head t t.
Proof. destruct t as [[] ]; reflexivity. Qed.
Definition is_pointer (t : ty) : bool := match t with Ty (Pointer _ _) _ => true | _ => false end.
Definition takes (d : db) (is_this : bool) (t : ty) : bool :=
  match t with Ty (Decl id _) _ => binds d id | Ty (Pointer k _) _ => is_this || is_lref k | _ => false end.
Lemma takes_spec d is_this t : takes d is_this t = true <-> takes_lifetime d is_this t.
Proof.
  destruct t as [[id a|k p| | |] l]; cbn; try (split; [discriminate|intros []]).
  - unfold binds. destruct (decl_arity d id) as [[|[|n]]|]; split; congruence.
  - rewrite orb_true_iff. destruct k; cbn; intuition congruence.
Qed.
(** What happens to the type a pointer points to. *)
Definition pointee_ok (d : db) (sc new : scope) (t t' : ty) : Prop :=
  match t, t' with
  | Ty (Pointer _ p) _, Ty (Pointer _ p') _ => same_head p p' /\ if takes d false p then exists z, decided sc new (lifetimes p) z /\ lifetimes p' = lifetime_for z else p' = p
  | _, _ => True
  end.
Lemma pointee_grow d sc new new' e t t' : grow sc e -> incl new new' -> pointee_ok d sc new t t' -> pointee_ok d (sc ++ e) new' t t'.
Proof.
  intros G I. destruct t as [[id a|k p| | |] l]; cbn; auto. destruct t' as [[id' a'|k' p'| | |] l']; cbn; auto. intros [H1 H2]. split; [exact H1|]. destruct (takes d false p); [|exact H2]. destruct H2 as (z & D & E). exists z. split; [eapply decided_grow; eassumption|exact E].
Qed.
Lemma input_type_ok d fuel : forall is_this hint s sc t t' x y s', rep (cx s) sc -> input_type d fuel is_this hint s t = Some (t', x, y, s') ->
  exists e, steps s sc s' e /\ same_head t t' /\
  if takes d is_this t then pointee_ok d (sc ++ e) e t t' /\ exists z, decided (sc ++ e) e (lifetimes t) z /\ lifetimes t' = lifetime_for z /\ (x, y) = if is_this && is_pointer t then (Unseen, z) else (z, Unseen)
  else t' = t /\ x = Unseen /\ y = Unseen /\ e = [].
Proof.
  induction fuel as [|fuel IH]; intros is_this hint s sc t t' x y s' R H; [discriminate|]. cbn [input_type] in H. destruct t as [v lts]. destruct v as [id args|k p| | |]; cbn [takes lifetimes is_pointer].
  - destruct (binds d id).
    + assert (A : exists v' s1 e1, (match type_arg d id with
                       | Some a => match input_type d fuel false hint s a with Some (a', _, _, s') => Some (Decl id (Some a'), s') | None => None end
                       | None => Some (Decl id args, s) end) = Some (v', s1) /\ steps s sc s1 e1 /\ exists a', v' = Decl id a').
      { destruct (type_arg d id) as [a|]; [|do 3 eexists; split; [reflexivity|]; split; [apply steps_refl; exact R|eauto]]. destruct (input_type d fuel false hint s a) as [[[[a' ax] ay] s1]|] eqn:E; [|discriminate]. destruct (IH _ _ _ _ _ _ _ _ _ R E) as (e1 & S1 & _). do 3 eexists. split; [reflexivity|]. split; [exact S1|eauto]. }
      destruct A as (v' & s1 & e1 & E & S1 & a' & ->). rewrite E in H. destruct (choose_ok s1 (sc ++ e1) hint lts (s_rep _ _ _ _ S1)) as (z & s2 & e2 & Ec & S2 & D). rewrite Ec in H. injection H as <- <- <- <-. exists (e1 ++ e2). split; [eapply steps_trans; eassumption|]. split; [reflexivity|]. split; [exact Logic.I|]. exists z. cbn [lifetimes]. split; [|split; [reflexivity|now rewrite andb_false_r]].
      rewrite app_assoc. destruct lts as [|i [|i' r]]; cbn in *; auto. destruct D as (n & E1 & E2). exists n. split; [exact E1|]. apply in_or_app. now right.
    + injection H as <- <- <- <-. exists []. split; [apply steps_refl; exact R|]. auto using same_head_refl.
  - destruct (is_this || is_lref k).
    + destruct (input_type d fuel false hint s p) as [[[[p' px] py] s1]|] eqn:E; [|discriminate]. destruct (IH _ _ _ _ _ _ _ _ _ R E) as (e1 & S1 & Hd1 & T1). destruct (choose_ok s1 (sc ++ e1) hint lts (s_rep _ _ _ _ S1)) as (z & s2 & e2 & Ec & S2 & D). rewrite Ec in H.
      assert (Pk : forall l l', pointee_ok d (sc ++ e1 ++ e2) (e1 ++ e2) (Ty (Pointer k p) l) (Ty (Pointer k p') l')). { intros l l'. rewrite app_assoc. apply (pointee_grow d _ e1); [apply S2|apply incl_appl, incl_refl|]. cbn. split; [exact Hd1|]. destruct (takes d false p); [destruct T1 as (_ & z1 & D1 & L1 & _); eauto|apply T1]. }
      exists (e1 ++ e2). assert (D' : decided (sc ++ e1 ++ e2) (e1 ++ e2) lts z). { rewrite app_assoc. destruct lts as [|i [|i' r]]; cbn in *; auto. destruct D as (n & E1 & E2). exists n. split; [exact E1|]. apply in_or_app. now right. }
      destruct is_this; injection H as <- <- <- <-; (split; [eapply steps_trans; eassumption|]); (split; [reflexivity|]); (split; [apply Pk|]); exists z; cbn [lifetimes]; auto.
    + injection H as <- <- <- <-. exists []. split; [apply steps_refl; exact R|]. auto using same_head_refl.
  - injection H as <- <- <- <-. exists []. split; [apply steps_refl; exact R|]. auto using same_head_refl.
  - injection H as <- <- <- <-. exists []. split; [apply steps_refl; exact R|]. auto using same_head_refl.
  - injection H as <- <- <- <-. exists []. split; [apply steps_refl; exact R|]. auto using same_head_refl.
Qed.
Lemma resolve_all_ok l : forall s sc, rep (cx s) sc -> exists r s' e, resolve_all s l = Some (r, s') /\ steps s sc s' e /\ Forall2 (bound_to (sc ++ e)) l r.
Proof.
  induction l as [|x l IH]; intros s sc R; cbn [resolve_all]; [do 3 eexists; split; [reflexivity|]; split; [apply steps_refl; exact R|constructor]|].
  destruct (get_or_push_ok s sc x R) as (n & s1 & e1 & E & S1 & B). rewrite E. destruct (IH s1 (sc ++ e1) (s_rep _ _ _ _ S1)) as (r & s2 & e2 & E2 & S2 & F). rewrite E2. exists (n :: r), s2, (e1 ++ e2). split; [reflexivity|]. split; [eapply steps_trans; eassumption|]. rewrite app_assoc. constructor; [|exact F]. apply bound_grow; [apply S2|exact B].
Qed.
(** What the return type becomes at its outermost level. *)
Definition returned (d : db) (sc : scope) (hint : list string) (t t' : ty) : Prop :=
  match t with
  | Ty (Pointer LValueRef p) [] => exists p', t' = Ty (Pointer (match hint with [] => NonNull | _ => LValueRef end) p') hint
  | Ty (Pointer LValueRef p) lts => exists r, Forall2 (bound_to sc) lts r /\ t' = Ty (Pointer LValueRef p) r
  | Ty (Decl id _) lts =>
      exists a', if binds d id then
        match lts with
        | [] => t' = Ty (Decl id a') hint
        | _ => exists r, Forall2 (bound_to sc) lts r /\ t' = Ty (Decl id a') (if mem "unknown" r then [] else r)
        end
      else t' = Ty (Decl id a') lts
  | _ => t' = t
  end.
Lemma forall2_bound_grow sc e l r : grow sc e -> Forall2 (bound_to sc) l r -> Forall2 (bound_to (sc ++ e)) l r.
Proof. intros G F. induction F; constructor; auto using bound_grow. Qed.
Lemma output_type_ok d fuel : forall hint s sc t t' s', rep (cx s) sc -> output_type d fuel hint s t = Some (t', s') ->
  exists e, steps s sc s' e /\ returned d (sc ++ e) hint t t'.
Proof.
  induction fuel as [|fuel IH]; intros hint s sc t t' s' R H; [discriminate|]. cbn [output_type] in H. destruct t as [v lts]. destruct v as [id args|k p| | |]; cbn [returned].
  - assert (A : exists lts' s1 e1, (if binds d id then
                       match lts with
                       | [] => Some (match hint with [] => lts | _ => hint end, s)
                       | _ => match resolve_all s lts with Some (r, s') => Some (if mem "unknown" r then [] else r, s') | None => None end
                       end else Some (lts, s)) = Some (lts', s1) /\ steps s sc s1 e1 /\
        if binds d id then match lts with [] => lts' = hint | _ => exists r, Forall2 (bound_to (sc ++ e1)) lts r /\ lts' = if mem "unknown" r then [] else r end else lts' = lts).
    { destruct (binds d id); [|do 3 eexists; split; [reflexivity|]; split; [apply steps_refl; exact R|reflexivity]]. destruct lts as [|l lts].
      - do 3 eexists. split; [reflexivity|]. split; [apply steps_refl; exact R|]. now destruct hint.
      - destruct (resolve_all_ok (l :: lts) s sc R) as (r & s1 & e1 & E & S1 & F). rewrite E. do 3 eexists. split; [reflexivity|]. split; [exact S1|]. exists r. auto. }
    destruct A as (lts' & s1 & e1 & E & S1 & A). rewrite E in H. destruct (type_arg d id) as [a|].
    + destruct (output_type d fuel hint s1 a) as [[a' s2]|] eqn:E2; [|discriminate]. destruct (IH _ _ _ _ _ _ (s_rep _ _ _ _ S1) E2) as (e2 & S2 & _). injection H as <- <-. exists (e1 ++ e2). split; [eapply steps_trans; eassumption|]. exists (Some a'). destruct (binds d id); [|now rewrite A]. destruct lts as [|l lts]; [now rewrite A|]. destruct A as (r & F & ->). exists r. split; [|reflexivity]. rewrite app_assoc. apply forall2_bound_grow; [apply S2|exact F].
    + injection H as <- <-. exists e1. split; [exact S1|]. exists args. destruct (binds d id); [|now rewrite A]. destruct lts as [|l lts]; [now rewrite A|]. destruct A as (r & F & ->). exists r. auto.
  - destruct k; cbn [is_lref] in H; try (injection H as <- <-; exists []; split; [apply steps_refl; exact R|reflexivity]). destruct lts as [|l lts].
    + destruct (output_type d fuel hint s p) as [[p' s1]|] eqn:E; [|discriminate]. destruct (IH _ _ _ _ _ _ R E) as (e1 & S1 & _). injection H as <- <-. exists e1. split; [exact S1|]. exists p'. reflexivity.
    + destruct (resolve_all_ok (l :: lts) s sc R) as (r & s1 & e1 & E & S1 & F). rewrite E in H. injection H as <- <-. exists e1. split; [exact S1|]. exists r. auto.
  - injection H as <- <-. exists []. split; [apply steps_refl; exact R|reflexivity].
  - injection H as <- <-. exists []. split; [apply steps_refl; exact R|reflexivity].
  - injection H as <- <-. exists []. split; [apply steps_refl; exact R|reflexivity].
Qed.

(** The loop over the parameters: a list of states (one for each parameter, [Unseen] if it takes no lifetime). *)
Definition this_ix (ctor : bool) (ix : nat) (p : param) : bool := Nat.eqb ix 0 && is_this_param p && negb ctor.
Definition param_ok (d : db) (sc new : scope) (is_this : bool) (p p' : param) (z : lstate) : Prop :=
  ident p' = ident p /\ bound p' = bound p /\ same_head (ptype p) (ptype p') /\
  if takes d is_this (ptype p) then decided sc new (lifetimes (ptype p)) z /\ lifetimes (ptype p') = lifetime_for z /\ pointee_ok d sc new (ptype p) (ptype p')
  else z = Unseen /\ ptype p' = ptype p.
Fixpoint params_ok (d : db) (sc new : scope) (ctor : bool) (ix : nat) (ps ps' : list param) (zs : list lstate) : Prop :=
  match ps, ps', zs with
  | [], [], [] => True
  | p :: ps, p' :: ps', z :: zs => param_ok d sc new (this_ix ctor ix p) p p' z /\ params_ok d sc new ctor (S ix) ps ps' zs
  | _, _, _ => False
  end.
Lemma params_ok_grow d sc new new' e ctor : grow sc e -> incl new new' -> forall ps ix ps' zs, params_ok d sc new ctor ix ps ps' zs -> params_ok d (sc ++ e) new' ctor ix ps ps' zs.
Proof.
  intros G I. induction ps as [|p ps IH]; intros ix [|p' ps'] [|z zs]; cbn; auto. intros [(H1 & H2 & H3 & H4) H]. split; [|auto]. split; [exact H1|split; [exact H2|split; [exact H3|]]]. destruct (takes _ _ _); [|exact H4]. destruct H4 as (D & E & Q). split; [|split; [exact E|eapply pointee_grow; eassumption]]. eapply decided_grow; eassumption.
Qed.
Definition is_this_state (ctor : bool) (ps : list param) : bool := match ps with p :: _ => is_this_param p && negb ctor && is_pointer (ptype p) | [] => false end.
(** Parameters without an annotation get lifetimes unlike those of earlier parameters. *)
Definition fresh_ok (d : db) (ctor : bool) (sc : scope) (ix : nat) (ps : list param) (zs : list lstate) : Prop :=
  forall j p n, nth_error ps j = Some p -> takes d (this_ix ctor (ix + j) p) (ptype p) = true -> lifetimes (ptype p) = [] -> nth_error zs j = Some (Single n) ->
  ~ In n (map snd sc) /\ forall i, i < j -> nth_error zs i <> Some (Single n).
Lemma input_params_ok d fuel ctor : forall ps ix x0 y0 s sc ps' x y s', rep (cx s) sc -> In "unknown" (map snd sc) -> input_params d fuel ctor ix ps x0 y0 s = Some (ps', x, y, s') ->
  exists e zs, steps s sc s' e /\ params_ok d (sc ++ e) e ctor ix ps ps' zs /\ fresh_ok d ctor sc ix ps zs /\
  (forall n, In (Single n) zs -> In n (map snd (sc ++ e)) /\ n <> "unknown") /\
  (ix <> 0 -> x = update x0 (fold_states zs) /\ y = update y0 Unseen) /\
  (ix = 0 -> if is_this_state ctor ps then x = update x0 (fold_states (tl zs)) /\ (exists z zs', zs = z :: zs' /\ y = update y0 z) else x = update x0 (fold_states zs) /\ y = update y0 Unseen).
Proof.
  induction ps as [|p ps IH]; intros ix x0 y0 s sc ps' x y s' R Ku H; cbn [input_params] in H.
  - injection H as <- <- <- <-. exists [], []. split; [apply steps_refl; exact R|]. split; [exact Logic.I|]. split; [intros [|j] q n E; discriminate|]. split; [intros n []|]. cbn. split; intros _; (split; [destruct x0; reflexivity|destruct y0; reflexivity]).
  - fold (this_ix ctor ix p) in H. destruct (input_type d fuel (this_ix ctor ix p) (ident p) s (ptype p)) as [[[[t' xz] yz] s1]|] eqn:E1; [|discriminate].
    destruct (input_params d fuel ctor (S ix) ps (update x0 xz) (update y0 yz) s1) as [[[[r x'] y'] s2]|] eqn:E2; [|discriminate]. injection H as <- <- <- <-.
    destruct (input_type_ok _ _ _ _ _ _ _ _ _ _ _ R E1) as (e1 & S1 & Hd & T). assert (Ku1 : In "unknown" (map snd (sc ++ e1))) by (rewrite map_app, in_app_iff; now left). destruct (IH _ _ _ _ _ _ _ _ _ (s_rep _ _ _ _ S1) Ku1 E2) as (e2 & zs & S2 & P & F & V & U & _). destruct (U (Nat.neq_succ_0 _)) as [Ux Uy].
    assert (Z : exists z, param_ok d (sc ++ e1) e1 (this_ix ctor ix p) p (Param (ident p) (bound p) t') z /\ (xz, yz) = if this_ix ctor ix p && is_pointer (ptype p) then (Unseen, z) else (z, Unseen)).
    { destruct (takes d (this_ix ctor ix p) (ptype p)) eqn:Tk.
      - destruct T as (Q & z & D & L & Exy). exists z. split; [|exact Exy]. unfold param_ok. rewrite Tk. cbn [ident bound ptype]. auto 8.
      - destruct T as (-> & -> & -> & ->). exists Unseen. split; [unfold param_ok; rewrite Tk; cbn [ident bound ptype]; auto using same_head_refl|]. now destruct (_ && _). }
    destruct Z as (z & Pz & Exy). exists (e1 ++ e2), (z :: zs). split; [eapply steps_trans; eassumption|].
    assert (Vz : forall n, z = Single n -> In n (map snd (sc ++ e1)) /\ n <> "unknown").
    { intros n ->. destruct Pz as (_ & _ & _ & Pz). destruct (takes d _ _); [|destruct Pz; discriminate]. destruct Pz as [D _]. destruct (lifetimes (ptype p)) as [|id [|id' r']]; cbn in D; [| |discriminate].
      - destruct D as (m & Em & Hm). injection Em as <-. split; [rewrite map_app, in_app_iff; right; change n with (snd (n, n)); now apply in_map|].
        intros ->. pose proof (r_nodup _ _ (s_rep _ _ _ _ S1)) as Nd. rewrite map_app in Nd. apply in_split in Ku as (l1 & l2 & El). rewrite El, <- app_assoc in Nd. apply NoDup_remove_2 in Nd. apply Nd. rewrite !in_app_iff. right. right. change "unknown" with (snd ("unknown", "unknown")). now apply in_map.
      - destruct D as (m & B & Em). destruct (String.eqb_spec m "unknown") as [|Nm]; [discriminate|]. injection Em as <-. split; [apply bound_in in B; change n with (snd (id, n)); now apply in_map|exact Nm]. }
    pose proof (r_nodup _ _ (s_rep _ _ _ _ (steps_trans _ _ _ _ _ _ S1 S2))) as Nd.
    split; [|split; [|split; [|split]]].
    + cbn [params_ok]. split.
      * destruct Pz as (H1 & H2 & H3 & H4). split; [exact H1|split; [exact H2|split; [exact H3|]]]. destruct (takes _ _ _); [|exact H4]. destruct H4 as (D & E & Q). rewrite app_assoc. split; [|split; [exact E|eapply pointee_grow; [apply S2| |exact Q]; apply incl_appl, incl_refl]]. eapply decided_grow; [apply S2| |exact D]. apply incl_appl, incl_refl.
      * rewrite app_assoc. rewrite <- (app_nil_r ((sc ++ e1) ++ e2)). eapply params_ok_grow; [apply grow_nil|apply incl_appr, incl_refl|exact P].
    + intros [|j] q n Eq Tk El En; cbn in Eq, En.
      * injection Eq as <-. injection En as ->. rewrite Nat.add_0_r in Tk. split; [|intros i Hi; lia]. destruct Pz as (_ & _ & _ & Pz). rewrite Tk, El in Pz. destruct Pz as [(m & Em & Hm) _]. injection Em as <-. intro Hn. rewrite !map_app in Nd. apply in_split in Hn as (l1 & l2 & E'). rewrite E', <- app_assoc in Nd. apply NoDup_remove_2 in Nd. apply Nd. rewrite !in_app_iff. right. right. left. change n with (snd (n, n)). now apply in_map.
      * replace (ix + S j) with (S ix + j) in Tk by lia. destruct (F j q n Eq Tk El En) as [F1 F2]. split; [intro Hn; apply F1; rewrite map_app, in_app_iff; now left|]. intros [|i] Hi; cbn; [|apply F2; lia]. intro E. injection E as ->. apply F1. now apply Vz.
    + intros n [->|Hn]; [|rewrite app_assoc; now apply V]. destruct (Vz n eq_refl) as [V1 V2]. split; [|exact V2]. rewrite app_assoc, map_app, in_app_iff. now left.
    + intro Nx. unfold this_ix in Exy. apply Nat.eqb_neq in Nx. rewrite Nx in Exy. cbn in Exy. injection Exy as -> ->. rewrite Ux, Uy, fold_cons, update_assoc. split; [reflexivity|]. destruct y0; reflexivity.
    + intros ->. unfold this_ix in Exy. cbn [Nat.eqb andb] in Exy. cbn [is_this_state tl]. destruct (is_this_param p && negb ctor && is_pointer (ptype p)); injection Exy as -> ->; rewrite Ux, Uy.
      * split; [destruct x0; reflexivity|]. exists z, zs. split; [reflexivity|]. destruct (update y0 z); reflexivity.
      * rewrite fold_cons, update_assoc. split; [reflexivity|]. destruct y0; reflexivity.
Qed.
