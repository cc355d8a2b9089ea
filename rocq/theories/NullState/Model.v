(** Model of the null state of pointers in the nullability checker:
    nullability/pointer_nullability.cc, and join / compare / widen of
    nullability/pointer_nullability_analysis.cc:111-285.

    Clang's dataflow framework is not part of /repo; what the code uses of it is
    modelled by its documented meaning: formulas over boolean atoms, flow
    condition tokens (atoms) with their constraints, invariants, and a SAT
    solver that may give up (DataflowAnalysisContext, Environment, Arena,
    WatchedLiteralsSolver).  Formulas are hash-consed there, so comparing
    pointers to formulas is comparing formulas; the simplifications of the
    Arena are not modelled. *)
From Coq Require Import List Bool Arith.
Import ListNotations.

Inductive formula :=
  | FLit (b : bool) | FAtom (a : nat) | FNot (f : formula)
  | FAnd (f g : formula) | FOr (f g : formula) | FImp (f g : formula) | FEq (f g : formula).

Fixpoint feqb (f g : formula) : bool :=
  match f, g with
  | FLit a, FLit b => Bool.eqb a b
  | FAtom a, FAtom b => Nat.eqb a b
  | FNot f, FNot g => feqb f g
  | FAnd a b, FAnd c d | FOr a b, FOr c d | FImp a b, FImp c d | FEq a b, FEq c d => feqb a c && feqb b d
  | _, _ => false
  end.

(** What the solver answers. *)
Inductive answer := Sat | Unsat | TimedOut.
Definition solver := list formula -> answer.

(** The shared part of all environments: the next atom, the constraint of each
    flow condition token, the invariants. *)
Record ctx := mkCtx { c_next : nat; c_toks : list (nat * formula); c_invs : list formula }.

(** The clauses that define all tokens (each token equals its constraint) and
    the invariants.  Clang passes those that a token depends on. *)
Definition clauses (C : ctx) : list formula :=
  map (fun p => FEq (FAtom (fst p)) (snd p)) (c_toks C) ++ c_invs C.

Section Analysis.
Variable solve : solver.

(** Environment::proves and Environment::allows for the environment with flow
    condition token [t]. *)
Definition proves (C : ctx) (t : nat) (f : formula) : bool :=
  match solve (FAtom t :: FNot f :: clauses C) with Unsat => true | _ => false end.
Definition allows (C : ctx) (t : nat) (f : formula) : bool :=
  match solve (FAtom t :: f :: clauses C) with Sat => true | _ => false end.

(** Arena::makeAtom. *)
Definition make_atom (C : ctx) : ctx * nat :=
  (mkCtx (S (c_next C)) (c_toks C) (c_invs C), c_next C).

(** DataflowAnalysisContext::addInvariant. *)
Definition add_invariant (C : ctx) (f : formula) : ctx := mkCtx (c_next C) (c_toks C) (c_invs C ++ [f]).

(** Environment::assume: conjoins to the constraint of the token. *)
Definition assume (C : ctx) (t : nat) (f : formula) : ctx :=
  mkCtx (c_next C)
        (map (fun p => if Nat.eqb (fst p) t then (fst p, FAnd (snd p) f) else p) (c_toks C))
        (c_invs C).

(** Environment::join, as far as flow conditions go: a new token, equal to the
    disjunction of the two joined ones. *)
Definition join_envs (C : ctx) (t1 t2 : nat) : ctx * nat :=
  let t := c_next C in
  (mkCtx (S t) (c_toks C ++ [(t, FOr (FAtom t1) (FAtom t2))]) (c_invs C), t).

(** pointer_nullability.h: PointerNullState; [None] is "top". *)
Record state := mkS { from_nullable : option formula; is_null : option formula }.

Inductive kind := NonNull | Nullable | Unspecified.
Definition kind_eqb (a b : kind) : bool :=
  match a, b with NonNull, NonNull | Nullable, Nullable | Unspecified, Unspecified => true | _, _ => false end.

(** type_nullability.h: PointerTypeNullability, concrete or symbolic. *)
Inductive slot := Concrete (k : kind) | Symbolic (nonnull nullable : nat).
Definition slot_nonnull (s : slot) : formula :=
  match s with Concrete k => FLit (kind_eqb k NonNull) | Symbolic a _ => FAtom a end.
Definition slot_nullable (s : slot) : formula :=
  match s with Concrete k => FLit (kind_eqb k Nullable) | Symbolic _ b => FAtom b end.

(** pointer_nullability.cc:106-137, initPointerNullState from a source, on a
    pointer that has no state yet. *)
Definition init_state (C : ctx) (src : option slot) : ctx * state :=
  let '(C, fn) := match src with
                  | Some s => (C, slot_nullable s)
                  | None => let '(C, a) := make_atom C in (C, FAtom a)
                  end in
  let '(C, nl) := match src with
                  | Some (Concrete NonNull) => (C, FLit false)
                  | _ => let '(C, a) := make_atom C in (C, FAtom a)
                  end in
  let C := match src with
           | Some (Symbolic a b) => add_invariant C (FImp (slot_nonnull (Symbolic a b)) (FNot nl))
           | _ => C
           end in
  (C, mkS (Some fn) (Some nl)).

(** pointer_nullability.cc:155-159, initNullPointer. *)
Definition null_state : state := mkS (Some (FLit true)) (Some (FLit true)).

Definition is_literal_false (f : formula) : bool := match f with FLit false => true | _ => false end.

(** pointer_nullability.cc:167-206, isNullable. *)
Definition isNullable (C : ctx) (t : nat) (s : state) (extra : option formula) : bool :=
  let rest :=
    let f := FLit true in
    let f := match from_nullable s with Some g => FAnd f g | None => f end in
    let f := match is_null s with Some g => FAnd f g | None => f end in
    let f := match extra with Some g => FAnd f g | None => f end in
    allows C t f in
  match is_null s with
  | None => rest
  | Some n =>
      if match extra with None => is_literal_false n | Some _ => false end then false
      else
        let provably := match extra with Some c => FImp c n | None => n end in
        if proves C t provably then negb (proves C t (FLit false)) else rest
  end.

(** pointer_nullability.cc:223-234, getNullability. *)
Definition getNullability (C : ctx) (t : nat) (s : state) (extra : option formula) : kind :=
  let nonnull := match is_null s with
                 | Some n => proves C t (FNot (match extra with Some c => FAnd c n | None => n end))
                 | None => false
                 end in
  if nonnull then NonNull
  else if isNullable C t s extra then Nullable else Unspecified.

(** pointer_nullability_analysis.cc:111-143, mergeFormulas: [t1], [t2] are the
    tokens of the joined environments, [t] that of the merged one. *)
Definition feqb_opt (a b : option formula) : bool :=
  match a, b with Some f, Some g => feqb f g | None, None => true | _, _ => false end.

Definition merge_formulas (C : ctx) (b1 : option formula) (t1 : nat) (b2 : option formula) (t2 t : nat)
  : ctx * option formula :=
  if feqb_opt b1 b2 then (C, b1)
  else match b1, b2 with
  | Some f1, Some f2 =>
      let general :=
        let '(C, a) := make_atom C in
        (assume C t (FOr (FAnd (FAtom t1) (FEq (FAtom a) f1)) (FAnd (FAtom t2) (FEq (FAtom a) f2))),
         Some (FAtom a)) in
      if proves C t1 f1 then
        if proves C t2 f2 then (C, Some (FLit true)) else general
      else if proves C t1 (FNot f1) && proves C t2 (FNot f2) then (C, Some (FLit false))
      else general
  | _, _ => (C, None)
  end.

(** pointer_nullability_analysis.cc:145-174, join of two pointers with state. *)
Definition join (C : ctx) (s1 : state) (t1 : nat) (s2 : state) (t2 t : nat) : ctx * state :=
  let '(C, fn) := merge_formulas C (from_nullable s1) t1 (from_nullable s2) t2 t in
  let '(C, nl) := merge_formulas C (is_null s1) t1 (is_null s2) t2 t in
  (C, mkS fn nl).

(** A merge point of the control flow graph: the flow conditions are joined, then
    a pointer that has the state [s1] in one branch and [s2] in the other. *)
Definition joined (C : ctx) (s1 : state) (t1 : nat) (s2 : state) (t2 : nat) : ctx * nat * state :=
  let '(Cj, t) := join_envs C t1 t2 in
  let '(C', s) := join Cj s1 t1 s2 t2 t in
  (C', t, s).

Inductive effect := Unchanged | Changed.

(** pointer_nullability_analysis.cc:206-234, widenNullabilityProperty. *)
Definition widen_prop (C : ctx) (prev : option formula) (tp : nat) (cur : option formula) (tc : nat)
  : option formula * effect :=
  if feqb_opt prev cur then (cur, Unchanged)
  else match prev, cur with
  | None, _ => (None, Unchanged)
  | _, None => (None, Changed)
  | Some p, Some c =>
      if (proves C tp p && proves C tc c) || (proves C tp (FNot p) && proves C tc (FNot c))
      then (Some c, Unchanged)
      else (None, Changed)
  end.

(** pointer_nullability_analysis.cc:236-286, widen, of pointers with state and
    with pointee locations; [top] is the "top" location of their type. *)
Record pval := mkP { p_loc : nat; p_state : state }.

Definition both (a b : effect) : bool :=
  match a, b with Unchanged, Unchanged => true | _, _ => false end.

Definition widen (C : ctx) (top : nat) (prev : pval) (tp : nat) (cur : pval) (tc : nat) : pval * effect :=
  let loc_unchanged := Nat.eqb (p_loc prev) (p_loc cur) in
  let '(fn, e1) := widen_prop C (from_nullable (p_state prev)) tp (from_nullable (p_state cur)) tc in
  let '(nl, e2) := widen_prop C (is_null (p_state prev)) tp (is_null (p_state cur)) tc in
  if loc_unchanged && both e1 e2 then (cur, Unchanged)
  else
    let loc := if loc_unchanged then p_loc cur else top in
    (mkP loc (mkS fn nl),
     if Nat.eqb loc (p_loc prev) && both e1 e2 then Unchanged else Changed).

(** Clang's Environment::widen and its worklist (not in /repo), as far as this
    analysis sees them: at a back edge every pointer of the block is widened, the
    new block state is kept when any of them reports a change, and otherwise the
    old state is. *)
Fixpoint widen_list (C : ctx) (top : nat) (tp tc : nat) (prev cur : list pval) : list pval * effect :=
  match prev, cur with
  | p :: prev, c :: cur =>
      let '(w, e) := widen C top p tp c tc in
      let '(ws, es) := widen_list C top tp tc prev cur in
      (w :: ws, if both e es then Unchanged else Changed)
  | _, _ => ([], Unchanged)
  end.

Definition widen_block (C : ctx) (top : nat) (tp tc : nat) (prev cur : list pval) : list pval * effect :=
  let '(ws, e) := widen_list C top tp tc prev cur in
  match e with Unchanged => (prev, Unchanged) | Changed => (ws, Changed) end.

(** Visits the block once for each new incoming state, and counts the visits
    that report a change (after which the successors are visited again). *)
Fixpoint visit (C : ctx) (top : nat) (tp tc : nat) (prev : list pval) (inputs : list (list pval)) : list pval * nat :=
  match inputs with
  | [] => (prev, 0)
  | cur :: rest =>
      let '(st, e) := widen_block C top tp tc prev cur in
      let '(st', n) := visit C top tp tc st rest in
      (st', match e with Changed => S n | Unchanged => n end)
  end.

End Analysis.

(** pointer_nullability_analysis.cc:176-204, compare, of pointers whose null
    state may be missing. *)
Inductive comparison_result := Same | Different.

Definition compare (l1 : nat) (s1 : option state) (l2 : nat) (s2 : option state) : comparison_result :=
  if negb (Nat.eqb l1 l2) then Different
  else match s1, s2 with
  | None, None => Same
  | Some a, Some b =>
      if feqb_opt (from_nullable a) (from_nullable b) && feqb_opt (is_null a) (is_null b) then Same else Different
  | _, _ => Different
  end.

(** pointer_nullability.cc:214-221 and 251-257, isReachableNullptrLiteral and
    getNullabilityForNullptrT. *)
Definition getNullabilityForNullptrT (solve : solver) (C : ctx) (t : nat) (extra : option formula) : kind :=
  if isNullable solve C t null_state extra then Nullable else Unspecified.
