(** Model of the lifetimes of values and functions
    (lifetime_annotations/type_lifetimes.{h,cc}, function_lifetimes.cc) and of the
    constraints for substituting one callable for another
    (lifetime_analysis/lifetime_constraints.cc:177-335, analyze.cc:408-413,
    1428-1435).  Lifetimes, constraint sets, [GetOutlivingLifetimes] and
    [ApplyToFunctionLifetimes] are those of [Lifetimes/Model.v]. *)
From Coq Require Import List ZArith Bool.
From Verif.Lifetimes Require Import Model.
Import ListNotations.
Local Open Scope Z_scope.

(** type_lifetimes.h:72-219 [ValueLifetimes] with its type, type_lifetimes.h:224-312
    [ObjectLifetimes] (a lifetime and a value), function_lifetimes.h
    [FunctionLifetimes].  The [bool] is the const qualifier of the type of the
    value.  Template arguments of all depths are one list (the code loops over
    depths, then indices); an argument that is not a type has no lifetimes.
    Lifetime parameters are listed in the order of [GetLifetimeParameters] instead
    of a table by name; the flag of a parameter says whether the class uses it
    only covariantly (no code looks at it, the specification does). *)
Inductive vl :=
| VPlain (q : bool)
| VPtr (q : bool) (l : lifetime) (v : vl)
| VRec (q : bool) (ta : args) (lps : list (bool * lifetime))
| VFun (f : fl)
with ovl := ONone | OSome (v : vl)
with args := ANil | ACons (o : ovl) (r : args)
with fl := FL (ps : args) (r : vl) (th : ovl).

(** [QualType::isConstQualified]; function types have no qualifier here. *)
Definition is_const (v : vl) : bool :=
  match v with VPlain q | VPtr q _ _ | VRec q _ _ => q | VFun _ => false end.

(** lifetime_constraints.cc:179-183 [LifetimeRequirement] *)
Inductive requirement := Ge | Le | Eq.
(** lifetime_constraints.cc:190-200 [Compose] *)
Definition compose (a b : requirement) : requirement :=
  match a, b with
  | Eq, _ | _, Eq => Eq
  | Ge, Ge | Le, Le => Le
  | _, _ => Ge
  end.
(** lifetime_constraints.h:42-44 *)
Definition add_outlives (shorter longer : lifetime) (c : constraints) : constraints :=
  fst (insert (shorter, longer) c).
(** lifetime_constraints.cc:202-210 [AddConstraint] *)
Definition add_constraint (rq : requirement) (obj replacement : lifetime) (c : constraints) : constraints :=
  let c1 := match rq with Le | Eq => add_outlives replacement obj c | Ge => c end in
  match rq with Ge | Eq => add_outlives obj replacement c1 | Le => c1 end.

(** lifetime_constraints.cc:263-268 *)
Fixpoint collect_lps (lp lp' : list (bool * lifetime)) (rq : requirement) (c : constraints) : constraints :=
  match lp, lp' with
  | (_, l) :: r, (_, l') :: r' => collect_lps r r' rq (add_constraint rq l l' c)
  | _, _ => c
  end.
(** lifetime_constraints.cc:222-276 [CollectLifetimeConstraints] for objects and
    values, :278-299 for functions.  The types of the two are the same (asserted);
    other cases leave the constraints as they are. *)
Fixpoint collect_v (obj rep : vl) (rq : requirement) (c : constraints) {struct obj} : constraints :=
  match obj, rep with
  | VPtr _ l v, VPtr _ l' v' =>
      let pointee_req := if is_const v then Le else Eq in
      collect_v v v' (compose pointee_req rq) (add_constraint rq l l' c)
  | VRec _ ta lp, VRec _ ta' lp' => collect_lps lp lp' rq (collect_args ta ta' Eq c)
  | VFun f, VFun f' => collect_f f f' rq c
  | _, _ => c
  end
with collect_o (obj rep : ovl) (rq : requirement) (c : constraints) {struct obj} : constraints :=
  match obj, rep with
  | OSome v, OSome v' => collect_v v v' rq c
  | _, _ => c
  end
with collect_args (obj rep : args) (rq : requirement) (c : constraints) {struct obj} : constraints :=
  match obj, rep with
  | ACons o r, ACons o' r' => collect_args r r' rq (collect_o o o' rq c)
  | _, _ => c
  end
with collect_f (obj rep : fl) (rq : requirement) (c : constraints) {struct obj} : constraints :=
  match obj, rep with
  | FL ps r th, FL ps' r' th' =>
      collect_o th th' (compose Ge rq)
        (collect_v r r' (compose Le rq) (collect_args ps ps' (compose Ge rq) c))
  end.

(** type_lifetimes.h:38-41 [Variance] *)
Inductive variance := Covariant | Invariant.

(** type_lifetimes.cc:614-645 [ValueLifetimes::Traverse], :915-927
    [ObjectLifetimes::Traverse], function_lifetimes.cc:230-239
    [FunctionLifetimes::Traverse]: the lifetimes visited, in order ... *)
Fixpoint trav_v (va : variance) (v : vl) : list (lifetime * variance) :=
  match v with
  | VPlain _ => []
  | VPtr q l v' => trav_v (if q then Covariant else Invariant) v' ++ [(l, va)]
  | VRec _ ta lps => trav_args Invariant ta ++ map (fun p => (snd p, va)) lps
  | VFun f => trav_f f
  end
with trav_o (va : variance) (o : ovl) : list (lifetime * variance) :=
  match o with ONone => [] | OSome v => trav_v va v end
with trav_args (va : variance) (a : args) : list (lifetime * variance) :=
  match a with ANil => [] | ACons o r => trav_o va o ++ trav_args va r end
with trav_f (f : fl) : list (lifetime * variance) :=
  match f with FL ps r th => trav_args Covariant ps ++ trav_v Covariant r ++ trav_o Covariant th end.

(** ... and the value after a visitor that replaces lifetimes. *)
Fixpoint tmap_v (g : lifetime -> variance -> lifetime) (va : variance) (v : vl) : vl :=
  match v with
  | VPlain q => VPlain q
  | VPtr q l v' => VPtr q (g l va) (tmap_v g (if q then Covariant else Invariant) v')
  | VRec q ta lps => VRec q (tmap_args g Invariant ta) (map (fun p => (fst p, g (snd p) va)) lps)
  | VFun f => VFun (tmap_f g f)
  end
with tmap_o (g : lifetime -> variance -> lifetime) (va : variance) (o : ovl) : ovl :=
  match o with ONone => ONone | OSome v => OSome (tmap_v g va v) end
with tmap_args (g : lifetime -> variance -> lifetime) (va : variance) (a : args) : args :=
  match a with ANil => ANil | ACons o r => ACons (tmap_o g va o) (tmap_args g va r) end
with tmap_f (g : lifetime -> variance -> lifetime) (f : fl) : fl :=
  match f with FL ps r th => FL (tmap_args g Covariant ps) (tmap_v g Covariant r) (tmap_o g Covariant th) end.

(** type_lifetimes.cc:564-588 and :902-905 [HasAny], function_lifetimes.cc:191-199. *)
Fixpoint has_v (p : lifetime -> bool) (v : vl) : bool :=
  match v with
  | VPlain _ => false
  | VPtr _ l v' => p l || has_v p v'
  | VRec _ ta lps => has_args p ta || existsb (fun x => p (snd x)) lps
  | VFun f => has_f p f
  end
with has_o (p : lifetime -> bool) (o : ovl) : bool :=
  match o with ONone => false | OSome v => has_v p v end
with has_args (p : lifetime -> bool) (a : args) : bool :=
  match a with ANil => false | ACons o r => has_o p o || has_args p r end
with has_f (p : lifetime -> bool) (f : fl) : bool :=
  match f with FL ps r th => has_args p ps || has_v p r || has_o p th end.

(** type_lifetimes.cc:590-611 and :907-910 [SubstituteLifetimes],
    function_lifetimes.cc:213-221; [g] is [LifetimeSubstitutions::Substitute]. *)
Fixpoint subst_v (g : lifetime -> lifetime) (v : vl) : vl :=
  match v with
  | VPlain q => VPlain q
  | VPtr q l v' => VPtr q (g l) (subst_v g v')
  | VRec q ta lps => VRec q (subst_args g ta) (map (fun p => (fst p, g (snd p))) lps)
  | VFun f => VFun (subst_f g f)
  end
with subst_o (g : lifetime -> lifetime) (o : ovl) : ovl :=
  match o with ONone => ONone | OSome v => OSome (subst_v g v) end
with subst_args (g : lifetime -> lifetime) (a : args) : args :=
  match a with ANil => ANil | ACons o r => ACons (subst_o g o) (subst_args g r) end
with subst_f (g : lifetime -> lifetime) (f : fl) : fl :=
  match f with FL ps r th => FL (subst_args g ps) (subst_v g r) (subst_o g th) end.

(** lifetime_constraints.cc:326-335 [ForCallableSubstitutionFull] *)
Definition substitution_full (callable replacement : fl) : constraints :=
  collect_f callable replacement Le [].

(** lifetime_constraints.cc:310-312: the set of the lifetimes of [callable]. *)
Definition lifetime_set (f : fl) : list lifetime := nodup Z.eq_dec (map fst (trav_f f)).

(** lifetime_constraints.cc:314-321: the two loops; [None] cannot happen (see
    [Lifetimes/Reach.v]). *)
Fixpoint restrict_inner (all : list lifetime) (l : lifetime) (out : list lifetime) (ret : constraints) : constraints :=
  match out with
  | [] => ret
  | m :: r => restrict_inner all l r (if mem m all then add_outlives l m ret else ret)
  end.
Fixpoint restrict_loop (c : constraints) (all ls : list lifetime) (ret : constraints) : constraints :=
  match ls with
  | [] => ret
  | l :: r => match outliving c l with
              | Some out => restrict_loop c all r (restrict_inner all l out ret)
              | None => ret
              end
  end.
(** lifetime_constraints.cc:303-324 [ForCallableSubstitution] *)
Definition substitution (callable replacement : fl) : constraints :=
  let all := lifetime_set callable in
  restrict_loop (substitution_full callable replacement) all all [].

(** analyze.cc:1428-1435 [IsIsomorphic] *)
Definition is_isomorphic (a b : fl) : bool :=
  match substitution a b, substitution b a with [], [] => true | _, _ => false end.

(** analyze.cc:408-413 [ConstrainLifetimes]: the function after it, or [None] for
    an error.  [apply] and [substitute] are relations (hash-set order, loop). *)
Inductive constrain (base constraining : fl) : option fl -> Prop :=
| constrain_ok m g :
    apply (substitution base constraining) (lifetime_set base) (Some m) ->
    (forall l, In l (lifetime_set base) -> substitute m l (g l)) ->
    constrain base constraining (Some (subst_f g base))
| constrain_err :
    apply (substitution base constraining) (lifetime_set base) None ->
    constrain base constraining None.

(** analyze.cc:993-1011: the loop of [UpdateFunctionLifetimesWithOverrides] over the
    overrides that have lifetimes. *)
Inductive update (base : fl) : list fl -> option fl -> Prop :=
| update_done : update base [] (Some base)
| update_step o os base' out : constrain base o (Some base') -> update base' os out -> update base (o :: os) out
| update_err o os : constrain base o None -> update base (o :: os) None.
