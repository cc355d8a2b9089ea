(** Model of lifetime_analysis/object_set.h, points_to_map.cc and lifetime_lattice.cc. *)
From Coq Require Import List Arith ZArith Bool Lia.
From Verif.Lifetimes Require Model.
Import ListNotations.

(** * object_set.h *)
(** Objects are compared by address (object_set.h:114, [SmallSet<const Object*, 2>]). *)
Definition object := Z.
Definition oset := list object.
(** object_set.h:53-55 [Contains(const Object * )]. *)
Definition contains (s : oset) (x : object) : bool := existsb (Z.eqb x) s.
(** object_set.h:59-66 [Contains(const ObjectSet&)]. *)
Definition contains_all (s other : oset) : bool := forallb (contains s) other.
(** object_set.h:86 [Add(const Object * )]: [SmallSet::insert]. *)
Definition add1 (s : oset) (x : object) : oset := if contains s x then s else x :: s.
(** object_set.h:89-91 [Add(const ObjectSet&)]. *)
Definition add_all (s other : oset) : oset := fold_left add1 other s.
(** object_set.h:34-38: the constructor from a list. *)
Definition of_list (l : list object) : oset := fold_left add1 l [].
(** object_set.h:70-74 [Union]. *)
Definition oset_union (s other : oset) : oset := add_all s other.
(** object_set.h:78-84 [Intersection]. *)
Definition oset_inter (s other : oset) : oset :=
  fold_left (fun r x => if contains other x then add1 r x else r) s [].
(** object_set.h:93-95 [operator==] (LLVM's: the same size and every element found in the other). *)
Definition oset_eqb (s other : oset) : bool := (length s =? length other) && forallb (contains other) s.

(** * Maps: [llvm::DenseMap<K, ObjectSet>] as a list of entries; the order stands for any iteration order. *)
Section Maps.
Context {K : Type} (eqk : K -> K -> bool).
Definition dmap := list (K * oset).
Fixpoint lookup (k : K) (m : dmap) : option oset :=
  match m with [] => None | (k', s) :: m' => if eqk k k' then Some s else lookup k m' end.
(** [m[k]] creates an empty set when [k] is absent; the reference is then updated by [f]. *)
Fixpoint update (k : K) (f : oset -> oset) (m : dmap) : dmap :=
  match m with
  | [] => [(k, f [])]
  | (k', s) :: m' => if eqk k k' then (k', f s) :: m' else (k', s) :: update k f m'
  end.
(** LLVM's [operator==] of maps: the same size, and every entry found in the other with an equal value. *)
Definition dmap_eqb (m other : dmap) : bool :=
  (length m =? length other) &&
  forallb (fun e => match lookup (fst e) other with Some s => oset_eqb (snd e) s | None => false end) m.
(** points_to_map.cc:47-50 and 53-56: the loop of [Union]. *)
Definition merge (m other : dmap) : dmap :=
  fold_left (fun m e => update (fst e) (fun s => add_all s (snd e)) m) other m.
End Maps.
Arguments dmap K : clear implicits.

(** * points_to_map.cc *)
(** Expressions: the syntax tree below parentheses is an identity; parentheses are kept because the functions
    below look through them.  ([IgnoreParens] also looks through a few GNU and C11 forms: not modelled.) *)
Inductive expr := Leaf (id : Z) | Paren (e : expr).
Fixpoint expr_eqb (a b : expr) : bool :=
  match a, b with Leaf x, Leaf y => Z.eqb x y | Paren a, Paren b => expr_eqb a b | _, _ => false end.
Fixpoint ignore_parens (e : expr) : expr := match e with Leaf x => Leaf x | Paren e => ignore_parens e end.

(** points_to_map.h:108-110. *)
Record pmap := PMap { pointers : dmap object; exprs : dmap expr }.
Definition empty : pmap := PMap [] [].
(** points_to_map.cc:26-29 [operator==]. *)
Definition pmap_eqb (a b : pmap) : bool :=
  dmap_eqb Z.eqb (pointers a) (pointers b) && dmap_eqb expr_eqb (exprs a) (exprs b).
(** points_to_map.cc:44-59 [Union]. *)
Definition union (a b : pmap) : pmap :=
  PMap (merge Z.eqb (pointers a) (pointers b)) (merge expr_eqb (exprs a) (exprs b)).
(** points_to_map.cc:61-67 [GetPointerPointsToSet(const Object * )]. *)
Definition get (m : pmap) (p : object) : oset := match lookup Z.eqb p (pointers m) with Some s => s | None => [] end.
(** points_to_map.cc:69-72 [SetPointerPointsToSet(const Object*, ObjectSet)]. *)
Definition set (m : pmap) (p : object) (s : oset) : pmap := PMap (update Z.eqb p (fun _ => s) (pointers m)) (exprs m).
(** points_to_map.cc:74-79 [SetPointerPointsToSet(const ObjectSet&, const ObjectSet&)]. *)
Definition set_many (m : pmap) (ps s : oset) : pmap := fold_left (fun m p => set m p s) ps m.
(** points_to_map.cc:81-85 [ExtendPointerPointsToSet]. *)
Definition extend (m : pmap) (p : object) (s : oset) : pmap :=
  PMap (update Z.eqb p (fun old => add_all old s) (pointers m)) (exprs m).
(** points_to_map.cc:87-96 [GetPointerPointsToSet(const ObjectSet&)]. *)
Definition get_many (m : pmap) (ps : oset) : oset :=
  fold_left (fun r p => match lookup Z.eqb p (pointers m) with Some s => add_all r s | None => r end) ps [].
(** points_to_map.cc:98-117 [GetExprObjectSet]; [None] is [report_fatal_error].  The type assertions are not modelled. *)
Definition get_expr (m : pmap) (e : expr) : option oset :=
  let e := match e with Paren sub => sub | _ => e end in lookup expr_eqb e (exprs m).
(** points_to_map.cc:119-122 [ExprHasObjectSet]. *)
Definition has_expr (m : pmap) (e : expr) : bool :=
  match lookup expr_eqb (ignore_parens e) (exprs m) with Some _ => true | None => false end.
(** points_to_map.cc:124-128 [SetExprObjectSet]. *)
Definition set_expr (m : pmap) (e : expr) (s : oset) : pmap :=
  PMap (pointers m) (update expr_eqb e (fun _ => s) (exprs m)).
(** points_to_map.cc:130-139 [GetAllPointersWithLifetime]; [life] is [Object::GetLifetime]. *)
Definition with_lifetime (life : object -> Z) (m : pmap) (l : Z) : list object :=
  map fst (filter (fun e => Z.eqb (life (fst e)) l) (pointers m)).

(** * lifetime_lattice.cc *)
(** lifetime_lattice.h:88-90: a state, or an error message (its identity does not matter). *)
Inductive lattice :=
| Ok (points_to : pmap) (constraints : Lifetimes.Model.constraints) (single : oset)
| Err (message : Z).
Inductive effect := Unchanged | Changed.
Definition effect_of (changed : bool) : effect := if changed then Changed else Unchanged.
(** lifetime_lattice.cc:55-81 [join]. *)
Definition join (this other : lattice) : lattice * effect :=
  match this, other with
  | Err _, _ => (this, Unchanged)
  | _, Err _ => (other, Changed)
  | Ok p c s, Ok p' c' s' =>
      let (c1, changed) := Lifetimes.Model.join c c' in
      let joined := union p p' in
      let '(p1, changed) := if negb (pmap_eqb p joined) then (joined, true) else (p, changed) in
      let joined_single := oset_inter s s' in
      let '(s1, changed) := if negb (oset_eqb s joined_single) then (joined_single, true) else (s, changed) in
      (Ok p1 c1 s1, effect_of changed)
  end.
(** lifetime_constraints.h:53-55 [operator==]: of sets of pairs. *)
Definition constraints_eqb (c c' : Lifetimes.Model.constraints) : bool :=
  (length c =? length c') && forallb (fun q => Lifetimes.Model.has_constraint q c') c.
(** lifetime_lattice.cc:83-89 [operator==]. *)
Definition lattice_eqb (a b : lattice) : bool :=
  match a, b with
  | Ok p c _, Ok p' c' _ => pmap_eqb p p' && constraints_eqb c c'
  | Err _, Err _ => true
  | _, _ => false
  end.
