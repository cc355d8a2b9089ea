(** Model of lifetime_analysis/lifetime_constraints.cc (constraints, transitive closure, application
    to a function), of lifetime_annotations/lifetime_substitutions.cc and lifetime_annotations/lifetime.cc. *)
From Coq Require Import List Arith ZArith Bool Lia.
Import ListNotations.
Local Open Scope Z_scope.

(** lifetime_annotations/lifetime.cc:18-49: a lifetime is its id. *)
Definition lifetime := Z.
Definition Static : lifetime := -1.
Definition is_variable (l : lifetime) : bool := 0 <? l.
Definition is_local (l : lifetime) : bool := l <=? -2.
(** lifetime.cc:88-91 [IsValid]. *)
Definition is_valid (l : lifetime) : bool := negb (l =? 0) && negb (l =? 1).

(** Hash maps and sets ([llvm::DenseMap], [llvm::DenseSet]) as lists; their iteration order is arbitrary. *)
Definition zmap := list (Z * Z).
Fixpoint assoc {V} (k : Z) (m : list (Z * V)) : option V :=
  match m with [] => None | (k', v) :: m' => if k =? k' then Some v else assoc k m' end.
Definition put {V} (k : Z) (v : V) (m : list (Z * V)) : list (Z * V) := (k, v) :: m.
Definition mem (x : Z) (s : list Z) : bool := existsb (Z.eqb x) s.
Definition erase (x : Z) (s : list Z) : list Z := filter (fun y => negb (x =? y)) s.
(** An order in which a set may be iterated. *)
Definition enum (order s : list Z) : Prop := NoDup order /\ forall x, In x order <-> In x s.

(** lifetime_analysis/lifetime_constraints.h:85-86: a set of pairs (shorter, longer). *)
Definition constraints := list (lifetime * lifetime).
Definition has_constraint (p : lifetime * lifetime) (c : constraints) : bool :=
  existsb (fun q => (fst p =? fst q) && (snd p =? snd q)) c.
(** lifetime_constraints.h:42-44 [AddOutlivesConstraint] ([DenseSet::insert]), with [insert]'s [second]. *)
Definition insert (p : lifetime * lifetime) (c : constraints) : constraints * bool :=
  if has_constraint p c then (c, false) else (p :: c, true).
(** lifetime_constraints.cc:28-36 [join]; the flag is [LatticeJoinEffect::Changed]. *)
Fixpoint join_loop (c : constraints) (changed : bool) (other : constraints) : constraints * bool :=
  match other with
  | [] => (c, changed)
  | p :: other' => let (c', second) := insert p c in join_loop c' (changed || second) other'
  end.
Definition join (c other : constraints) : constraints * bool := join_loop c false other.

(** lifetime_constraints.cc:74-78: the lifetimes pushed for [v]. *)
Definition longer_than (c : constraints) (v : lifetime) : list lifetime :=
  map snd (filter (fun p => fst p =? v) c).
(** lifetime_constraints.cc:64-82 [GetOutlivingLifetimes]: the loop.  The head of [stack] is its back.
    [None]: the fuel did not suffice, shown never to happen. *)
Fixpoint walk (fuel : nat) (c : constraints) (stack visited : list lifetime) : option (list lifetime) :=
  match stack with
  | [] => Some visited
  | v :: stack' =>
      match fuel with
      | O => None
      | S fuel' => if mem v visited then walk fuel' c stack' visited
                   else walk fuel' c (rev (longer_than c v) ++ stack') (v :: visited)
      end
  end.
Definition outliving (c : constraints) (l : lifetime) : option (list lifetime) :=
  match walk (1 + length c) c [l] [] with
  | Some visited => Some (erase l visited)
  | None => None
  end.

(** lifetime_annotations/lifetime_substitutions.cc:37-45 [Substitute]: a loop, so a relation. *)
Inductive substitute (m : zmap) : lifetime -> lifetime -> Prop :=
| SDone l : assoc l m = None -> substitute m l l
| SStep l l' r : assoc l m = Some l' -> substitute m l' r -> substitute m l r.
(** lifetime_substitutions.cc:20-35 [Add]. *)
Inductive add (m : zmap) (v s : lifetime) : zmap -> Prop :=
| ASame s' : substitute m s s' -> v = s' -> add m v s m
| APut s' : substitute m s s' -> v <> s' -> add m v s (put v s' m).

(** lifetime_constraints.cc:40-60 [LifetimeDSU]: [MakeSet], [Find] with path compression, [Union]. *)
Definition make_set (l : lifetime) (p : zmap) : zmap := put l l p.
Inductive find (p : zmap) : lifetime -> lifetime -> zmap -> Prop :=
| FRoot l : assoc l p = Some l -> find p l l p
| FStep l q r p' : assoc l p = Some q -> l <> q -> find p q r p' -> find p l r (put l r p').
Inductive union (p : zmap) (a b : lifetime) : zmap -> Prop :=
| USame r p1 p2 : find p a r p1 -> find p1 b r p2 -> union p a b p2
| UDiff ra rb p1 p2 : find p a ra p1 -> find p1 b rb p2 -> ra <> rb -> union p a b (put ra rb p2).

(** lifetime_constraints.cc:146-150: the loop over the longer lifetimes of [l]. *)
Inductive unions (all already : list lifetime) (l : lifetime) : list lifetime -> zmap -> zmap -> Prop :=
| UsNil p : unions all already l [] p p
| UsSkip m ms p p' : In m already \/ ~ In m all -> unions all already l ms p p' -> unions all already l (m :: ms) p p'
| UsJoin m ms p p1 p' : ~ In m already -> In m all -> union p m l p1 -> unions all already l ms p1 p' -> unions all already l (m :: ms) p p'.
(** lifetime_constraints.cc:125-151: the loop over the lifetimes of the function.  Its state: substitutions,
    lifetimes that have one, the union-find forest. *)
Record state := State { subs : zmap; already : list lifetime; dsu : zmap }.
Inductive main_loop (c : constraints) (all : list lifetime) : list lifetime -> state -> state -> Prop :=
| MNil st : main_loop c all [] st st
| MLocal l ls out longer x st m st' :
    outliving c l = Some out -> enum longer (erase Static out) ->
    In x longer -> is_local x = true -> add (subs st) l x m ->
    main_loop c all ls (State m (l :: already st) (dsu st)) st' -> main_loop c all (l :: ls) st st'
| MUnion l ls out longer st p st' :
    outliving c l = Some out -> enum longer (erase Static out) ->
    (forall x, In x longer -> is_local x = false) -> unions all (already st) l longer (dsu st) p ->
    main_loop c all ls (State (subs st) (already st) p) st' -> main_loop c all (l :: ls) st st'.
(** lifetime_constraints.cc:157-170: the loop that adds the representatives. *)
Inductive final_loop (already : list lifetime) (cc_of_static : lifetime) : list lifetime -> zmap -> zmap -> zmap -> Prop :=
| FinNil m p : final_loop already cc_of_static [] m p m
| FinSkip l ls m p m' : In l already \/ is_variable l = false -> final_loop already cc_of_static ls m p m' -> final_loop already cc_of_static (l :: ls) m p m'
| FinAdd l ls m p cc p' m1 m' : ~ In l already -> is_variable l = true -> find p l cc p' ->
    add m l (if cc =? cc_of_static then Static else cc) m1 ->
    final_loop already cc_of_static ls m1 p' m' -> final_loop already cc_of_static (l :: ls) m p m'.
(** lifetime_constraints.cc:107-115: everything that outlives 'static becomes 'static. *)
Inductive add_static : list lifetime -> zmap -> zmap -> Prop :=
| StNil m : add_static [] m m
| StCons l ls m m1 m' : add m l Static m1 -> add_static ls m1 m' -> add_static (l :: ls) m m'.
(** lifetime_constraints.cc:84-175 [ApplyToFunctionLifetimes]: from the constraints and the lifetimes that occur
    in the function to the substitution applied to it; [None] is the error "Function assigns local to static". *)
Inductive apply (c : constraints) (all : list lifetime) : option zmap -> Prop :=
| ApError out x : outliving c Static = Some out -> In x out -> is_local x = true -> apply c all None
| ApOk out statics order m0 p st cc p1 m :
    outliving c Static = Some out -> (forall x, In x out -> is_local x = false) ->
    enum statics out -> add_static statics [] m0 ->
    enum order all -> p = fold_left (fun p l => make_set l p) order (make_set Static []) ->
    main_loop c all order (State m0 statics p) st ->
    find (dsu st) Static cc p1 -> final_loop (already st) cc order (subs st) p1 m -> apply c all (Some m).
