(** Specification of points-to maps and of the analysis state. *)
From Coq Require Import List ZArith Bool.
From Verif.Lifetimes Require Model.
From Verif.PointsTo Require Import Model.
Import ListNotations.

(** The sets and maps that the public operations build. *)
Inductive osets : oset -> Prop :=
| OSNew l : osets (of_list l)
| OSAdd s x : osets s -> osets (add1 s x)
| OSAddAll s t : osets s -> osets t -> osets (add_all s t)
| OSInter s t : osets s -> osets t -> osets (oset_inter s t)
| OSGet m ps : pmaps m -> osets ps -> osets (get_many m ps)
with pmaps : pmap -> Prop :=
| PMEmpty : pmaps empty
| PMSet m p s : pmaps m -> osets s -> pmaps (set m p s)
| PMSetMany m ps s : pmaps m -> osets ps -> osets s -> pmaps (set_many m ps s)
| PMExtend m p s : pmaps m -> osets s -> pmaps (extend m p s)
| PMSetExpr m e s : pmaps m -> osets s -> pmaps (set_expr m e s)
| PMUnion m m' : pmaps m -> pmaps m' -> pmaps (union m m').

(** What a map says: about which entities it says anything, and what they point to. *)
Inductive entity := Pointer (p : object) | Expr (e : expr).
Definition entry (m : pmap) (x : entity) : option oset :=
  match x with Pointer p => lookup Z.eqb p (pointers m) | Expr e => lookup expr_eqb e (exprs m) end.
Definition known (m : pmap) (x : entity) : Prop := entry m x <> None.
Definition points (m : pmap) (x : entity) (o : object) : Prop := exists s, entry m x = Some s /\ In o s.
(** [m'] says at least as much as [m]; both say the same. *)
Definition below (m m' : pmap) : Prop :=
  (forall x, known m x -> known m' x) /\ forall x o, points m x o -> points m' x o.
Definition same (m m' : pmap) : Prop :=
  (forall x, known m x <-> known m' x) /\ forall x o, points m x o <-> points m' x o.

(** The states of the analysis that the operations build. *)
Inductive states : lattice -> Prop :=
| SErr e : states (Err e)
| SOk p c s : pmaps p -> NoDup c -> osets s -> states (Ok p c s).
(** The order of the analysis: an error is the top; otherwise more points-to facts, more constraints, fewer
    single-valued objects. *)
Definition lower (a b : lattice) : Prop :=
  match a, b with
  | _, Err _ => True
  | Err _, Ok _ _ _ => False
  | Ok p c s, Ok p' c' s' => below p p' /\ (forall q, In q c -> In q c') /\ forall o, In o s' -> In o s
  end.
Definition equivalent (a b : lattice) : Prop := lower a b /\ lower b a.
(** A history of joins into a state: how many of them report a change. *)
Fixpoint changes (a : lattice) (others : list lattice) : nat :=
  match others with
  | [] => 0
  | b :: others' => let (a', e) := join a b in
                    (match e with Changed => 1 | Unchanged => 0 end) + changes a' others'
  end.
(** Everything a state mentions belongs to a finite analysis problem. *)
Definition within (ents : list entity) (objs : list object) (cons : list (Z * Z)) (a : lattice) : Prop :=
  match a with
  | Err _ => True
  | Ok p c s => (forall x, known p x -> In x ents) /\ (forall x o, points p x o -> In o objs) /\
                (forall q, In q c -> In q cons) /\ forall o, In o s -> In o objs
  end.
