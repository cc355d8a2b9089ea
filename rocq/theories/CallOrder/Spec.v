(** Specification of the order of the analysis of functions: the call graph, and results that follow from the bodies of the functions. *)
From Coq Require Import List Arith ZArith Bool.
From Verif.CallOrder Require Import Model.
Import ListNotations.
Local Open Scope Z_scope.

Section Spec.
Context {L : Type}.
Variable U : unit_info L.

(** The call graph of the functions that are analyzed through their bodies. *)
Definition has_body (f : Z) : Prop := builtin L U f = false /\ defined L U f = true.
Definition calls (f g : Z) : Prop := has_body f /\ exists cs, callees L U f = inl cs /\ In g cs.
Inductive reaches : Z -> Z -> Prop :=
| RSelf f : reaches f f
| RCall f g h : calls f g -> reaches g h -> reaches f h.
Definition recursive (f : Z) : Prop := exists g, calls f g /\ reaches g f.

(** No virtual methods; finitely many functions; the analysis of a function's body depends only on the results for its callees. *)
Definition no_virtual : Prop := forall f, is_virtual L U f = false.
Definition within (F : list Z) (definitions : list Z) : Prop :=
  (forall f, In f definitions -> In f F) /\ forall f g, In f F -> calls f g -> In g F.
Definition depends_on_callees : Prop :=
  forall f a a', (forall g, calls f g -> lookup L a g = lookup L a' g) -> single L U f a = single L U f a'.

(** [r] is the right result for [f] if the other results are [a]. *)
Inductive follows (a : env L) (f : Z) : result L -> Prop :=
| FDeclared : defined L U f = false -> follows a f (annotations L U f)
| FNoCallees e : defined L U f = true -> callees L U f = inr e -> follows a f (Failed L e)
| FBody : has_body f -> (exists cs, callees L U f = inl cs) -> follows a f (single L U f a).
(** The same up to the names of the lifetimes. *)
Definition follows_up_to_names (a : env L) (f : Z) (r : result L) : Prop :=
  exists l l', r = Lifetimes L l /\ single L U f a = Lifetimes L l' /\ isomorphic L U l l' = true.
End Spec.

Section Order.
Context {L : Type}.
(** Two views of the same unit: the callees of each function may be listed in different orders (and differently often). *)
Record same_unit (U V : unit_info L) : Prop := Same {
  su_builtin : forall f, builtin L U f = builtin L V f;
  su_defined : forall f, defined L U f = defined L V f;
  su_annotations : forall f, annotations L U f = annotations L V f;
  su_single : forall f a, single L U f a = single L V f a;
  su_callees : forall f, match callees L U f, callees L V f with
                         | inl cs, inl ds => forall g, In g cs <-> In g ds
                         | inr e, inr e' => e = e'
                         | _, _ => False
                         end
}.
End Order.

Section Overrides.
Context {L : Type}.
Variable U : unit_info L.
(** What a virtual method that calls nothing must get: the lifetimes of its own body, constrained by what its overriders get, one after the other;
    overriders whose analysis failed are passed over. *)
Inductive combined : Z -> result L -> Prop :=
| CFailed f e : single L U f [] = Failed L e -> combined f (Failed L e)
| CBody f l r : single L U f [] = Lifetimes L l -> constrained f l (overriding L U f) r -> combined f r
with constrained : Z -> L -> list Z -> result L -> Prop :=
| KNil f l : constrained f l [] (Lifetimes L l)
| KCons f l o os lo l' r : combined o (Lifetimes L lo) -> constrain L U f l lo = Lifetimes L l' -> constrained f l' os r -> constrained f l (o :: os) r
| KConflict f l o os lo e : combined o (Lifetimes L lo) -> constrain L U f l lo = Failed L e -> constrained f l (o :: os) (Failed L e)
| KSkip f l o os e r : combined o (Failed L e) -> constrained f l os r -> constrained f l (o :: os) r.
(** The methods below a method: itself, its overriders, their overriders, ... *)
Inductive below : Z -> Z -> Prop :=
| BSelf f : below f f
| BOver f o g : In o (overriding L U f) -> below o g -> below f g.
End Overrides.
