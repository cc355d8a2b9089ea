(** Which definitions a Rust type depends on, and who may use them. *)
From Coq Require Import List Bool Arith.
From Verif Require Import Visibility.Model.
Import ListNotations.

(** The types that a type is made of, as Rust sees it: type aliases are transparent, generic arguments count. *)
Inductive part : ty -> ty -> Prop :=
| p_ptr t : part (TPtr t) t
| p_ref t : part (TRef t) t
| p_rref t : part (TRvalueRef t) t
| p_param c ps r t : In t ps -> part (TFunc c ps r) t
| p_ret c ps r : part (TFunc c ps r) r
| p_element r l t : In t l -> part (TUniform r l) t
| p_alias o t : part (TAlias o t) t
| p_generic l t : In t l -> part (TBridgeGeneric l) t
| p_opt t : part (TOptional t) t
| p_fst a b : part (TPair a b) a
| p_snd a b : part (TPair a b) b
| p_cparam ps r t : In t ps -> part (TCallable ps r) t
| p_cret ps r : part (TCallable ps r) r
| p_co t : part (TCo t) t
| p_arg l t : In t l -> part (TExisting l) t.
Inductive made_of : ty -> ty -> Prop :=
| m_here t : made_of t t
| m_in t u v : part t u -> made_of u v -> made_of t v.

(** The types named in the spelling of a type: what an alias stands for is not spelled. *)
Inductive spells : ty -> ty -> Prop :=
| s_here t : spells t t
| s_in t u v : part t u -> (forall o w, t <> TAlias o w) -> spells u v -> spells t v.

(** Types of generated items, by item. *)
Definition types_of (g : gitem) : list ty :=
  match g with
  | GFunc f | GTraitImpl _ f => fn_params f ++ [fn_ret f]
  | GVar _ t | GAlias _ t => [t]
  | GField _ _ (Some t) => [t]
  | GField _ _ None => []
  end.
Definition owner_of (g : gitem) : nat :=
  match g with GFunc f | GTraitImpl _ f => fn_owner f | GVar o _ | GAlias o _ | GField o _ _ => o end.

(** Types in which generic arguments occur only where the generator looks for them. *)
Definition plain (t : ty) : Prop :=
  forall u, made_of t u -> match u with TUniform _ l | TBridgeGeneric l | TExisting l => l = [] | _ => True end.

(** Records that any target may instantiate: from a template, without an alias that makes one target their owner. *)
Definition ownerless (r : rec) : Prop := r_template r = true /\ r_canonical_alias r = false.

(** Template instantiations belong to the target being built (importer.cc:1272-1277). *)
Definition instantiated_in (current : nat) (t : ty) : Prop :=
  forall r, made_of t (TRecord r) -> ownerless r -> r_owner r = current.
