(** Specification of lifetime constraints. *)
From Coq Require Import List Arith ZArith Bool Lia Relations.
From Verif.Lifetimes Require Import Model.
Import ListNotations.
Local Open Scope Z_scope.

(** [outlives c l m]: the constraints imply that [m] lives at least as long as [l]. *)
Definition outlives (c : constraints) : lifetime -> lifetime -> Prop := clos_refl_trans _ (fun l m => In (l, m) c).
(** The same set of constraints. *)
Definition same (c c' : constraints) : Prop := forall p, In p c <-> In p c'.
(** The lifetimes of a function's signature: variables and 'static. *)
Definition signature (all : list lifetime) : Prop := NoDup all /\ forall l, In l all -> is_variable l = true \/ l = Static.
(** [l] has to be as long as 'static. *)
Definition forced_static (c : constraints) (l : lifetime) : Prop := outlives c Static l.
(** Something local has to outlive [l]. *)
Definition forced_local (c : constraints) (l : lifetime) : Prop := exists x, is_local x = true /\ x <> l /\ outlives c l x.
(** Two lifetimes of the signature are related by a constraint that neither 'static nor a local lifetime settles. *)
Definition linked (c : constraints) (all : list lifetime) (l m : lifetime) : Prop :=
  In l all /\ In m all /\ outlives c l m /\ ~ forced_static c m /\ ~ forced_local c l.
Definition connected (c : constraints) (all : list lifetime) : lifetime -> lifetime -> Prop := clos_refl_sym_trans _ (linked c all).
