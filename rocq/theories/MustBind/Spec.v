(** What CRUBIT_MUST_BIND promises, in terms of the C++ declarations and of
    what a run delivers. *)
From Coq Require Import List Bool.
From Verif.MustBind Require Import Model.
Import ListNotations.

(** [at_path tu p x]: the declaration [x] occurs in the translation unit,
    enclosed (outermost first) by the scopes with the ids [p]. *)
Inductive at_path : list decl -> list nat -> decl -> Prop :=
| ap_here : forall tu x, In x tu -> at_path tu [] x
| ap_in : forall tu y p x,
    In y tu -> at_path (kids y) p x -> at_path tu (root_id y :: p) x.

(** Only classes and namespaces enclose other declarations; a class that was
    only declared does not. *)
Definition well_scoped (tu : list decl) : Prop :=
  forall y, In y (flat_map flatten tu) -> kids y <> [] ->
    (exists r, d_class (info y) = DRecord r /\ r <> Some RIncomplete) \/
    (exists r, d_class (info y) = DNamespace r).

(** No two declarations share an id (they are addresses). *)
Definition distinct_ids (tu : list decl) : Prop :=
  NoDup (map root_id (flat_map flatten tu)).

Definition annotated (x : decl) : Prop := d_must (info x) = ASet.
Definition unannotated (x : decl) : Prop := d_must (info x) = AUnset.
Definition in_current_target (x : decl) : Prop := g_owned (d_gen (info x)) = true.

(** A Rust item was emitted for the declaration. *)
Definition got_bindings (out : list (nat * emit)) (i : nat) : Prop := In (i, EBound) out.

(** Nothing at all was emitted for it. *)
Definition got_nothing (out : list (nat * emit)) (i : nat) : Prop :=
  forall e, ~ In (i, e) out.

(** The documented subjects of the annotation: functions and types. *)
Definition function_or_type (x : decl) : Prop :=
  match d_class (info x) with
  | DFunction _ | DRecord _ => True
  | DNamespace _ => False
  | DOther r => r = Some OEnum \/ r = Some OAlias \/ r = Some OExisting
  end.

(** The part of it that is kept: the function is not one that is replaced
    or emitted with an unsatisfiable bound, the type is complete and is not
    mapped to some other Rust type. *)
Definition kept (x : decl) : Prop :=
  match d_class (info x) with
  | DFunction _ =>
      g_fn (d_gen (info x)) <> FNone /\
      forall amb, g_fn (d_gen (info x)) <> FSome false amb
  | DRecord r =>
      r <> Some RIncomplete /\ r <> Some RExisting /\ g_bridge (d_gen (info x)) = false
  | DNamespace _ => True
  | DOther r => r <> Some OConstant /\ r <> Some OGlobalVar /\ r <> Some OExisting
  end.

(** C++ access: a declaration is inaccessible if it, or a class around it,
    is private or protected in its class (no access specifier counts as
    private in a `class`). *)
Definition inaccessible (x : decl) : Prop :=
  exists a parent_is_class,
    In (a, parent_is_class) (d_chain (info x)) /\
    (a = Private \/ a = Protected \/ (a = NoAccess /\ parent_is_class = true)).

(** [reaches tu i j]: importing [i] may lead to importing [j], through the
    declarations mentioned in signatures and the members of scopes. *)
Inductive reaches (tu : list decl) : nat -> nat -> Prop :=
| rc_self : forall x, In x (flat_map flatten tu) -> reaches tu (root_id x) (root_id x)
| rc_mention : forall x i j,
    In x (flat_map flatten tu) -> In i (d_nested (info x)) ->
    reaches tu i j -> reaches tu (root_id x) j
| rc_member : forall x y j,
    In x (flat_map flatten tu) -> In y (kids x) ->
    reaches tu (root_id y) j -> reaches tu (root_id x) j.

(** Reasons to fail the run over a declaration that are the user's doing:
    an annotation on it. *)
Definition asked_for (x : decl) : Prop :=
  d_must (info x) <> AUnset \/ d_dnb (info x) <> AUnset.

(** The declaration (a function) may run into an annotated function while
    it is being imported. *)
Definition runs_into_annotated_function (tu : list decl) (x : decl) : Prop :=
  exists i y f, In i (d_nested (info x)) /\ In y (flat_map flatten tu) /\
    reaches tu i (root_id y) /\ d_class (info y) = DFunction f /\ annotated y.
