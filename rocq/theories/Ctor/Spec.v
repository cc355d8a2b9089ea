(** Specification vocabulary for in-place construction, independent of how the
    combinators work. *)
From Coq Require Import List Arith Bool Permutation.
From Verif Require Import Ctor.Model.
Import ListNotations.
Local Open Scope list_scope.

(** [q] is the address of a leaf object inside a value of type [t] at [p]. *)
Inductive leaf_of : ty -> list nat -> list nat -> Prop :=
| leaf_here : forall p, leaf_of TLeaf p p
| leaf_field : forall ts i t p q,
    nth_error ts i = Some t -> leaf_of t (field p i) q -> leaf_of (TStruct ts) p q.

(** The destination holds a complete value / no object at all. *)
Definition initialized (t : ty) (p : list nat) (s : st) : Prop :=
  forall q, leaf_of t p q -> exists o, mem s q = Some o.
Definition vacant (t : ty) (p : list nat) (s : st) : Prop :=
  forall q, leaf_of t p q -> mem s q = None.

(** The part of a log that concerns one object. *)
Definition about (o : nat) (e : event) : bool :=
  match e with
  | EInit _ o' | EDrop _ o' | EClobber _ o' => o =? o'
  | EDropDead _ => false
  end.
Definition history (o : nat) (l : list event) : list event := filter (about o) l.

(** An object lived a proper life: constructed once, and then either still
    alive where it was constructed, or destroyed there exactly once. *)
Inductive life (s : st) (o : nat) : Prop :=
| alive : forall p,
    history o (log s) = [EInit p o] ->
    (forall q, mem s q = Some o <-> q = p) -> life s o
| dead : forall p,
    history o (log s) = [EInit p o; EDrop p o] -> (forall q, mem s q <> Some o) -> life s o.

(** Every object ever constructed lived a proper life, nothing else is in
    memory, and no destructor ran on dead memory. *)
Record sound (s : st) : Prop := {
  so_old : forall o, o < next s -> life s o;
  so_new : forall o, next s <= o -> history o (log s) = [] /\ forall q, mem s q <> Some o;
  so_dead : forall p, ~ In (EDropDead p) (log s)
}.

(** Rust's types: [wt c fe] says that [c] type-checks with an error type that
    is inhabited ([fe = true]) or is [Infallible] ([fe = false]). *)
Inductive wt : ctor -> bool -> Prop :=
| wt_move : forall t fe, wt (CMove t) fe
| wt_fn : forall t b, wt (CFn t b) false
| wt_unreach : forall t fe, wt (CUnreachable t) fe
| wt_error : forall t e, wt (CError t e) true
| wt_mkf : forall c fe, wt c false -> wt (CMakeFallible c) fe
| wt_into : forall c f fe fe', wt c fe ->
    (fe = true -> fe' = false -> forall e, f e = None) -> wt (CErrInto c f) fe'
| wt_then : forall c f fe, wt c fe -> (fe = false -> forall e, f <> FErr e) -> wt (CThen c f) fe
| wt_map : forall c f fe fe', wt c fe ->
    (fe = true -> fe' = false -> forall e, f e = None) -> wt (CMapErr c f) fe'
| wt_orelse : forall c f fe fe', wt c fe ->
    (forall e o, f e = Some o -> wt o fe' /\ out o = out c) -> wt (COrElse c f) fe'
| wt_expect : forall c fe, wt c fe -> wt (CExpect c) false
| wt_unwrap : forall c fe, wt c fe -> wt (CUnwrap c) false
| wt_uod : forall c d fe fe', wt c fe -> wt d fe' -> out d = out c -> wt (CUnwrapOrDefault c d) fe'
(* ctor!: every field named exactly once (ctor.rs:1519-1541), each with an
   infallible constructor of the field's type (init_field's bound) *)
| wt_struct : forall ts fs,
    Permutation (map fst fs) (seq 0 (length ts)) ->
    (forall i c, In (i, c) fs -> wt c false /\ nth_error ts i = Some (out c)) ->
    wt (CStruct ts fs) false.

(** No closure given to [ctor_then] anywhere in the program fails. *)
Inductive no_failing_then : ctor -> Prop :=
| nf_move : forall t, no_failing_then (CMove t)
| nf_fn : forall t b, no_failing_then (CFn t b)
| nf_unreach : forall t, no_failing_then (CUnreachable t)
| nf_error : forall t e, no_failing_then (CError t e)
| nf_mkf : forall c, no_failing_then c -> no_failing_then (CMakeFallible c)
| nf_into : forall c f, no_failing_then c -> no_failing_then (CErrInto c f)
| nf_then : forall c, no_failing_then c -> no_failing_then (CThen c FOk)
| nf_map : forall c f, no_failing_then c -> no_failing_then (CMapErr c f)
| nf_orelse : forall c f, no_failing_then c ->
    (forall e o, f e = Some o -> no_failing_then o) -> no_failing_then (COrElse c f)
| nf_expect : forall c, no_failing_then c -> no_failing_then (CExpect c)
| nf_unwrap : forall c, no_failing_then c -> no_failing_then (CUnwrap c)
| nf_uod : forall c d, no_failing_then c -> no_failing_then d -> no_failing_then (CUnwrapOrDefault c d)
| nf_struct : forall ts fs, (forall i c, In (i, c) fs -> no_failing_then c) ->
    no_failing_then (CStruct ts fs).

(** The documented reading of the combinators (ctor.rs:126-243: "functions
    similarly to [Result::and_then]" and so on): a relation on results alone,
    [None] standing for a panic. *)
Definition res := option (unit + nat).
Definition ok : res := Some (inl tt).
Definition err (e : nat) : res := Some (inr e).

Definition res_and_then (r : res) (f : res) : res :=
  match r with Some (inl _) => f | _ => r end.
Definition res_map_err (r : res) (f : nat -> option nat) : res :=
  match r with
  | Some (inr e) => match f e with Some e' => Some (inr e') | None => None end
  | _ => r end.
Definition res_unwrap (r : res) : res :=
  match r with Some (inr _) => None | _ => r end.

Definition fres_res (f : fres) : res :=
  match f with FOk => ok | FErr e => err e | FPanic => None end.

Inductive gives : ctor -> res -> Prop :=
| gi_move : forall t, gives (CMove t) ok
| gi_fn : forall t, gives (CFn t false) ok
| gi_fnp : forall t, gives (CFn t true) None
| gi_unreach : forall t, gives (CUnreachable t) None
| gi_error : forall t e, gives (CError t e) (err e)
| gi_mkf : forall c r, gives c r -> gives (CMakeFallible c) r
| gi_into : forall c f r, gives c r -> gives (CErrInto c f) (res_map_err r f)
| gi_then : forall c f r, gives c r -> gives (CThen c f) (res_and_then r (fres_res f))
| gi_map : forall c f r, gives c r -> gives (CMapErr c f) (res_map_err r f)
| gi_orelse_ok : forall c f r, gives c r -> (forall e, r <> err e) -> gives (COrElse c f) r
| gi_orelse : forall c f e d r, gives c (err e) -> f e = Some d -> gives d r -> gives (COrElse c f) r
| gi_orelse_p : forall c f e, gives c (err e) -> f e = None -> gives (COrElse c f) None
| gi_expect : forall c r, gives c r -> gives (CExpect c) (res_unwrap r)
| gi_unwrap : forall c r, gives c r -> gives (CUnwrap c) (res_unwrap r)
| gi_uod_ok : forall c d r, gives c r -> (forall e, r <> err e) -> gives (CUnwrapOrDefault c d) r
| gi_uod : forall c d e r, gives c (err e) -> gives d r -> gives (CUnwrapOrDefault c d) r
| gi_struct_ok : forall ts fs,
    (forall i c, In (i, c) fs -> gives c ok) -> gives (CStruct ts fs) ok
| gi_struct_panic : forall ts fs1 i c fs2 r,
    (forall j d, In (j, d) fs1 -> gives d ok) -> gives c r -> r <> ok ->
    gives (CStruct ts (fs1 ++ (i, c) :: fs2)) None.

Definition outcome_res (o : outcome) : option res :=
  match o with OOk => Some ok | OErr e => Some (err e) | OPanic => Some None | OAbort => None end.

(** The leaves of a value in declaration order. *)
Fixpoint leaves (t : ty) (p : list nat) : list (list nat) :=
  match t with
  | TLeaf => [p]
  | TStruct ts =>
      (fix go (i : nat) (ts : list ty) : list (list nat) :=
         match ts with [] => [] | t :: ts => leaves t (field p i) ++ go (S i) ts end) 0 ts
  end.

(** [es] is the log of destroying the objects live in [s] at [qs], one after
    the other, in that order. *)
Definition drops (s : st) (qs : list (list nat)) (es : list event) : Prop :=
  Forall2 (fun q e => exists o, mem s q = Some o /\ e = EDrop q o) qs es.

(** The named fields are constructed successfully one after the other. *)
Inductive builds (dp : nat -> bool) (p : list nat) : list (nat * ctor) -> st -> st -> Prop :=
| builds_nil : forall s, builds dp p [] s s
| builds_cons : forall i c fs s s1 s2,
    run dp c (field p i) s = (OOk, s1) -> builds dp p fs s1 s2 -> builds dp p ((i, c) :: fs) s s2.

(** A call on a [Slot<T>] that type-checks and whose constructor has no failing
    [ctor_then] closure. *)
Inductive slot_op_ok (t : ty) : slot_op -> Prop :=
| so_clear : slot_op_ok t SClear
| so_replace : forall c fe, wt c fe -> no_failing_then c -> out c = t -> slot_op_ok t (SReplace c).

(** A fresh program state: nothing constructed yet. *)
Definition fresh_st : st := St (fun _ => None) 0 [].
