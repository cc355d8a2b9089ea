(** What the interner relies on: the arena contract, and Rust's aliasing rule. *)
From Coq Require Import List Arith Bool.
From Coq Require Import Strings.Byte.
From Verif.Interner Require Import Model.
Import ListNotations.

Definition inside (x : nat) (h : handle) : Prop := ptr h <= x < ptr h + len h.
(** Two regions share no byte. *)
Definition disjoint (a b : handle) : Prop := forall x, ~ (inside x a /\ inside x b).

Section Legal.
  Variable eqT : list byte -> list byte -> bool.
  (** The arena returns memory it has not handed out before; nobody else writes to
      memory behind a shared reference held by the interner. *)
  Definition legal_event (s : state) (e : event) : Prop :=
    match e with
    | Intern v fresh => Forall (disjoint (Handle fresh (length v))) (regions s)
    | OtherAlloc n fresh => Forall (disjoint (Handle fresh n)) (regions s)
    | OtherWrite a _ => forall h, In h (entries s) -> ~ inside a h
    end.
  Fixpoint legal (s : state) (es : list event) : Prop :=
    match es with
    | [] => True
    | e :: es' => legal_event s e /\ legal (fst (exec eqT s e)) es'
    end.
  (** [Eq] is an equivalence relation. *)
  Definition lawful_eq : Prop :=
    (forall a, eqT a a = true) /\ (forall a b, eqT a b = eqT b a) /\
    (forall a b c, eqT a b = true -> eqT b c = true -> eqT a c = true) /\
    (* equal values of a sized type, strings or slices have the same size in bytes *)
    (forall a b, eqT a b = true -> length a = length b).
End Legal.

(** Values interned by a history. *)
Definition interned_values (es : list event) : list (list byte) :=
  flat_map (fun e => match e with Intern v _ => [v] | _ => [] end) es.
