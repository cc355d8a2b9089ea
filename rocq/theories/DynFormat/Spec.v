(** Format strings, as a grammar: plain characters, doubled braces, and [{name}]. *)
From Coq Require Import List NArith Bool Arith.
From Coq Require Import Strings.String.
From Verif.Common Require Import Str.
Import ListNotations.
Local Open Scope N_scope.
Local Open Scope list_scope.

Inductive piece := Lit (c : char) | Var (i : nat).

Section Grammar.
  Variable is_ws : char -> bool.
  Variable names : list str.

  (** [i] is the first variable called [n]. *)
  Definition first_name (n : str) (i : nat) : Prop :=
    nth_error names i = Some n /\ forall j, (j < i)%nat -> nth_error names j <> Some n.
  (** [n] is [t] without white space at the ends. *)
  Definition trims_to (t n : str) : Prop :=
    exists a b, t = a ++ n ++ b /\ forallb is_ws a = true /\ forallb is_ws b = true /\
      (forall c r, n = c :: r -> is_ws c = false) /\ (forall c r, n = r ++ [c] -> is_ws c = false).

  Inductive spells : list piece -> str -> Prop :=
  | S_nil : spells [] []
  | S_char c ps s : c <> ch "{" -> c <> ch "}" -> spells ps s -> spells (Lit c :: ps) (c :: s)
  | S_open ps s : spells ps s -> spells (Lit (ch "{") :: ps) (ch "{" :: ch "{" :: s)
  | S_close ps s : spells ps s -> spells (Lit (ch "}") :: ps) (ch "}" :: ch "}" :: s)
  | S_var t n i ps s :
      ~ In (ch "}") t -> (forall r, t <> ch "{" :: r) -> trims_to t n -> first_name n i ->
      spells ps s -> spells (Var i :: ps) (ch "{" :: t ++ ch "}" :: s).
End Grammar.

(** Substitution. *)
Definition subst (args : list str) (ps : list piece) : str :=
  flat_map (fun p => match p with Lit c => [c] | Var i => nth i args [] end) ps.
(** Escaping of arbitrary text. *)
Definition escape (s : str) : str :=
  flat_map (fun c => if (c =? ch "{") || (c =? ch "}") then [c; c] else [c]) s.
