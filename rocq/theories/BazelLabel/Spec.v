(** Independent description of labels: a label without a colon is shorthand for
    [package:last-component]; identifiers. *)
From Coq Require Import List NArith Bool.
From Coq Require Import Strings.String.
From Verif.Common Require Import Str.
Import ListNotations.
Local Open Scope N_scope.
Local Open Scope list_scope.

(** [l] is the text after the last slash of [s] (all of it if there is none). *)
Definition last_component (s l : str) : Prop :=
  ~ In (ch "/") l /\ (s = l \/ exists p, s = p ++ ch "/" :: l).

(** [full s f]: [f] is the label [s] with the target spelled out. *)
Inductive full : str -> str -> Prop :=
| Full_long s : In (ch ":") s -> full s s
| Full_short s l : ~ In (ch ":") s -> last_component s l -> full s (s ++ ch ":" :: l).

Definition ident_char (c : char) : Prop :=
  48 <= c <= 57 \/ 65 <= c <= 90 \/ 97 <= c <= 122 \/ c = ch "_".
Definition digit (c : char) : Prop := 48 <= c <= 57.
(** A (non-empty, ASCII) C/C++/Rust identifier. *)
Definition identifier (s : str) : Prop :=
  exists c r, s = c :: r /\ ~ digit c /\ Forall ident_char s.
