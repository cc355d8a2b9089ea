(** What a feature list means, from the documentation of the flags. *)
From Coq Require Import List NArith Bool.
From Coq Require Import Strings.String.
From Verif.Common Require Import Str.
From Verif.Features Require Import Model.
Import ListNotations.

(** Name [n] turns on flag [f]: its own flag; [supported] implies [types]; [all] is everything
    that is not opt-in only. *)
Definition turns_on (n : str) (f : feature) : Prop :=
  n = short_name f \/
  (n = lit "supported" /\ f = Types) \/
  (n = lit "all" /\ ~ In f [NoAssumeLifetimes; LayoutCompatTuple; AlwaysSpecializeGenericsInCppApiFromRust; OoCasting]).
Definition known (n : str) : Prop := n = lit "all" \/ exists f, n = short_name f.
