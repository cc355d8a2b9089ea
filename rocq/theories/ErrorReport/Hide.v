(** Model of [hide_unstable_details] (common/error_report.rs:278-286). *)
From Coq Require Import List NArith Bool Arith Lia.
From Coq Require Import Strings.String.
From Verif.Common Require Import Str Replace.
Import ListNotations.
Local Open Scope N_scope.
Local Open Scope list_scope.

Section Hide.
  (** [\d] in the regex crate matches any Unicode decimal digit. *)
  Variable digit : char -> bool.

  (** The longest non-empty run of characters satisfying a predicate ([\d+]). *)
  Fixpoint skip_run (p : char -> bool) (s : str) : str :=
    match s with
    | c :: s' => if p c then skip_run p s' else s
    | [] => []
    end.
  Definition plus (p : char -> bool) (s : str) : option str :=
    match s with
    | c :: s' => if p c then Some (skip_run p s') else None
    | [] => None
    end.
  Definition bind {A B} (o : option A) (f : A -> option B) : option B :=
    match o with Some a => f a | None => None end.
  (** error_report.rs:280: a match of [DefId\(\d+:\d+ ~ ] at the start of the text: the rest after
      it.  ([':'] and [' '] are not digits, so the greedy match is the only one.) *)
  Definition match_def_id (s : str) : option str :=
    bind (expect (lit "DefId(") s) (fun s =>
    bind (plus digit s) (fun s =>
    bind (expect (lit ":") s) (fun s =>
    bind (plus digit s) (expect (lit " ~ "))))).
  (** error_report.rs:284: [\[[0-9a-fA-F]{4}\]]. *)
  Definition hex (c : char) : bool :=
    ((48 <=? c) && (c <=? 57)) || ((97 <=? c) && (c <=? 102)) || ((65 <=? c) && (c <=? 70)).
  Definition match_hash (s : str) : option str :=
    match s with
    | a :: b :: c :: d :: e :: f :: s' =>
        if (a =? ch "[") && hex b && hex c && hex d && hex e && (f =? ch "]")
        then Some s' else None
    | _ => None
    end.

  (** error_report.rs:278-286. *)
  Definition hide_unstable_details (s : str) : str :=
    replace_all match_hash [] (replace_all match_def_id (lit "DefId(") s).
End Hide.
