(** The unstable parts of error messages. *)
From Coq Require Import List NArith Bool Arith Lia.
From Coq Require Import Strings.String.
From Verif.Common Require Import Str.
From Verif.ErrorReport Require Import Hide.
Import ListNotations.
Local Open Scope N_scope.
Local Open Scope list_scope.

(** Any Unicode notion of digit: on ASCII it means [0-9]. *)
Definition lawful_digit (digit : char -> bool) : Prop :=
  forall c, c < 128 -> digit c = is_ascii_digit c.
Definition number (digit : char -> bool) (n : str) : Prop :=
  n <> [] /\ Forall (fun c => digit c = true) n.
(** [DefId(<crate>:<index> ~ ] as rustc prints it, and a crate hash. *)
Definition def_id (n k : str) : str := lit "DefId(" ++ n ++ lit ":" ++ k ++ lit " ~ ".
Definition hash (h : str) : str := lit "[" ++ h ++ lit "]".
Definition four_hex (h : str) : Prop := List.length h = 4%nat /\ Forall (fun c => hex c = true) h.
Definition mentions_def_id (digit : char -> bool) (s : str) : Prop :=
  exists pre n k post, number digit n /\ number digit k /\ s = pre ++ def_id n k ++ post.
Definition mentions_hash (s : str) : Prop :=
  exists pre h post, four_hex h /\ s = pre ++ hash h ++ post.
