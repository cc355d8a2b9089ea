(** Model of [rs_bindings_from_cc/bazel_label.rs].  A label is a Rust string. *)
From Coq Require Import List NArith Bool.
From Coq Require Import Strings.String.
From Verif.Common Require Import Str.
Import ListNotations.
Local Open Scope N_scope.
Local Open Scope list_scope.

Definition colon := ch ":".
Definition slash := ch "/".
Definition underscore := ch "_".

(** bazel_label.rs:20-28 *)
Definition target_name (s : str) : str :=
  match split_once colon s with
  | Some (_, t) => t
  | None => match rsplit_once slash s with Some (_, t) => t | None => s end
  end.
(** bazel_label.rs:30-32 *)
Definition package_name (s : str) : str :=
  match rsplit_once colon s with Some (p, _) => p | None => s end.
(** bazel_label.rs:34-36 *)
Definition last_package_component (s : str) : str :=
  match rsplit_once slash (package_name s) with Some (_, t) => t | None => [] end.

(** bazel_label.rs:45-53.  [is_numeric] is [char::is_numeric] (a Unicode table). *)
Definition target_name_escaped (is_numeric : char -> bool) (s : str) : str :=
  let t := target_name s in
  let t := if str_eqb t (lit "core") then lit "core_" ++ last_package_component s
           else match t with
                | c :: _ => if is_numeric c then ch "n" :: t else t
                | [] => t
                end in
  map (fun c => if is_ascii_alnum c then c else underscore) t.

(** [{b:02x}] *)
Definition hex_digit (d : N) : char := if d <? 10 then 48 + d else 87 + d.
Definition hex02 (b : N) : str := [hex_digit (b / 16); hex_digit (b mod 16)].
(** bazel_label.rs:60-85 (capacity management dropped) *)
Definition convert_to_cc_identifier (s : str) : str :=
  underscore :: flat_map (fun b => if is_ascii_alnum b then [b] else underscore :: hex02 b) (utf8 s).

(** bazel_label.rs:87-89 *)
Definition components (s : str) : str * str := (target_name s, package_name s).
(** bazel_label.rs:92-96 *)
Definition label_eq (a b : str) : bool :=
  str_eqb (fst (components a)) (fst (components b)) && str_eqb (snd (components a)) (snd (components b)).
(** bazel_label.rs:104-108: tuples compare lexicographically. *)
Definition label_cmp (a b : str) : comparison :=
  match str_cmp (fst (components a)) (fst (components b)) with
  | Eq => str_cmp (snd (components a)) (snd (components b))
  | c => c
  end.
(** bazel_label.rs:110-114 *)
Definition label_hash {H} (hash : str * str -> H) (a : str) : H := hash (components a).
(** bazel_label.rs:122-131 *)
Definition label_display (s : str) : str :=
  match strip_prefix (lit "//_unknown_target:") s with Some r => r | None => s end.
