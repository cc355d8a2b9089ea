(** Model of parts of [common/code_gen_utils.rs]. *)
From Coq Require Import List NArith Bool Arith.
From Coq Require Import Strings.String.
From Verif.Common Require Import Str.
From Verif.Features Require Import Model.
From Verif.CodeGen Require Import Words.
Import ListNotations.
Local Open Scope N_scope.
Local Open Scope list_scope.

Definition word_in (s : str) (l : list string) : bool := existsb (fun w => str_eqb s (lit w)) l.

(** code_gen_utils.rs:55-157 *)
Definition is_cpp_reserved_keyword (ident : str) : bool := word_in ident reserved_cc_keywords.
(** code_gen_utils.rs:161-636 *)
Definition is_cpp_nonportable_word (ident : str) (features : flags) : bool :=
  if is_cpp_reserved_keyword ident then true
  else if negb (features ReserveStandardMacros) then false
  else word_in ident reserved_cc_macros.
(** code_gen_utils.rs:640-646 *)
Definition unkeyword_cpp_ident (ident : str) (features : flags) : str :=
  if is_cpp_nonportable_word ident features then ident ++ lit "_" else ident.

Section Idents.
  (** [unicode_ident::is_xid_start] / [is_xid_continue] (Unicode tables, not in /repo). *)
  Variable xid_start xid_continue : char -> bool.

  (** [syn]'s identifier parser used by [parse_any] (663-665): surrounding white space is
      skipped, then exactly one identifier, Rust keywords included.  Comments and raw
      identifiers [r#x], which [syn] also accepts, are not modelled. *)
  Definition is_space (c : char) : bool := (c =? 32) || (c =? 9) || (c =? 10) || (c =? 13).
  Fixpoint trim_start (s : str) : str :=
    match s with c :: s' => if is_space c then trim_start s' else s | [] => [] end.
  Definition trim (s : str) : str := rev (trim_start (rev (trim_start s))).
  Definition is_ident (s : str) : bool :=
    match s with
    | c :: r => (xid_start c || (c =? ch "_")) && forallb xid_continue r
    | [] => false
    end.
  Definition parse_any (s : str) : option str := if is_ident (trim s) then Some (trim s) else None.

  (** code_gen_utils.rs:690-697 *)
  Definition unchecked_format_cc_ident (ident : str) : option str :=
    match ident with [] => None | _ => parse_any ident end.
  (** code_gen_utils.rs:669-675 *)
  Definition format_cc_ident (ident : str) (features : flags) : option str :=
    if negb (is_cpp_nonportable_word ident features) then unchecked_format_cc_ident ident else None.
  (** code_gen_utils.rs:682-688 *)
  Definition format_nonportable_cc_ident (ident : str) : option str :=
    if negb (is_cpp_reserved_keyword ident) then unchecked_format_cc_ident ident else None.

  (** code_gen_utils.rs:786-799 *)
  Definition check_valid_cc_name_impl (name : str) : bool :=
    match name with
    | [] => false
    | c :: _ => xid_start c || (c =? ch "_") || (c =? ch ":")
    end.
  (** code_gen_utils.rs:802-808 *)
  Definition check_valid_cc_name (name : str) : bool :=
    negb (is_cpp_reserved_keyword name) && check_valid_cc_name_impl name.
  (** code_gen_utils.rs:813-819 *)
  Definition check_portable_cc_name (name : str) (features : flags) : bool :=
    negb (is_cpp_nonportable_word name features) && check_valid_cc_name_impl name.

  (** [{:08x}] of a [u32]: eight digits. *)
  Definition hex_digit (d : N) : char := if d <? 10 then 48 + d else 87 + d.
  Fixpoint hexn (n : nat) (c : N) : str :=
    match n with O => [] | S n' => hexn n' (c / 16) ++ [hex_digit (c mod 16)] end.

  (** code_gen_utils.rs:841-861: one character of the loop at position [i]. *)
  Definition escape_char (first : bool) (c : char) : str :=
    if c =? ch "_" then lit "_u"
    else if c =? ch "$" then lit "_d"
    else if c =? ch "." then lit "_p"
    else if (if first then xid_start c else xid_continue c) then [c]
    else lit "_x" ++ hexn 8 c.
  (** code_gen_utils.rs:833-864 (capacity dropped) *)
  Definition escape_non_identifier_chars (symbol : str) : str :=
    match symbol with
    | [] => []
    | c :: r => escape_char true c ++ flat_map (escape_char false) r
    end.
End Idents.

(** [s.split(c)] *)
Fixpoint split (c : char) (s : str) : list str :=
  match s with
  | [] => [[]]
  | x :: s' => if x =? c then [] :: split c s'
               else match split c s' with p :: ps => (x :: p) :: ps | [] => [[x]] end
  end.
(** code_gen_utils.rs:733-745; [None] is the [expect] panic. *)
Definition hyphen_to_underscore (s : str) : option str :=
  match split (ch "-") s with
  | [] => None
  | [first] => Some first
  | first :: second :: parts => Some (first ++ lit "_" ++ second ++ flat_map (fun p => lit "_" ++ p) parts)
  end.

(** code_gen_utils.rs:952-964; the derived [Ord] orders by variant, then by field.
    The format of [SupportLibHeader] is omitted (it is one value per process). *)
Inductive include :=
| SystemHeader (path : str) | UserHeader (path : str) | SupportLibHeader (path : str) | ExportedUserHeader (path : str).
Definition include_rank (i : include) : nat :=
  match i with SystemHeader _ => 0 | UserHeader _ => 1 | SupportLibHeader _ => 2 | ExportedUserHeader _ => 3 end.
Definition include_path (i : include) : str :=
  match i with SystemHeader p | UserHeader p | SupportLibHeader p | ExportedUserHeader p => p end.
Definition include_cmp (a b : include) : comparison :=
  match Nat.compare (include_rank a) (include_rank b) with
  | Eq => str_cmp (include_path a) (include_path b)
  | c => c
  end.
(** Output lines: an [#include] line or an empty line. *)
Inductive line := Include (i : include) | Blank.
(** code_gen_utils.rs:1100-1113; the argument is the iteration order of the [BTreeSet]. *)
Fixpoint format_cc_includes (l : list include) : list line :=
  match l with
  | [] => []
  | i :: l' =>
      Include i ::
      (match i, l' with SystemHeader _, UserHeader _ :: _ => [Blank] | _, _ => [] end) ++
      format_cc_includes l'
  end.
(** code_gen_utils.rs:1058-1063; [None] would be a slicing panic. *)
Definition ends_with_gt (s : str) : bool := match rev s with c :: _ => c =? ch ">" | [] => false end.
Definition slice (s : str) (a b : nat) : option str :=
  if ((a <=? b) && (b <=? List.length s))%nat then Some (firstn (b - a) (skipn a s)) else None.
Definition from_path (path : str) : option include :=
  if starts_with (lit "<") path && ends_with_gt path
  then match slice path 1 (List.length path - 1) with Some p => Some (SystemHeader p) | None => None end
  else Some (UserHeader path).

(** code_gen_utils.rs:25-51 on flat token lists. *)
Inductive tok := TIdent (s : str) | TPunct (c : char) | TOther.
Inductive const_qualifier := QMut | QConst.
Definition is_star (t : option tok) : bool := match t with Some (TPunct c) => c =? ch "*" | _ => false end.
Definition is_const (t : option tok) : bool := match t with Some (TIdent s) => str_eqb s (lit "const") | _ => false end.
Definition is_cpp_pointer_type (ts : list tok) : option const_qualifier :=
  let first := hd_error ts in
  let last := hd_error (rev ts) in
  let prev_last := hd_error (tl (rev ts)) in
  if is_const first && is_star last then Some QConst
  else if is_const prev_last && is_star last then Some QConst
  else if is_star last then Some QMut
  else None.
