(** Independent specifications for the code generation utilities. *)
From Coq Require Import List NArith Bool Sorting.Sorted.
From Coq Require Import Strings.String.
From Verif.Common Require Import Str.
From Verif.CodeGen Require Import Model.
Import ListNotations.
Local Open Scope N_scope.
Local Open Scope list_scope.

(** The keywords of C++20 ([lex.key], alternative tokens included). *)
Definition cpp20_keywords : list string :=
  ["alignas"; "alignof"; "and"; "and_eq"; "asm"; "auto"; "bitand"; "bitor"; "bool"; "break"; "case";
   "catch"; "char"; "char8_t"; "char16_t"; "char32_t"; "class"; "compl"; "concept"; "const";
   "consteval"; "constexpr"; "constinit"; "const_cast"; "continue"; "co_await"; "co_return";
   "co_yield"; "decltype"; "default"; "delete"; "do"; "double"; "dynamic_cast"; "else"; "enum";
   "explicit"; "export"; "extern"; "false"; "float"; "for"; "friend"; "goto"; "if"; "inline"; "int";
   "long"; "mutable"; "namespace"; "new"; "noexcept"; "not"; "not_eq"; "nullptr"; "operator"; "or";
   "or_eq"; "private"; "protected"; "public"; "register"; "reinterpret_cast"; "requires"; "return";
   "short"; "signed"; "sizeof"; "static"; "static_assert"; "static_cast"; "struct"; "switch";
   "template"; "this"; "thread_local"; "throw"; "true"; "try"; "typedef"; "typeid"; "typename";
   "union"; "unsigned"; "using"; "virtual"; "void"; "volatile"; "wchar_t"; "while"; "xor"; "xor_eq"]%string.
Definition cpp_keyword (s : str) : Prop := exists w, In w cpp20_keywords /\ s = lit w.

(** ASCII letters and digits continue an identifier, and so does the underscore. *)
Definition xid_ok (xid_continue : char -> bool) : Prop :=
  forall c, is_ascii_alnum c = true \/ c = ch "_" -> xid_continue c = true.

(** Sorted sets of includes: what iterating a [BTreeSet] yields. *)
Definition include_lt (a b : include) : Prop := include_cmp a b = Lt.
Definition include_set (l : list include) : Prop := StronglySorted include_lt l.

(** C++ pointer types over a plain type name: [const? T const? ( * const? )*]. *)
Record ptr_type := Ptr { base_const_l : bool; base : str; base_const_r : bool; stars : list bool (* [const] after each star *) }.
Definition const_if (b : bool) : list tok := if b then [TIdent (lit "const")] else [].
Definition spell (t : ptr_type) : list tok :=
  const_if (base_const_l t) ++ [TIdent (base t)] ++ const_if (base_const_r t) ++
  flat_map (fun c => TPunct (ch "*") :: const_if c) (stars t).
(** The type the outermost pointer points to is const. *)
Definition pointee_const (t : ptr_type) : bool :=
  match rev (stars t) with
  | _ :: inner :: _ => inner
  | _ => base_const_l t || base_const_r t
  end.
