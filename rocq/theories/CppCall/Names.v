(** * The names used in thunks and in the bodies that call them.
      importers/function.cc (GetTranslatedParamName), generate_bindings/generate_function_thunk.rs,
      generate_function.rs (generate_func_body), cpp_type_name.rs. *)
From Coq Require Import List Arith Bool String Ascii DecimalString.
Import ListNotations.
Local Open Scope string_scope.
Local Open Scope nat_scope.
Local Open Scope list_scope.

(** A C++ parameter: named, unnamed, or one of those a pack was expanded to. *)
Inductive pname := Named (s : string) | Unnamed | Expanded (s : string).

(** absl::StrCat of an integer. *)
Definition decimal (n : nat) : string := NilEmpty.string_of_uint (Nat.to_uint n).

(** importers/function.cc:174-190. *)
Definition translated_param_name (i : nat) (p : pname) : string :=
  match p with
  | Named s => s
  | Unnamed => ("__param_" ++ decimal i)%string
  | Expanded s => ("__" ++ s ++ "_" ++ decimal i)%string
  end.

Fixpoint translated_from (i : nat) (l : list pname) : list string :=
  match l with
  | [] => []
  | p :: r => translated_param_name i p :: translated_from (S i) r
  end.

(** ** The C++ thunk *)

(** How the called function is named: a free function (with its namespaces), a member after [this->]
    ([__this] comes first), [crubit::construct_at], [std::destroy_at]. *)
Inductive called := FreeFunction (namespaces : list string) (name : string) | Member (name : string) | Library.
(** How the result is returned (passing convention of the result; [ByNamedRef]: [T&&]). *)
Inductive rconv := ByValue | ByNamedRef | ByOut | ByBuffer.

Record cpp_fn := CppFn {
  n_called : called;
  n_params : list (pname * bool);     (* with: is it bridged? *)
  n_ret : rconv }.

Definition param_idents (f : cpp_fn) : list string :=
  let l := translated_from 0 (List.map fst (n_params f)) in
  match n_called f with FreeFunction _ _ => l | _ => "__this" :: l end.

(** generate_function_thunk.rs:553-570: a decoder for each bridged parameter. *)
Fixpoint decoders (i : nat) (l : list (pname * bool)) : list string :=
  match l with
  | [] => []
  | (p, true) :: r => ("__" ++ translated_param_name i p ++ "_decoder")%string :: decoders (S i) r
  | (p, false) :: r => decoders (S i) r
  end.

(** generate_function_thunk.rs:632-652: the parameters of the thunk. *)
Definition thunk_params (f : cpp_fn) : list string :=
  match n_ret f with
  | ByOut => "__return" :: param_idents f
  | ByBuffer => "__return_abi_buffer" :: param_idents f
  | _ => param_idents f
  end.
(** generate_function_thunk.rs:553-570, 713-757: the locals of its body. *)
Definition thunk_locals (f : cpp_fn) : list string :=
  decoders 0 (n_params f) ++
  match n_ret f with
  | ByBuffer => ["__return_encoder"]
  | ByNamedRef => ["lvalue"]
  | _ => []
  end.

(** C++ scopes: the outermost block of a function may not redeclare its parameters.  What a name
    means in the call: a parameter or local if there is one, otherwise the global function.
    generate_function_thunk.rs:445-453: global functions are spelled without [::].  A name followed by
    [::] never means a variable; [this->f] looks in the class. *)
Inductive meaning := Variable_ | TheFunction.
Definition call_means (f : cpp_fn) : meaning :=
  match n_called f with
  | FreeFunction [] g =>
      if existsb (String.eqb g) (thunk_params f ++ thunk_locals f) then Variable_ else TheFunction
  | _ => TheFunction
  end.

(** ** The body of a constructor in Rust
    generate_function.rs:3056-3070 ([let (mut a, mut b) = args;]) and 1576-1590
    ([let mut tmp = MaybeUninit::zeroed(); thunk(&raw mut tmp, a, b)]). *)
Inductive binding := Arg (i : nat) | Slot.
Fixpoint bind_args (i : nat) (l : list string) : list (string * binding) :=
  match l with [] => [] | s :: r => (s, Arg i) :: bind_args (S i) r end.
Definition ctor_bindings (params : list string) : list (string * binding) :=
  bind_args 0 params ++ [("tmp", Slot)].
(** A name means its last binding. *)
Fixpoint resolve (env : list (string * binding)) (s : string) : option binding :=
  match env with
  | [] => None
  | (x, b) :: r =>
      match resolve r s with
      | Some c => Some c
      | None => if String.eqb s x then Some b else None
      end
  end.

(** ** The names of types in C++ thunks, cpp_type_name.rs:149-183. *)
Inductive item_kind := IncompleteRecord | RecordItem | EnumItem | TypeAliasItem.
Record item := Item { it_kind : item_kind; it_ns : list string; it_cc : string; it_rs : string }.
Definition cpp_type_name (it : item) : list string :=
  match it_kind it with
  | EnumItem => it_ns it ++ [it_rs it]
  | _ => it_ns it ++ [it_cc it]
  end.

(** ** Symbols: generate_function_thunk.rs:243-264; characters are code points. *)
Section Symbols.
  Variable is_xid_continue : nat -> bool.

  Fixpoint uint_codes (u : Decimal.uint) : list nat :=
    match u with
    | Decimal.Nil => []
    | Decimal.D0 r => 48 :: uint_codes r
    | Decimal.D1 r => 49 :: uint_codes r
    | Decimal.D2 r => 50 :: uint_codes r
    | Decimal.D3 r => 51 :: uint_codes r
    | Decimal.D4 r => 52 :: uint_codes r
    | Decimal.D5 r => 53 :: uint_codes r
    | Decimal.D6 r => 54 :: uint_codes r
    | Decimal.D7 r => 55 :: uint_codes r
    | Decimal.D8 r => 56 :: uint_codes r
    | Decimal.D9 r => 57 :: uint_codes r
    end.
  (** ["_u{}_"]. *)
  Definition escape (c : nat) : list nat := [95; 117] ++ uint_codes (Nat.to_uint c) ++ [95].

  Definition ident_fragment_from_mangled_name (m : list nat) : list nat :=
    let m := match m with 1 :: r => r | _ => m end in
    if forallb is_xid_continue m then m
    else List.concat (List.map (fun c => if is_xid_continue c then [c] else escape c) m).

  (** generate_function_thunk.rs:288-304; the disambiguator (8 hex digits and "_") only when the
      mangled name is known to conflict or inside a class template. *)
  Definition thunk_ident (prefix hash : list nat) (conflicting in_template : bool) (mangled : list nat) : list nat :=
    prefix ++ (if conflicting || in_template then hash else []) ++ ident_fragment_from_mangled_name mangled.
End Symbols.
