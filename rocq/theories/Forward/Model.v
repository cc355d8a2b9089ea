(** * support/forward_declare.rs, support/forward_declare_proc_macros.rs,
      support/cref.rs: casts between Rust types for one C++ type, and the symbols
      that rs_bindings_from_cc writes into [forward_declare!]/[unsafe_define!]. *)
From Coq Require Import List Strings.String Ascii NArith Bool.
Import ListNotations.
Local Open Scope string_scope.
Local Open Scope N_scope.
Local Open Scope list_scope.

(** [usize::MAX] and [size_of::<usize>()] on a 64-bit target. *)
Definition usize_max : N := 18446744073709551615.
Definition word : N := 8.

(** A Rust type [T] for which [unsafe_define!(symbol!(name), T)] was (or was not)
    written: generate_struct_and_union.rs:771 and forward_declare.rs:356-364. *)
Record def := Def { d_name : option string; d_size : N; d_unpin : bool }.

(** The pointer types with a [CppType] impl: forward_declare.rs:369-384 (raw),
    501-533 (shared), 573-605 (exclusive).  The [nat] is the lifetime. *)
Inductive pkind :=
| KConst | KMut
| KRef (a : nat) | KPinRef (a : nat) | KCRef (a : nat)
| KRefMut (a : nat) | KPinMut (a : nat) | KCMut (a : nat).

(** Rust types.  [Incomplete name declarer] is forward_declare.rs:303-304.  Types
    with no [CppType] impl and no [CppCoerce] impl are left out, except a [Complete]
    type without definition and [Vec] of other things than references. *)
Inductive rty :=
| Incomplete (n : string) (declarer : nat)
| Complete (d : nat)
| Ptr (k : pkind) (t : rty)
| Array (t : rty) (n : N)
| Slice (t : rty)
| Vec (t : rty).

(** The types used as [CppType::Name]. *)
Inductive nty :=
| NChar (c : ascii)            (* C<'x'> *)
| NTuple (l : list nty)
| NSymbol (t : nty)            (* Symbol<T> *)
| NConstUnit                   (* *const () *)
| NMutUnit                     (* *mut () *)
| NRefUnit (a : nat)           (* &'a () *)
| NMutRefUnit (a : nat)        (* &'a mut () *)
| NUnits (n : N).              (* [(); N] *)

(** forward_declare_proc_macros.rs:8-24 [symbol!].
    Simplification: characters are bytes. *)
Definition symbol (s : string) : nty := NSymbol (NTuple (map NChar (list_ascii_of_string s))).

Section Env.
  Variable E : nat -> def.
  (** the crate feature ["unstable"], which adds the [cref] impls (lines 526, 598) *)
  Variable unstable : bool.

  (** Which types are [Unpin]: forward_declare.rs:311 ([Incomplete] is not), cref.rs:232-233,
      and the standard library's impls and auto trait for the others. *)
  Fixpoint unpin (t : rty) : bool :=
    match t with
    | Incomplete _ _ => false
    | Complete d => d_unpin (E d)
    | Ptr _ _ => true
    | Array u _ => unpin u
    | Slice u => unpin u
    | Vec _ => true
    end.

  Definition sized (t : rty) : bool := match t with Slice _ => false | _ => true end.

  (** [std::mem::size_of]: [Incomplete] has a [PhantomData] and a [()] field
      (lines 289, 304); a pointer to a slice has two words. *)
  Definition ptr_size (t : rty) : N := if sized t then word else 2 * word.
  Fixpoint size_of (t : rty) : N :=
    match t with
    | Incomplete _ _ => 0
    | Complete d => d_size (E d)
    | Ptr _ u => ptr_size u
    | Array u n => n * size_of u
    | Slice _ => 0
    | Vec _ => 3 * word
    end.

  (** Well-formed Rust types: array and slice elements are [Sized] and an array
      length fits [usize]. *)
  Fixpoint wf (t : rty) : bool :=
    match t with
    | Incomplete _ _ | Complete _ => true
    | Ptr _ u => wf u
    | Array u n => wf u && sized u && (n <=? usize_max)
    | Slice u => wf u && sized u
    | Vec u => wf u && sized u
    end.

  (** The first component of a pointer's [Name], if the impl applies
      (forward_declare.rs:369-384, 501-533, 573-605). *)
  Definition ptr_tag (k : pkind) (t : rty) : option nty :=
    match k with
    | KConst => Some NConstUnit
    | KMut => Some NMutUnit
    | KRef a => Some (NRefUnit a)
    | KPinRef a => Some (NRefUnit a)
    | KCRef a => if unstable then Some (NRefUnit a) else None
    | KRefMut a => if unpin t then Some (NMutRefUnit a) else None
    | KPinMut a => Some (NMutRefUnit a)
    | KCMut a => if unstable then Some (NMutRefUnit a) else None
    end.

  (** [<T as CppType>::Name], [None] when there is no impl: forward_declare.rs:343-345,
      356-364, 369-384, 407-412, 450-457, 501-533, 573-605. *)
  Fixpoint cpp_name (t : rty) : option nty :=
    match t with
    | Incomplete n _ => Some (symbol n)
    | Complete d => match d_name (E d) with Some n => Some (symbol n) | None => None end
    | Ptr k u =>
        match ptr_tag k u, cpp_name u with
        | Some g, Some n => Some (NTuple [g; n])
        | _, _ => None
        end
    | Array u n =>
        match cpp_name u with Some m => Some (NTuple [NUnits n; m]) | None => None end
    | Slice u =>
        match cpp_name u with Some m => Some (NTuple [NUnits usize_max; m]) | None => None end
    | Vec _ => None
    end.

  Definition same_name (t u : rty) : Prop :=
    exists n, cpp_name t = Some n /\ cpp_name u = Some n.

  (** [T: CppCoerce<U>] — the impls of forward_declare.rs:618-628 (both parameters have
      the implicit [Sized] bound) and 630-639. *)
  Definition coercible (t u : rty) : Prop :=
    (sized t = true /\ sized u = true /\ same_name t u) \/
    (exists a t' u', t = Vec (Ptr (KRef a) t') /\ u = Vec (Ptr (KRef a) u') /\ same_name t' u').

  Inductive outcome := Value (bytes : list N) | Panicked.

  (** [cpp_coerce], forward_declare.rs:623-627 and 635-638, on the bytes of the value.
      [transmute_copy] reads [size_of::<U>()] bytes; [Vec::from_raw_parts] is given the
      three parts unchanged. *)
  Definition cpp_coerce (t u : rty) (v : list N) : outcome :=
    match t, u with
    | Vec _, Vec _ => Value v
    | _, _ =>
        if size_of t =? size_of u then Value (firstn (N.to_nat (size_of u)) v) else Panicked
    end.

  (** Types whose values can be duplicated by safe code: cref.rs:219-229 and the
      standard impls.  ([Complete] and arrays of it: not needed, taken as not [Copy].) *)
  Fixpoint is_copy (t : rty) : bool :=
    match t with
    | Ptr k _ =>
        match k with
        | KConst | KMut | KRef _ | KPinRef _ | KCRef _ | KCMut _ => true
        | KRefMut _ | KPinMut _ => false
        end
    | Array u _ => is_copy u
    | _ => false
    end.
End Env.

(** ** Symbols written by the generator *)

(** What [namespace_qualifier_from_id] (database/db.rs:625-675) collects for an item:
    the enclosing namespaces and records, and whether the owning target has
    [LeadingColonsForCppType].  Names are lists of tokens (records may be template
    instantiations). *)
Record qualifier := Qual {
  q_namespaces : list string;
  q_records : list (list string);
  q_leading : bool }.

(** code_gen_utils.rs:922-937 [format_for_cc], as tokens.  Simplification: the checks
    for reserved words, which only make it fail, are left out. *)
Definition format_for_cc (q : qualifier) : list string :=
  (if q_leading q then ["::"%string] else []) ++
  List.concat (map (fun ns => [ns; "::"%string]) (q_namespaces q)) ++
  List.concat (map (fun r => r ++ ["::"%string]) (q_records q)).

(** [TokenStream::to_string]: tokens separated by spaces.  Simplification: joint
    punctuation (such as [>>]), printed glued, is separated here too. *)
Fixpoint to_string (l : list string) : string :=
  match l with
  | [] => EmptyString
  | [t] => t
  | t :: r => (t ++ " " ++ to_string r)%string
  end.

(** generate_struct_and_union.rs:69-77: the symbol of a forward declaration. *)
Definition declaration_symbol (q : qualifier) (cc_name : list string) : string :=
  to_string (format_for_cc q ++ cc_name).

(** cpp_type_name.rs:39-47 and generate_struct_and_union.rs:598, 771: the symbol of a
    complete definition; [None] without the [Wrapper] feature. *)
Definition definition_symbol (wrapper : bool) (q : qualifier) (cc_name : list string)
  : option string :=
  if wrapper then Some (to_string (format_for_cc q ++ cc_name)) else None.
