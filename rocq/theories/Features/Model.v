(** Model of [common/crubit_feature.rs]. *)
From Coq Require Import List NArith Bool.
From Coq Require Import Strings.String.
From Verif.Common Require Import Str.
Import ListNotations.

(** crubit_feature.rs:16-77 *)
Inductive feature :=
| Supported | Wrapper | Types | Experimental | AssumeLifetimes | AssumeThisLifetimes
| NoAssumeLifetimes | UnsafeView | CheckDefaultInitialized | LeadingColonsForCppType
| TemplateInstantiation | LayoutCompatTuple | AlwaysSpecializeGenericsInCppApiFromRust
| RecordImplDebug | CtorPlainValues | ReserveStandardMacros | ThunklessAccessors | OoCasting
| AsyncFnSendModuloRegions.
Definition feature_eqb (a b : feature) : bool :=
  match a, b with
  | Supported, Supported | Wrapper, Wrapper | Types, Types | Experimental, Experimental
  | AssumeLifetimes, AssumeLifetimes | AssumeThisLifetimes, AssumeThisLifetimes
  | NoAssumeLifetimes, NoAssumeLifetimes | UnsafeView, UnsafeView
  | CheckDefaultInitialized, CheckDefaultInitialized | LeadingColonsForCppType, LeadingColonsForCppType
  | TemplateInstantiation, TemplateInstantiation | LayoutCompatTuple, LayoutCompatTuple
  | AlwaysSpecializeGenericsInCppApiFromRust, AlwaysSpecializeGenericsInCppApiFromRust
  | RecordImplDebug, RecordImplDebug | CtorPlainValues, CtorPlainValues
  | ReserveStandardMacros, ReserveStandardMacros | ThunklessAccessors, ThunklessAccessors
  | OoCasting, OoCasting | AsyncFnSendModuloRegions, AsyncFnSendModuloRegions => true
  | _, _ => false
  end.

(** [FlagSet<CrubitFeature>] (crate flagset, not in /repo): a set of flags. *)
Definition flags := feature -> bool.
Definition empty : flags := fun _ => false.
Definition full : flags := fun _ => true.
Definition single (f : feature) : flags := feature_eqb f.
Definition union (a b : flags) : flags := fun f => a f || b f.
Definition minus (a : flags) (f : feature) : flags := fun g => a g && negb (feature_eqb f g).

(** crubit_feature.rs:86-110 *)
Definition short_name (f : feature) : str :=
  lit match f with
  | Supported => "supported" | Wrapper => "wrapper" | Types => "types" | Experimental => "experimental"
  | AssumeLifetimes => "assume_lifetimes" | AssumeThisLifetimes => "assume_this_lifetimes"
  | NoAssumeLifetimes => "no_assume_lifetimes" | UnsafeView => "unsafe_view"
  | CheckDefaultInitialized => "check_default_initialized"
  | LeadingColonsForCppType => "leading_colons_for_cpp_type"
  | TemplateInstantiation => "template_instantiation" | LayoutCompatTuple => "layout_compat_tuple"
  | AlwaysSpecializeGenericsInCppApiFromRust => "always_specialize_generics_in_cpp_api_from_rust"
  | RecordImplDebug => "record_impl_debug" | CtorPlainValues => "ctor_plain_values"
  | ReserveStandardMacros => "reserve_standard_macros" | ThunklessAccessors => "thunkless_accessors"
  | OoCasting => "oo_casting" | AsyncFnSendModuloRegions => "async_fn_send_modulo_regions"
  end.

(** crubit_feature.rs:115-145 *)
Definition aspect_hint (f : feature) : str :=
  lit match f with
  | Supported => "//features:supported" | Wrapper => "//features:wrapper" | Types => "//features:types"
  | Experimental => "//features:experimental" | AssumeLifetimes => "//features:assume_lifetimes"
  | AssumeThisLifetimes => "//features:assume_this_lifetimes"
  | NoAssumeLifetimes => "//features:no_assume_lifetimes" | UnsafeView => "//features:unsafe_view"
  | CheckDefaultInitialized => "//features:check_default_initialized"
  | LeadingColonsForCppType => "//features:leading_colons_for_cpp_type"
  | TemplateInstantiation => "//features:template_instantiation"
  | LayoutCompatTuple => "//features:layout_compat_tuple"
  | AlwaysSpecializeGenericsInCppApiFromRust => "//features:always_specialize_generics_in_cpp_api_from_rust"
  | RecordImplDebug => "//features:record_impl_debug" | CtorPlainValues => "//features:ctor_plain_values"
  | ReserveStandardMacros => "//features:reserve_standard_macros"
  | ThunklessAccessors => "//features:thunkless_accessors" | OoCasting => "//features:oo_casting"
  | AsyncFnSendModuloRegions => "//features:async_fn_send_modulo_regions"
  end.

(** crubit_feature.rs:149-186: the arms of the [match], in order. *)
Definition named_table : list (str * flags) :=
  [ (lit "all", minus (minus (minus (minus full NoAssumeLifetimes) LayoutCompatTuple)
                              AlwaysSpecializeGenericsInCppApiFromRust) OoCasting);
    (lit "supported", union (single Supported) (single Types));
    (lit "wrapper", single Wrapper);
    (lit "types", single Types);
    (lit "experimental", single Experimental);
    (lit "assume_lifetimes", single AssumeLifetimes);
    (lit "assume_this_lifetimes", single AssumeThisLifetimes);
    (lit "no_assume_lifetimes", single NoAssumeLifetimes);
    (lit "unsafe_view", single UnsafeView);
    (lit "check_default_initialized", single CheckDefaultInitialized);
    (lit "leading_colons_for_cpp_type", single LeadingColonsForCppType);
    (lit "template_instantiation", single TemplateInstantiation);
    (lit "layout_compat_tuple", single LayoutCompatTuple);
    (lit "always_specialize_generics_in_cpp_api_from_rust", single AlwaysSpecializeGenericsInCppApiFromRust);
    (lit "record_impl_debug", single RecordImplDebug);
    (lit "ctor_plain_values", single CtorPlainValues);
    (lit "reserve_standard_macros", single ReserveStandardMacros);
    (lit "thunkless_accessors", single ThunklessAccessors);
    (lit "oo_casting", single OoCasting);
    (lit "async_fn_send_modulo_regions", single AsyncFnSendModuloRegions) ].
Fixpoint assoc {A} (k : str) (l : list (str * A)) : option A :=
  match l with [] => None | (k', v) :: l' => if str_eqb k k' then Some v else assoc k l' end.
Definition named_features (name : str) : option flags := assoc name named_table.

(** crubit_feature.rs:237-243 *)
Definition resolved (fs : flags) : flags :=
  let fs := if fs NoAssumeLifetimes then minus fs AssumeLifetimes else fs in
  minus fs NoAssumeLifetimes.

(** crubit_feature.rs:260-271 [visit_seq] with 211-223 [visit_bytes] per element; [None]
    is the deserialisation error. *)
Fixpoint visit_seq (result : flags) (names : list str) : option flags :=
  match names with
  | [] => Some (resolved result)
  | n :: names' => match named_features n with
                   | Some fs => visit_seq (union result fs) names'
                   | None => None
                   end
  end.
Definition deserialize (names : list str) : option flags := visit_seq empty names.
