(** Model of how rs_bindings_from_cc decides whether an item gets bindings at all and whether they are [pub] or [pub(crate)].
    Files in /repo/rs_bindings_from_cc: generate_bindings/has_bindings.rs (hb.rs), generate_bindings/database/db.rs,
    generate_bindings/database/rs_snippet.rs (rs.rs), generate_bindings/database/code_snippet.rs (cs.rs),
    generate_bindings/generate_struct_and_union.rs (gsu.rs), generate_bindings/generate_function.rs (gf.rs),
    generate_bindings/lib.rs, ir.rs.

    Simplified: targets are numbers; of a type only the parts that these functions look at are kept; reasons and error texts are
    dropped ([None] is an error); unknown attributes, calling conventions of functions and variadic functions are left out. *)
From Coq Require Import List Bool Arith.
Import ListNotations.

(** cs.rs:266-273 *)
Inductive vis := Public | PubCrate.
(** cs.rs:278-285 *)
Definition vis_or (a b : vis) : vis := match a, b with Public, Public => Public | _, _ => PubCrate end.

(** The Crubit features that matter here. *)
Record feats := Feats { f_types : bool; f_wrapper : bool; f_template : bool; f_experimental : bool }.

(** ir.rs [Record]: [r_template] is [template_specialization().is_some()], with the target that defines the template. *)
Record rec := Rec { r_template : bool; r_canonical_alias : bool; r_owner : nat; r_defining : nat }.

(** rs.rs:620-693 and 864-888.  [TUniform]: a Record whose [uniform_repr_template_type] is set (std::vector, std::unique_ptr,
    std::shared_ptr, std::atomic, absl::Span), with its element types.  [TBridgeLeaf]: ProtoMessageBridge and StdString.
    [TExisting]: the template arguments are part of the spelling (rs.rs:1283-1312). *)
Inductive ty :=
| TError (override : option vis)
| TPrim
| TPtr (pointee : ty)
| TRef (referent : ty)
| TRvalueRef (referent : ty)
| TFunc (c_abi : bool) (params : list ty) (ret : ty)
| TIncomplete (owner : nat)
| TRecord (r : rec)
| TUniform (r : rec) (elements : list ty)
| TEnum (owner : nat)
| TAlias (owner : nat) (underlying : ty)
| TBridgeLeaf
| TBridgeGeneric (generic_types : list ty)
| TOptional (t : ty)
| TPair (t1 t2 : ty)
| TCallable (params : list ty) (ret : ty)
| TCo (result : ty)
| TExisting (template_args : list ty).

(** rs.rs:2683-2719.  The top of the stack [todo] is the head of the list. *)
Definition push (todo : list ty) (t : ty) : list ty := t :: todo.
Definition push_children (curr : ty) (todo : list ty) : list ty :=
  match curr with
  | TError _ | TPrim | TIncomplete _ | TRecord _ | TUniform _ _ | TEnum _ => todo
  | TPtr t | TRef t | TRvalueRef t | TAlias _ t => push todo t
  | TFunc _ params ret => fold_left push (rev params) (push todo ret)
  | TBridgeLeaf | TBridgeGeneric _ => todo
  | TOptional t => push todo t
  | TPair t1 t2 => push (push todo t2) t1
  | TCallable params ret => fold_left push (rev params) (push todo ret)
  | TCo t => push todo t
  | TExisting _ => todo
  end.
(** rs.rs:2676-2724: the items of the iterator, in order.  [fuel] bounds the number of rounds. *)
Fixpoint iterate (fuel : nat) (todo : list ty) : list ty :=
  match fuel, todo with
  | S n, curr :: rest => curr :: iterate n (push_children curr rest)
  | _, _ => []
  end.
(** An upper bound on the number of rounds. *)
Fixpoint size (t : ty) : nat :=
  match t with
  | TError _ | TPrim | TIncomplete _ | TRecord _ | TEnum _ | TBridgeLeaf => 1
  | TPtr t | TRef t | TRvalueRef t | TAlias _ t | TOptional t | TCo t => S (size t)
  | TFunc _ l t | TCallable l t => S (list_sum (map size l) + size t)
  | TPair a b => S (size a + size b)
  | TUniform _ l | TBridgeGeneric l | TExisting l => S (list_sum (map size l))
  end.
(** rs.rs:1783-1785 *)
Definition dfs_iter (t : ty) : list ty := iterate (size t) [t].

(** rs.rs:1328-1334 *)
Fixpoint unalias (t : ty) : ty := match t with TAlias _ u => unalias u | _ => t end.

(** ir.rs:2602-2604 *)
Definition has_unique_owning_target (r : rec) : bool := negb (r_template r) || r_canonical_alias r.

Section Targets.
  (** ir.rs [target_crubit_features] *)
  Variable features : nat -> feats.

  (** hb.rs:400-427 *)
  Definition type_target_restriction_shallow (t : ty) : option nat :=
    match unalias t with
    | TRecord r =>
        if has_unique_owning_target r || f_template (features (r_owner r)) then None
        else if f_experimental (features (r_owner r)) then None
        else Some (r_owner r)
    | TUniform r _ => None
    | _ => None
    end.
  (** hb.rs:366-394; the outer [None] is the error. *)
  Definition intersect_target_restrictions (old new : option nat) : option (option nat) :=
    match old, new with
    | Some a, Some b => if a =? b then Some old else None
    | None, _ => Some new
    | Some _, None => Some old
    end.
  (** hb.rs:335-351 *)
  Definition type_target_restriction (t : ty) : option (option nat) :=
    match dfs_iter t with
    | [] => None
    | first :: children =>
        fold_left (fun acc c => match acc with
                                | Some old => intersect_target_restrictions old (type_target_restriction_shallow c)
                                | None => None
                                end) children (Some (type_target_restriction_shallow first))
    end.

  (** db.rs:307-331 *)
  Fixpoint first_error (l : list ty) : option vis :=
    match l with
    | [] => None
    | TError override :: _ => Some (match override with Some v => v | None => PubCrate end)
    | _ :: r => first_error r
    end.
  Definition type_visibility (library : nat) (t : ty) : option vis :=
    match type_target_restriction t with
    | None => None
    | Some (Some label) => if label =? library then Some PubCrate else None
    | Some None => Some (match first_error (dfs_iter t) with Some v => v | None => Public end)
    end.
  (** [Result::unwrap_or_default]: cs.rs:270 *)
  Definition unwrap_or_default (v : option vis) : vis := match v with Some v => v | None => Public end.

  (** rs.rs:1377-1465 [missing_feature_descriptions_of_type], true if there are none. *)
  Definition kind_supported (f : feats) (t : ty) : bool :=
    match t with
    | TError None => f_wrapper f
    | TError (Some _) => true
    | TRef _ | TRvalueRef _ => f_experimental f
    | TFunc c_abi _ _ => c_abi || f_experimental f
    | TIncomplete _ => f_wrapper f
    | TRecord r => has_unique_owning_target r || f_wrapper f || f_template f
    | _ => true
    end.
  Definition type_supported (f : feats) (t : ty) : bool := f_types f && forallb (kind_supported f) (dfs_iter t).

  (** cs.rs:149-157: both the defining target, if the item belongs to a template, and the owning target *)
  Definition supported_in (targets : list nat) (t : ty) : bool := forallb (fun g => type_supported (features g) t) targets.

  (** ir.rs [Func], as far as it matters here. *)
  Record func := Func { fn_owner : nat; fn_defining : option nat; fn_destructor : bool; fn_template_member : bool;
                        fn_params : list ty; fn_ret : ty }.
  Definition targets_of (defining : option nat) (owner : nat) : list nat := match defining with Some d => [d; owner] | None => [owner] end.
  (** cs.rs:187-216 *)
  Definition func_features_ok (f : func) : bool :=
    if fn_destructor f then forallb (fun g => f_types (features g)) (targets_of (fn_defining f) (fn_owner f))
    else forallb (supported_in (targets_of (fn_defining f) (fn_owner f))) (fn_params f ++ [fn_ret f]).
  (** hb.rs:254-312 *)
  Definition func_visibility (f : func) : option vis :=
    fold_left (fun acc t => match acc, type_visibility (fn_owner f) t with
                            | Some v, Some v' => Some (vis_or v v')
                            | _, _ => None
                            end) (fn_params f ++ [fn_ret f]) (Some Public).
  Definition func_has_bindings (f : func) : option vis :=
    if negb (func_features_ok f) then None
    else if fn_template_member f && negb (fn_destructor f) && negb (f_template (features (fn_owner f))) then None
    else func_visibility f.

  (** hb.rs:185-233 and cs.rs:237-251, for records and aliases *)
  Definition record_has_bindings (r : rec) : option vis :=
    if supported_in (targets_of (if r_template r then Some (r_defining r) else None) (r_owner r)) (TRecord r)
    then type_visibility (r_owner r) (TRecord r) else None.
  Definition alias_has_bindings (owner : nat) (t : ty) : option vis :=
    if supported_in [owner] (TAlias owner t) then type_visibility owner (TAlias owner t) else None.

  (** What is generated with a visibility: functions and methods (gf.rs:2183-2218, 2370), trait implementations (gf.rs:2398), which are as
      public as the trait, variables (hb.rs:235-243, lib.rs:253), aliases (lib.rs:194-196), fields (gsu.rs:349-354: a field of type [None] is
      a blob of bytes). *)
  Inductive gitem :=
  | GFunc (f : func)
  | GTraitImpl (always_public : bool) (f : func)
  | GVar (owner : nat) (t : ty)
  | GAlias (owner : nat) (t : ty)
  | GField (owner : nat) (public : bool) (t : option ty).
  Definition emitted (g : gitem) : option vis :=
    match g with
    | GFunc f => func_has_bindings f
    | GTraitImpl always_public f =>
        match func_has_bindings f with
        | Some PubCrate => if always_public then Some Public else None
        | r => r
        end
    | GVar owner t => type_visibility owner t
    | GAlias owner t => match alias_has_bindings owner t with Some _ => Some (unwrap_or_default (type_visibility owner (TAlias owner t))) | None => None end
    | GField owner public (Some t) => Some (if public then unwrap_or_default (type_visibility owner t) else PubCrate)
    | GField owner public None => Some PubCrate
    end.
End Targets.
