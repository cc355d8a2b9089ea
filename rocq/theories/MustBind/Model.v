(** Model of CRUBIT_MUST_BIND, from the annotation on a C++ declaration to
    the verdict of the run: the importer ([Importer::GetDeclItem],
    [Importer::ImportDecl], [SetMustBindItem], the function importer and its
    shared flag), the nesting of items, and the generator
    ([generate_item], [generate_unsupported], fatal errors). *)
From Coq Require Import List Bool Arith.
Import ListNotations.

(** The result of [HasAnnotationWithoutArgs] (common/annotation_reader.cc):
    a status error, or whether the annotation is there. *)
Inductive annot := AMalformed | ASet | AUnset.

(** clang::AccessSpecifier, as used at rs_bindings_from_cc/importer.cc:1170. *)
Inductive access := Public | Protected | Private | NoAccess.

(** The alternatives of the Item oneof: rs_bindings_from_cc/ir.proto:700-715. *)
Inductive kind :=
| KIncompleteRecord | KRecord | KFunc | KEnum | KConstant | KGlobalVar
| KTypeAlias | KComment | KUnsupported | KNamespace | KUseMod | KExistingRustType.

(** What decides how far the function importer gets:
    rs_bindings_from_cc/importers/function.cc:474-535 and :937-941,
    :1008-1012. [ff_early]: one of the checks before any type is converted
    fails (name, enclosing item, weak import ...); [ff_late]: one of the
    checks after the parameter and return types were converted fails.
    Simplification: the individual checks are facts of the input. *)
Record fn_facts := {
  ff_target : bool;    (* IsFromCurrentTarget, :476 *)
  ff_deleted : bool;   (* isDeleted, :477 *)
  ff_ident : bool;     (* FunctionNameIsIdentifier, :482 *)
  ff_reserved : bool;  (* FunctionInStdOrSystemHeaderWithReservedName, :485 *)
  ff_hidden : bool;    (* a method that is not public, :493-506 *)
  ff_early : bool;
  ff_late : bool
}.

(** What the other importers make of a declaration. None of them looks at
    the must_bind flag (grep must_bind_ in rs_bindings_from_cc/importers). *)
Inductive rec_result := RRecord | RIncomplete | RExisting | RUnsupported.
Inductive ns_result := NOk | NEarly | NLate.
Inductive other_result := OEnum | OConstant | OGlobalVar | OAlias | OUseMod | OExisting | OUnsupported.

Inductive dclass :=
| DFunction (f : fn_facts)
| DRecord (r : option rec_result)
| DNamespace (r : ns_result)
| DOther (r : option other_result).

(** What [BindingsGenerator::generate_function] answers:
    rs_bindings_from_cc/generate_bindings/generate_function.rs:1951-2746. An error, no
    snippets (:1977, :2243), or snippets with a status (:2744); a bad status
    means that the generated function has an unsatisfiable bound. *)
Inductive fgen := FErr | FNone | FSome (callable ambiguous : bool).

(** Facts deciding what the generator does with the item of a declaration.
    Simplification: type conversion and [has_bindings] are facts of the
    input. *)
Record gfacts := {
  g_owned : bool;      (* the owning target is the current one *)
  g_has_bindings : bool;
  g_type_ok : bool;    (* rs_type_kind and the like *)
  g_value_ok : bool;   (* integer_constant_to_token_stream, lib.rs:215 *)
  g_bridge : bool;     (* generate_struct_and_union.rs:419-429 *)
  g_pre_ok : bool;     (* before the children, generate_struct_and_union.rs:431-598 *)
  g_post_ok : bool;    (* after the children *)
  g_fn : fgen;
  g_libcxx : bool      (* the source location contains "libcxx" *)
}.

(** A declaration. [d_chain]: the access of the declaration and whether its
    enclosing record is a `class`, then the same for that record and so on,
    as long as the context is a record. [d_nested]: the declarations whose
    items are requested while this one is being imported (because of types
    in its signature, fields, bases). *)
Record dinfo := {
  d_id : nat;
  d_must : annot;
  d_dnb : annot;
  d_chain : list (access * bool);
  d_named : bool;
  d_allowlisted : bool;  (* there is no allowlist, or it contains the name *)
  d_unavailable : bool;
  d_class : dclass;
  d_nested : list nat;
  d_gen : gfacts
}.

Inductive decl := Decl (d : dinfo) (children : list decl).

Definition info (x : decl) : dinfo := let (d, _) := x in d.
Definition kids (x : decl) : list decl := let (_, cs) := x in cs.
Definition root_id (x : decl) : nat := d_id (info x).

(** The options of the run: carcinize strict mode
    (rs_bindings_from_cc/importer.cc:1747) and "types" without "supported"
    (importers/function.cc:478-480). *)
Record options := { o_strict : bool; o_only_types : bool }.

(** An item before nesting: its kind and its must_bind field. *)
Definition shell := (kind * bool)%type.

(** rs_bindings_from_cc/importer.cc:884-902 (SetMustBindItem). *)
Definition set_must_bind (s : shell) : shell :=
  let (k, m) := s in
  match k with
  | KRecord | KFunc | KEnum | KTypeAlias | KComment | KUnsupported
  | KNamespace | KUseMod => (k, true)
  | _ => (k, m)
  end.

(** rs_bindings_from_cc/importer.cc:1163-1184 (IsTransitivelyInPrivate). *)
Fixpoint transitively_private (chain : list (access * bool)) : bool :=
  match chain with
  | [] => false
  | (a, parent_is_class) :: rest =>
      match a with
      | Public => transitively_private rest
      | NoAccess => if parent_is_class then true else transitively_private rest
      | Private | Protected => true
      end
  end.

(** rs_bindings_from_cc/importer.cc:1669-1757 (ImportUnsupportedItem): only
    the kind and must_bind (:1747). *)
Definition unsupported (o : options) (hard : bool) : shell :=
  (KUnsupported, hard || o_strict o).

(** rs_bindings_from_cc/importer.cc:1663-1667 (HardError). *)
Definition hard_error (o : options) : shell := unsupported o true.

(** The state of an import: the cache (rs_bindings_from_cc/importer.cc:1063)
    and the field [must_bind_] of the one FunctionDeclImporter object
    (rs_bindings_from_cc/decl_importer.h:443-455). The cache is an
    association list, latest entry first. [st_log] lists the declarations
    whose import was started (ghost). *)
Inductive entry := InProgress | Done (r : option shell).

Record state := { st_cache : list (nat * entry); st_flag : bool; st_log : list nat }.

Fixpoint lookup (c : list (nat * entry)) (i : nat) : option entry :=
  match c with
  | [] => None
  | (j, e) :: c' => if i =? j then Some e else lookup c' i
  end.

Definition set_entry (i : nat) (e : entry) (st : state) : state :=
  {| st_cache := (i, e) :: st_cache st; st_flag := st_flag st; st_log := st_log st |}.

Definition set_flag (b : bool) (st : state) : state :=
  {| st_cache := st_cache st; st_flag := b; st_log := st_log st |}.

Definition start (i : nat) (st : state) : state :=
  {| st_cache := (i, InProgress) :: st_cache st; st_flag := st_flag st;
     st_log := i :: st_log st |}.

(** rs_bindings_from_cc/importers/function.cc:474-1012
    (FunctionDeclImporter::Import). [get] requests the items of a list of
    declarations. The errors at :486-535 use the flag before, those at :938
    and :1009 the flag after the types were converted. *)
Definition import_function (o : options) (get : list nat -> state -> option state)
    (f : fn_facts) (nested : list nat) (st : state) : option (option shell * state) :=
  if negb (ff_target f) then Some (None, st)
  else if ff_deleted f then Some (None, st)
  else if negb (st_flag st) && o_only_types o && ff_ident f then Some (None, st)
  else if ff_reserved f then Some (Some (unsupported o (st_flag st)), st)
  else if ff_hidden f then Some (None, st)
  else if ff_early f then Some (Some (unsupported o (st_flag st)), st)
  else
    match get nested st with
    | None => None
    | Some st' =>
        if ff_late f then Some (Some (unsupported o (st_flag st')), st')
        else Some (Some (KFunc, false), st')
    end.

(** The importers tried in order at rs_bindings_from_cc/importer.cc:1242-1251;
    [DeclImporterBase::ImportDecl] (decl_importer.h:443-449) stores the flag
    before calling [Import]. Namespaces import their children on the way
    (importers/namespace.cc:41). *)
Definition run_importers (o : options) (get : list nat -> state -> option state)
    (d : dinfo) (children : list nat) (must : bool) (st : state)
    : option (option shell * state) :=
  match d_class d with
  | DFunction f => import_function o get f (d_nested d) (set_flag must st)
  | DRecord r =>
      match get (d_nested d) st with
      | None => None
      | Some st' =>
          Some (match r with
                | None => None
                | Some RRecord => Some (KRecord, false)
                | Some RIncomplete => Some (KIncompleteRecord, false)
                | Some RExisting => Some (KExistingRustType, false)
                | Some RUnsupported => Some (unsupported o false)
                end, st')
      end
  | DNamespace NEarly => Some (Some (unsupported o false), st)
  | DNamespace r =>
      match get children st with
      | None => None
      | Some st' =>
          Some (match r with
                | NOk => Some (KNamespace, false)
                | _ => Some (unsupported o false)
                end, st')
      end
  | DOther r =>
      match get (d_nested d) st with
      | None => None
      | Some st' =>
          Some (match r with
                | None => None
                | Some OEnum => Some (KEnum, false)
                | Some OConstant => Some (KConstant, false)
                | Some OGlobalVar => Some (KGlobalVar, false)
                | Some OAlias => Some (KTypeAlias, false)
                | Some OUseMod => Some (KUseMod, false)
                | Some OExisting => Some (KExistingRustType, false)
                | Some OUnsupported => Some (unsupported o false)
                end, st')
      end
  end.

Definition is_set (a : annot) : bool := match a with ASet => true | _ => false end.

Definition is_function (c : dclass) : bool :=
  match c with DFunction _ => true | _ => false end.

(** rs_bindings_from_cc/importer.cc:1186-1261 (ImportDecl). *)
Definition import_decl (o : options) (get : list nat -> state -> option state)
    (d : dinfo) (children : list nat) (st : state) : option (option shell * state) :=
  match d_must d with
  | AMalformed => Some (Some (hard_error o), st)
  | _ =>
    let must := is_set (d_must d) in
    if transitively_private (d_chain d) then
      Some (if must then Some (hard_error o) else None, st)
    else
    match d_dnb d with
    | AMalformed => Some (Some (hard_error o), st)
    | ASet =>
        if must then Some (Some (hard_error o), st)
        else if d_named d && negb (is_function (d_class d)) && negb (d_allowlisted d)
        then Some (Some (hard_error o), st)
        else Some (None, st)
    | AUnset =>
        if d_unavailable d then Some (Some (unsupported o must), st)
        else
          match run_importers o get d children must st with
          | None => None
          | Some (Some s, st') => Some (Some (if must then set_must_bind s else s), st')
          | Some (None, st') => Some (if must then Some (hard_error o) else None, st')
          end
    end
  end.

(** All declarations of a translation unit, outer ones first. *)
Fixpoint flatten (x : decl) : list decl :=
  match x with
  | Decl d cs =>
      x :: (fix go (l : list decl) : list decl :=
              match l with [] => [] | y :: l' => flatten y ++ go l' end) cs
  end.

Definition all_decls (tu : list decl) : list decl := flat_map flatten tu.

Definition find_decl (tu : list decl) (i : nat) : option decl :=
  find (fun x => root_id x =? i) (all_decls tu).

Definition is_record (c : dclass) : bool :=
  match c with DRecord _ => true | _ => false end.

Fixpoint get_all (get : nat -> state -> option state) (l : list nat) (st : state)
    : option state :=
  match l with
  | [] => Some st
  | i :: l' => match get i st with None => None | Some st' => get_all get l' st' end
  end.

(** rs_bindings_from_cc/importer.cc:1063-1160 (GetDeclItem), with fuel for the
    recursion ([None]: out of fuel). The members of a record are imported
    after the record (:1129-1134). A declaration that does not belong to the
    translation unit is ignored. *)
Fixpoint get_item (o : options) (tu : list decl) (fuel : nat) (i : nat) (st : state)
    : option state :=
  match fuel with
  | 0 => None
  | S fuel' =>
    match lookup (st_cache st) i with
    | Some _ => Some st
    | None =>
      match find_decl tu i with
      | None => Some st
      | Some x =>
        match import_decl o (get_all (get_item o tu fuel')) (info x)
                (map root_id (kids x)) (start i st) with
        | None => None
        | Some (r, st') =>
            let st'' := set_entry i (Done r) st' in
            if is_record (d_class (info x))
            then get_all (get_item o tu fuel') (map root_id (kids x)) st''
            else Some st''
        end
      end
    end
  end.

Definition init : state := {| st_cache := []; st_flag := false; st_log := [] |}.

(** The import of a translation unit, rs_bindings_from_cc/importer.cc:925. *)
Definition import_tu (o : options) (tu : list decl) (fuel : nat) : option state :=
  get_all (get_item o tu fuel) (map root_id tu) init.

(** Items with their children, rs_bindings_from_cc/importer.cc:1000-1052:
    only records and namespaces keep children; unsupported items of other
    targets are dropped (:595-600, :751, :956, :1046). Simplification: the
    order of the items, comments and template instantiations are left out. *)
Inductive item := Item (i : nat) (k : kind) (must : bool) (g : gfacts) (cs : list item).

Definition keeps_children (k : kind) : bool :=
  match k with KRecord | KNamespace => true | _ => false end.

Definition is_unsupported (k : kind) : bool :=
  match k with KUnsupported => true | _ => false end.

Fixpoint build (c : list (nat * entry)) (x : decl) : list item :=
  match x with
  | Decl d cs =>
    match lookup c (d_id d) with
    | Some (Done (Some (k, m))) =>
        if is_unsupported k && negb (g_owned (d_gen d)) then []
        else
          [Item (d_id d) k m (d_gen d)
             (if keeps_children k then
                (fix go (l : list decl) : list item :=
                   match l with [] => [] | y :: l' => build c y ++ go l' end) cs
              else [])]
    | _ => []
    end
  end.

(** What is emitted for an item: a real Rust item, a function with an
    unsatisfiable bound, or a comment. *)
Inductive emit := EBound | EUncallable | EComment.

(** The effects of the generator: the fatal errors reported so far (which
    item they are about), and the emitted items, or an error. *)
Definition outcome := (list nat * option (list (nat * emit)))%type.

(** rs_bindings_from_cc/generate_bindings/generate_comment.rs:123-195. *)
Definition generate_unsupported (i : nat) (must : bool) (g : gfacts) : outcome :=
  if negb must && g_libcxx g then ([], Some [])
  else (if must then [i] else [], Some [(i, EComment)]).

(** Append the outcomes of a list of items; stops at the first error
    (the `?` at lib.rs:270, generate_struct_and_union.rs:604, lib.rs:480). *)
Definition seq_outcome (a b : outcome) : outcome :=
  match snd a with
  | None => (fst a, None)
  | Some e =>
      (fst a ++ fst b,
       match snd b with None => None | Some e' => Some (e ++ e') end)
  end.

(** rs_bindings_from_cc/generate_bindings/lib.rs:313-410 (generate_item_impl);
    [sub] is the outcome of the children. *)
Definition generate_item_impl (i : nat) (k : kind) (must : bool) (g : gfacts)
    (sub : outcome) : outcome :=
  let r :=
    match k with
    | KFunc =>
        match g_fn g with
        | FErr => ([], None)
        | FNone => ([], Some [])
        | FSome callable ambiguous =>
            if ambiguous then ([], None)
            else ([], Some [(i, if callable then EBound else EUncallable)])
        end
    | KIncompleteRecord | KEnum | KGlobalVar | KTypeAlias =>
        if g_type_ok g then ([], Some [(i, EBound)]) else ([], None)
    | KRecord =>
        if negb (g_type_ok g) then ([], None)
        else if g_bridge g then ([], Some [])
        else if negb (g_pre_ok g) then ([], None)
        else seq_outcome sub
               (if g_post_ok g then ([], Some [(i, EBound)]) else ([], None))
    | KConstant =>
        if negb (g_type_ok g) then ([], None)
        else if g_value_ok g then ([], Some [(i, EBound)])
        else ([], Some [(i, EComment)])
    | KUnsupported => generate_unsupported i must g
    | KComment => ([], Some [(i, EComment)])
    | KNamespace => seq_outcome sub ([], Some [(i, EBound)])
    | KUseMod => ([], Some [(i, EBound)])
    | KExistingRustType =>
        if g_type_ok g then ([], Some [(i, EComment)]) else ([], None)
    end in
  match snd r with
  | None => r
  | Some e => (fst r, if g_has_bindings g then Some e else None)
  end.

Definition is_func_kind (k : kind) : bool := match k with KFunc => true | _ => false end.

(** rs_bindings_from_cc/generate_bindings/lib.rs:285-308 (generate_item).
    Unsupported items, comments and UseMods have no owning target (ir.rs:3434, :3519, :3713). *)
Definition recover (i : nat) (k : kind) (must : bool) (g : gfacts) (r : outcome) : outcome :=
  match snd r with
  | Some _ => r
  | None =>
      if g_has_bindings g && negb (is_func_kind k) then r
      else
        let u := generate_unsupported i must g in
        (fst r ++ fst u, snd u)
  end.

Definition has_target (k : kind) : bool :=
  match k with KUnsupported | KComment | KUseMod => false | _ => true end.

Fixpoint generate_item (x : item) : outcome :=
  match x with
  | Item i k must g cs =>
      if has_target k && negb (g_owned g) then ([], Some [])
      else
        recover i k must g
          (generate_item_impl i k must g
             ((fix go (l : list item) : outcome :=
                 match l with
                 | [] => ([], Some [])
                 | y :: l' => seq_outcome (generate_item y) (go l')
                 end) cs))
  end.

Fixpoint generate_items (l : list item) : outcome :=
  match l with
  | [] => ([], Some [])
  | y :: l' => seq_outcome (generate_item y) (generate_items l')
  end.

(** The whole run: rs_bindings_from_cc/generate_bindings/lib.rs:479-481,
    cc_api.rs:67-88 (an error is unwrapped, which aborts the process) and
    rs_bindings_from_cc/src_code_gen.cc:47-49 (fatal errors fail the run). *)
Inductive verdict := Aborted | FatalErrors (about : list nat) | Bindings (out : list (nat * emit)).

Definition run (o : options) (tu : list decl) (fuel : nat) : option verdict :=
  match import_tu o tu fuel with
  | None => None
  | Some st =>
      let r := generate_items (flat_map (build (st_cache st)) tu) in
      Some (match snd r with
            | None => Aborted
            | Some e => match fst r with [] => Bindings e | fs => FatalErrors fs end
            end)
  end.
