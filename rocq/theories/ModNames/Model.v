(** Model of how rs_bindings_from_cc names the module that holds the nested items and the methods of a record.  Files in
    /repo/rs_bindings_from_cc/generate_bindings: has_bindings.rs (hb.rs), database/code_snippet.rs (cs.rs), database/db.rs, lib.rs;
    and /repo/common/code_gen_utils.rs (cgu.rs).

    Simplified: [heck]'s to_snake_case is an arbitrary function [snake]; a HashMap is an association list; an [ExplicitItem]
    carries the kind of the item that the code looks up by its id; a [panic!] is [None]. *)
From Coq Require Import List Bool Arith Strings.String.
Import ListNotations.
Local Open Scope string_scope.
Local Open Scope nat_scope.
Local Open Scope list_scope.

(** ir.rs [Item], as far as names are concerned.  A record: whether a child belongs in a nested module (ir.rs:4046-4059), whether
    some member function gets bindings.  An alias: whether it names a record that has nested items.  [KFunc]: functions
    named by an identifier; [KOther]: the rest (operators, comments, unsupported items). *)
Inductive kind :=
| KIncomplete | KRecord (nested methods : bool) | KEnum | KAlias (target_nested : bool) | KNamespace (canonical : nat)
| KUseMod | KExisting | KFunc | KConstant | KGlobalVar | KOther.
Record item := Item { iid : nat; iname : string; ikind : kind }.

(** cs.rs:382-400 *)
Inductive resolved :=
| RNamespace (canonical : nat)
| RExplicit (id : nat) (k : kind)
| RValue (id : nat)
| RNested (parents : list nat).

(** cs.rs:405-448 *)
Definition coalesce (this other : resolved) : option resolved :=
  match this, other with
  | RNested l, RNested l' => Some (RNested (l ++ l'))
  | _, RNested _ => Some this
  | RNested _, _ => Some other
  | RNamespace c, RNamespace c' => if c =? c' then Some this else None
  | RValue _, RValue _ => Some this
  | RExplicit _ _, RValue _ => Some this
  | RValue _, RExplicit _ _ => Some other
  | _, _ => None
  end.

(** hb.rs:440-471.  Two existing Rust types with the same key have the same rs_name. *)
Inductive action := DoNotUpdate | Overwrite | Coalesce.
Definition conflict_action (old new : resolved) : action :=
  match old, new with
  | RExplicit _ KExisting, RExplicit _ KExisting => DoNotUpdate
  | RExplicit _ KIncomplete, RExplicit _ (KRecord _ _) => Overwrite
  | RExplicit _ (KRecord _ _), RExplicit _ KIncomplete => DoNotUpdate
  | _, _ => Coalesce
  end.

Notation names := (list (string * resolved)).
Fixpoint lookup (n : string) (m : names) : option resolved :=
  match m with [] => None | (k, r) :: m' => if String.eqb n k then Some r else lookup n m' end.
Fixpoint update (n : string) (r : resolved) (m : names) : names :=
  match m with [] => [] | (k, x) :: m' => if String.eqb n k then (k, r) :: m' else (k, x) :: update n r m' end.

(** hb.rs:489-515 *)
Definition insert (n : string) (r : resolved) (m : names) : option names :=
  match lookup n m with
  | None => Some ((n, r) :: m)
  | Some old =>
      match conflict_action old r with
      | DoNotUpdate => Some m
      | Overwrite => Some (update n r m)
      | Coalesce => match coalesce old r with Some x => Some (update n x m) | None => None end
      end
  end.

(** hb.rs:516-564 *)
Definition resolved_of (x : item) : option resolved :=
  match ikind x with
  | KIncomplete | KRecord _ _ | KEnum | KAlias _ | KUseMod | KExisting => Some (RExplicit (iid x) (ikind x))
  | KNamespace c => Some (RNamespace c)
  | KFunc | KConstant | KGlobalVar => Some (RValue (iid x))
  | KOther => None
  end.
Fixpoint pass1 (items : list item) (m : names) : option names :=
  match items with
  | [] => Some m
  | x :: r => match resolved_of x with
              | None => pass1 r m
              | Some v => match insert (iname x) v m with Some m' => pass1 r m' | None => None end
              end
  end.

Definition ends_with (suffix s : string) : bool :=
  (String.length suffix <=? String.length s)%nat
  && String.eqb (String.substring (String.length s - String.length suffix) (String.length suffix) s) suffix.
(** The loop [while is_used(&name) { name.push('_') }], run for at most [fuel] rounds. *)
Fixpoint push_underscores (fuel : nat) (used : string -> bool) (n : string) : option string :=
  if used n then match fuel with O => None | S f => push_underscores f used (n ++ "_")%string end else Some n.
(** hb.rs:581-590, db.rs:702-709 *)
Definition disambiguate (fuel : nat) (used : string -> bool) (n : string) : option string :=
  if used n then push_underscores fuel used (if ends_with "_items" n then n else (n ++ "_items")%string) else Some n.

Section Snake.
  Variable snake : string -> string.

  (** hb.rs:574-579, db.rs:684-692 *)
  Definition first_name (rs_name : string) : string :=
    if String.eqb (snake rs_name) rs_name then (snake rs_name ++ "_items")%string else snake rs_name.

  (** hb.rs:567-607 *)
  Fixpoint pass2 (items : list item) (m : names) : option names :=
    match items with
    | [] => Some m
    | x :: r =>
        match ikind x with
        | KRecord true _ =>
            match disambiguate (S (List.length m)) (fun n => match lookup n m with Some _ => true | None => false end) (first_name (iname x)) with
            | Some n => match lookup n m with
                        | None => pass2 r ((n, RNested [iid x]) :: m)
                        | Some _ => None
                        end
            | None => None
            end
        | _ => pass2 r m
        end
    end.
  (** hb.rs:476-610 *)
  Definition resolve_names (items : list item) : option names :=
    match pass1 items [] with Some m => pass2 items m | None => None end.

  (** db.rs:680-711, before [make_rs_ident] *)
  Definition is_used_by_others (m : names) (id : nat) (n : string) : bool :=
    match lookup n m with
    | Some (RNested l) => negb (existsb (Nat.eqb id) l)
    | Some _ => true
    | None => false
    end.
  Definition module_name (m : names) (x : item) : option string :=
    disambiguate (S (List.length m)) (is_used_by_others m (iid x)) (first_name (iname x)).

  (** hb.rs:105-120: the first entry, in some order, whose parents include the record. *)
  Definition parent_modules (m : names) (id : nat) : list (string * list nat) :=
    flat_map (fun e => match snd e with RNested l => if existsb (Nat.eqb id) l then [(fst e, l)] else [] | _ => [] end) m.

  (** cgu.rs:751-773: names that are keywords which cannot be raw identifiers; the others are accepted, escaped if need be. *)
  Definition make_rs_ident (n : string) : option string :=
    if existsb (String.eqb n) ["self"; "Self"; "super"; "crate"; "_"; ""] then None else Some n.
  (** db.rs:710, called for every generated record (cs.rs:762-763). *)
  Definition record_to_associated_module_name (m : names) (x : item) : option string :=
    match module_name m x with Some n => make_rs_ident n | None => None end.

  (** The names that the items of a scope add to the type namespace of its Rust module (cs.rs:640-900, lib.rs:178-184).  [m] is the
      outcome of [resolve_names] for the block the item is in.  Of the blocks of a namespace only the last one emits the
      module (cs.rs:777-812). *)
  Definition emitted_by (m : names) (later : list item) (x : item) : list string :=
    match ikind x with
    | KIncomplete | KEnum | KUseMod => [iname x]
    | KRecord nested methods =>
        iname x :: (if nested || methods then match module_name m x with Some n => [n] | None => [] end else [])
    | KAlias target_nested =>
        iname x :: (if target_nested && negb (String.eqb (snake (iname x)) (iname x)) then [snake (iname x)] else [])
    | KNamespace c =>
        if existsb (fun y => match ikind y with KNamespace c' => c =? c' | _ => false end) later then [] else [iname x]
    | KExisting | KFunc | KConstant | KGlobalVar | KOther => []
    end.
  Fixpoint emitted (l : list (names * item)) : list string :=
    match l with [] => [] | (m, x) :: r => emitted_by m (map snd r) x ++ emitted r end.
  (** A scope: the blocks of a namespace, or one block for the top level or a record. *)
  Definition scope_names (blocks : list (list item)) : option (list string) :=
    match fold_right (fun b acc => match resolve_names b, acc with Some m, Some l => Some (map (pair m) b ++ l) | _, _ => None end) (Some []) blocks with
    | Some l => Some (emitted l)
    | None => None
    end.
End Snake.
