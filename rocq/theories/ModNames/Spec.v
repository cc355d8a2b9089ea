(** Which declarations of one C++ scope can have the same name. *)
From Coq Require Import List Bool Arith Strings.String.
From Verif Require Import ModNames.Model.
Import ListNotations.

(** [basic.scope.hiding], [namespace.def]: a class or enum and functions or variables; overloads; the parts of one namespace; a
    forward declaration and the definition.  (Last line: any number of C++ classes may stand for one Rust type.) *)
Definition is_value (k : kind) : bool := match k with KFunc | KConstant | KGlobalVar => true | _ => false end.
Definition is_type (k : kind) : bool :=
  match k with KIncomplete | KRecord _ _ | KEnum | KAlias _ | KUseMod | KExisting => true | _ => false end.
Definition may_share (a b : kind) : bool :=
  match a, b with
  | KOther, _ | _, KOther => true
  | KNamespace c, KNamespace c' => c =? c'
  | KIncomplete, KRecord _ _ | KRecord _ _, KIncomplete => true
  | KExisting, KExisting => true
  | _, _ => (is_value a && (is_value b || is_type b)) || (is_type a && is_value b)
  end.
(** A scope whose Rust names obey the rules of C++ for the C++ names: always so when nothing is renamed. *)
Definition cpp_scope (items : list item) : Prop :=
  ForallOrdPairs (fun a b => iname a = iname b -> may_share (ikind a) (ikind b) = true) items.

(** Records that have a module for methods only. *)
Definition methods_only (x : item) : bool := match ikind x with KRecord false true => true | _ => false end.
(** The names declared by the items themselves, without modules of records. *)
Definition own_names : list item -> list string :=
  fix go l := match l with
              | [] => []
              | x :: r => match ikind x with
                          | KIncomplete | KEnum | KUseMod | KRecord _ _ | KAlias _ => [iname x]
                          | KNamespace c => if existsb (fun y => match ikind y with KNamespace c' => c =? c' | _ => false end) r then [] else [iname x]
                          | _ => []
                          end ++ go r
              end.
