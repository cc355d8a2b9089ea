(** Specification: which namespaces a target opens, and what the generated modules re-export. *)
From Coq Require Import List ZArith Strings.String.
From Verif.Namespaces Require Import Model.
Import ListNotations.

(** The hierarchy opens the namespace with this path (outermost name first). *)
Inductive opens : list json -> list string -> Prop :=
| OHere js n ch : In (Json n ch) js -> opens js [n]
| OInner js n ch p : In (Json n ch) js -> opens ch p -> opens js (n :: p).
(** The children listed for the namespace with this path. *)
Inductive at_path : list json -> list string -> list json -> Prop :=
| AHere js n ch : In (Json n ch) js -> at_path js [n] ch
| AInner js n ch p r : In (Json n ch) js -> at_path ch p r -> at_path js (n :: p) r.
(** No namespace is listed twice at one level. *)
Inductive distinct : list json -> Prop :=
| Distinct js : NoDup (map jname js) -> (forall n ch, In (Json n ch) js -> distinct ch) -> distinct js.
(** Some target opens the path. *)
Definition all_open (hs : list hierarchy) (p : list string) : Prop := exists h, In h hs /\ opens (namespaces h) p.
(** A target whose label the module keeps: it opens the path and the module is outermost, or no earlier target opened
    the path, or the target itself opens a namespace inside it. *)
Definition kept (hs : list hierarchy) (p : list string) (x : string) : Prop :=
  exists before h after, hs = before ++ h :: after /\ label h = x /\ opens (namespaces h) p /\
  (List.length p = 1 \/ ~ all_open before p \/ exists y, opens (namespaces h) (p ++ [y])).
(** In a module tree: there is a module with this path; it imports [path] from the crate of [label]. *)
Inductive has_mod : list item -> list string -> Prop :=
| MHere is n inner : In (Mod n inner) is -> has_mod is [n]
| MInner is n inner p : In (Mod n inner) is -> has_mod inner p -> has_mod is (n :: p).
Inductive imports : list item -> list string -> string -> list string -> Prop :=
| IHere is n inner l q : In (Mod n inner) is -> In (Use l q) inner -> imports is [n] l q
| IInner is n inner p l q : In (Mod n inner) is -> imports inner p l q -> imports is (n :: p) l q.
(** The declarations of the target open a path: starting from a declaration, and from the top-level items. *)
Inductive decl_opens (get : Z -> option decl) : decl -> list string -> Prop :=
| DHere d : decl_opens get d [name d]
| DInner d i d' p : In i (kids d) -> get i = Some d' -> decl_opens get d' p -> decl_opens get d (name d :: p).
Definition target_opens (target : string) (all : list decl) (items : list Z) (p : list string) : Prop :=
  exists i d, In i items /\ resolve target all i = Some d /\ decl_opens (resolve target all) d p.
(** Namespaces are not nested in themselves: there is a measure that decreases. *)
Definition nested (get : Z -> option decl) : Prop :=
  exists rank : Z -> nat, forall i d j e, get i = Some d -> In j (kids d) -> get j = Some e -> rank (id e) < rank (id d).
