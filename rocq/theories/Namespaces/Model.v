(** Model of support/cc_import/merged_namespaces.rs, of the merging loop in cc_import_internal.rs and of
    rs_bindings_from_cc/collect_namespaces.cc.  Names and labels are byte strings. *)
From Coq Require Import List Arith ZArith Bool Strings.String.
From Verif.Common Require Import Btree.
Import ListNotations.

(** * merged_namespaces.rs *)
(** merged_namespaces.rs:15-29: a target's hierarchy as read from JSON (the JSON text itself is not modelled). *)
Inductive json := Json (name : string) (children : list json).
Definition jname (j : json) : string := match j with Json n _ => n end.
Record hierarchy := Hierarchy { label : string; namespaces : list json }.
(** merged_namespaces.rs:40-49 [MergedNamespace].  The set of labels is an ordered map to [unit]. *)
Inductive ns := Ns (name : string) (children : list (string * ns)) (labels : list (string * unit)).
Definition nsname (t : ns) : string := match t with Ns n _ _ => n end.
Definition children (t : ns) : list (string * ns) := match t with Ns _ c _ => c end.
Definition labels (t : ns) : list (string * unit) := match t with Ns _ _ l => l end.
(** [BTreeSet::append] *)
Definition append (s t : list (string * unit)) : list (string * unit) := fold_left (fun s e => bput (fst e) tt s) t s.

(** merged_namespaces.rs:53-66 [from_json_namespace]. *)
Fixpoint from_json (l : string) (j : json) : ns :=
  match j with
  | Json n ch => Ns n ((fix go (m : list (string * ns)) (ch : list json) :=
                          match ch with [] => m | c :: ch' => go (bput (jname c) (from_json l c) m) ch' end) [] ch)
                    [(l, tt)]
  end.
(** merged_namespaces.rs:83-96 [add_child]. *)
Fixpoint add_child (self c : ns) {struct c} : ns :=
  match c, self with
  | Ns n ch ls, Ns sn sch sls =>
      let sls := append sls ls in
      match bget n sch with
      | Some child =>
          Ns sn (bput n ((fix go (t : ns) (l : list (string * ns)) :=
                            match l with [] => t | (_, x) :: l' => go (add_child t x) l' end) child ch) sch) sls
      | None => Ns sn (bput n c sch) sls
      end
  end.
(** merged_namespaces.rs:69-81 [merge]; [None] is the failing assertion. *)
Definition merge (self other : ns) : option ns :=
  if String.eqb (nsname self) (nsname other) then
    Some (fold_left (fun t e => add_child t (snd e)) (children other) (Ns (nsname self) (children self) (append (labels self) (labels other))))
  else None.
(** merged_namespaces.rs:34-38: the hierarchy. *)
Definition merged := list (string * ns).
(** merged_namespaces.rs:101-110 [from_json_namespace_hierarchy]. *)
Definition from_hierarchy (h : hierarchy) : merged :=
  fold_left (fun m j => bput (jname j) (from_json (label h) j) m) (namespaces h) [].
(** merged_namespaces.rs:113-124 [MergedNamespaceHierarchy::merge]. *)
Fixpoint merge_loop (self other : merged) : option merged :=
  match other with
  | [] => Some self
  | (n, t) :: other' =>
      match bget n self with
      | Some child => match merge child t with Some child' => merge_loop (bput n child' self) other' | None => None end
      | None => merge_loop (bput n t self) other'
      end
  end.
(** cc_import_internal.rs:38-51: [reduce], then [unwrap]; [None] is a panic. *)
Fixpoint reduce (acc : merged) (hs : list hierarchy) : option merged :=
  match hs with
  | [] => Some acc
  | h :: hs' => match merge_loop acc (from_hierarchy h) with Some acc' => reduce acc' hs' | None => None end
  end.
Definition get_hierarchy (hs : list hierarchy) : option merged :=
  match hs with [] => None | h :: hs' => reduce (from_hierarchy h) hs' end.
(** merged_namespaces.rs:127-164 [to_tokens], [to_use_stmts]: a module tree; the crate name computed from a label
    is not modelled, an import keeps the label. *)
Inductive item := Use (from_label : string) (path : list string) | Mod (name : string) (items : list item).
Fixpoint to_use_stmts (outer : list string) (t : ns) : item :=
  match t with
  | Ns n ch ls => Mod n (map (fun e => Use (fst e) (outer ++ [n])) ls ++ map (fun e => to_use_stmts (outer ++ [n]) (snd e)) ch)
  end.
Definition to_tokens (m : merged) : list item := map (fun e => to_use_stmts [] (snd e)) m.

(** * collect_namespaces.cc *)
(** A namespace item of the IR: id, name, owning target, ids of its children that are namespace declarations. *)
Record decl := Decl { id : Z; name : string; owner : string; kids : list Z }.
(** collect_namespaces.cc:148-157: the namespaces of the current target by id ([insert] keeps the first). *)
Definition resolve (target : string) (all : list decl) (i : Z) : option decl :=
  find (fun d => Z.eqb (id d) i && String.eqb (owner d) target) all.
(** collect_namespaces.cc:43-49, 51-56: nodes and the top-level map. *)
Record node := Node { nname : string; idx : list (string * nat) }.
Record trie := Trie { nodes : list node; top : list (string * nat) }.
Fixpoint set_nth {A} (l : list A) (n : nat) (x : A) : list A :=
  match l, n with [], _ => [] | _ :: l', 0 => x :: l' | y :: l', S n' => y :: set_nth l' n' x end.
(** collect_namespaces.cc:64-75: the child of [parent] with the given name, created if absent. *)
Inductive child_of (ts : list node) (parent : nat) (n : string) : list node -> nat -> Prop :=
| ChildNew p : nth_error ts parent = Some p -> bget n (idx p) = None ->
    child_of ts parent n (set_nth ts parent (Node (nname p) (bput n (List.length ts) (idx p))) ++ [Node n []]) (List.length ts)
| ChildOld p j : nth_error ts parent = Some p -> bget n (idx p) = Some j -> child_of ts parent n ts j.
(** collect_namespaces.cc:64-88 [InsertNode] and its loop over the children; ids may form any graph, so a relation. *)
Inductive insert_node (get : Z -> option decl) : list node -> nat -> decl -> list node -> Prop :=
| InNode ts parent d ts1 j ts' : child_of ts parent (name d) ts1 j -> insert_kids get ts1 j (kids d) ts' -> insert_node get ts parent d ts'
with insert_kids (get : Z -> option decl) : list node -> nat -> list Z -> list node -> Prop :=
| KNil ts j : insert_kids get ts j [] ts
| KSkip ts j i is ts' : get i = None -> insert_kids get ts j is ts' -> insert_kids get ts j (i :: is) ts'
| KNode ts j i is d ts1 ts' : get i = Some d -> insert_node get ts j d ts1 -> insert_kids get ts1 j is ts' -> insert_kids get ts j (i :: is) ts'.
(** collect_namespaces.cc:111-131 [InsertTopLevel]. *)
Inductive insert_top (get : Z -> option decl) : trie -> decl -> trie -> Prop :=
| TopNew t d ts' : bget (name d) (top t) = None ->
    insert_kids get (nodes t ++ [Node (name d) []]) (List.length (nodes t)) (kids d) ts' ->
    insert_top get t d (Trie ts' (bput (name d) (List.length (nodes t)) (top t)))
| TopOld t d j ts' : bget (name d) (top t) = Some j -> insert_kids get (nodes t) j (kids d) ts' -> insert_top get t d (Trie ts' (top t)).
(** collect_namespaces.cc:161-170: the loop over the top-level items that are namespaces. *)
Inductive insert_all (get : Z -> option decl) : trie -> list Z -> trie -> Prop :=
| ANil t : insert_all get t [] t
| ASkip t i is t' : get i = None -> insert_all get t is t' -> insert_all get t (i :: is) t'
| AIns t i is d t1 t' : get i = Some d -> insert_top get t d t1 -> insert_all get t1 is t' -> insert_all get t (i :: is) t'.
(** collect_namespaces.cc:91-98 [NodeToNamespaceNode]. *)
Inductive to_json (ts : list node) : nat -> json -> Prop :=
| ToJson i p js : nth_error ts i = Some p -> Forall2 (fun e j => to_json ts (snd e) j) (idx p) js -> to_json ts i (Json (nname p) js).
(** collect_namespaces.cc:134-141, 147-173 [ToNamespacesHierarchy], [CollectNamespaces]. *)
Inductive collect (target : string) (all : list decl) (items : list Z) : hierarchy -> Prop :=
| Collect t js : insert_all (resolve target all) (Trie [] []) items t -> Forall2 (fun e j => to_json (nodes t) (snd e) j) (top t) js ->
    collect target all items (Hierarchy target js).
