(** The order and the nesting of the items of the IR.

    The importer walks Clang's AST, collects the imported declarations and the
    free comments of every container in source order, moves members defined
    out of line into their class, and finally copies the items, children
    first, into a tree of protocol buffers, target by target.

    Files modelled (all in rs_bindings_from_cc/importer.cc):
    - :327-350 (GetDeclOrder), :352-400 (SourceOrderKey), :402-434
      (SourceLocationComparator), :2339-2366 (GetNameForSourceOrder);
    - :595-600 (IsUnsupportedAndAlien), :634-683 (GetDeclItems), :685-729
      (GetTopLevelItemIdsInSourceOrder), :731-767 (GetItemIdsInSourceOrder),
      :769-789 (GetOrderedItemIdsOfTemplateInstantiations);
    - :927-1052 (Import: out-of-line children, post-order, copying).

    Not modelled: how a declaration is imported (its item is given), which
    declarations are children of a context (GetCanonicalChildren, given as a
    list), and how files are mapped to targets (GetOwningTarget, given). *)
From Coq Require Import ZArith NArith List Bool String.
Import ListNotations.
Local Open Scope Z_scope.
Local Open Scope list_scope.

(** clang::SourceLocation: 0 is the invalid location, other numbers are
    positions in the translation unit, so that
    SourceManager::isBeforeInTranslationUnit is [<] on valid locations.
    Simplification: different locations have different positions. *)
Definition loc_valid (l : N) : bool := negb (l =? 0)%N.
(** importer.cc:404-407 SourceLocationComparator::operator() on locations. *)
Definition loc_before (a b : N) : bool := loc_valid b && loc_valid a && (a <? b)%N.

(** The kinds of declarations GetDeclOrder and GetNameForSourceOrder tell
    apart; [mangled] is the result of GetMangledName. *)
Inductive ctor_kind := DefaultCtor | CopyCtor | MoveCtor | OtherCtor.
Inductive assign_kind := CopyAssign | MoveAssign | NoAssign.
Inductive dkind :=
| Record
| Specialization (mangled : string)
| Ctor (c : ctor_kind) (mangled : string)
| Dtor (mangled : string)
| Method (a : assign_kind) (mangled : string)
| Function (mangled : string)
| Friend (named : option string)
| OtherDecl.

(** clang::DeclContext: the translation unit, a namespace or a record, by the
    id of its item. *)
Inductive ctx := CTop | CNamespace (id : Z) | CRecord (id : Z).
Definition ctx_is_record (c : ctx) : bool := match c with CRecord _ => true | _ => false end.
Definition ctx_eqb (a b : ctx) : bool :=
  match a, b with
  | CTop, CTop => true
  | CNamespace i, CNamespace j => i =? j
  | CRecord i, CRecord j => i =? j
  | _, _ => false
  end.

(** clang::Decl, the parts used here.  [d_id]: GenerateItemId; [d_imported]:
    GetDeclItem returns an item; [d_comment]: the begin of the comment
    getRawCommentNoCache attaches to it; [d_ctx]: getDeclContext (the semantic
    context, which differs from the lexical one for out-of-line definitions);
    [d_target]: GetOwningTarget. *)
Record decl := Decl {
  d_id : Z; d_kind : dkind; d_begin : N; d_end : N; d_loc : N;
  d_ctx : ctx; d_imported : bool; d_comment : option N; d_target : Z }.
Definition is_record_decl (d : decl) : bool :=
  match d_kind d with Record | Specialization _ => true | _ => false end.

(** clang::RawComment; [c_filtered]: IsFilteredComment (importer.cc:118-136). *)
Record comment := Comment { c_id : Z; c_begin : N; c_end : N; c_filtered : bool }.

(** importer.cc:327-350 GetDeclOrder. *)
Definition decl_order (d : decl) : Z :=
  match d_kind d with
  | Record | Specialization _ => if ctx_is_record (d_ctx d) then 101 else 100
  | Ctor DefaultCtor _ => 202
  | Ctor CopyCtor _ => 203
  | Ctor MoveCtor _ => 204
  | Ctor OtherCtor _ => 299
  | Dtor _ => 306
  | Method CopyAssign _ => 401
  | Method MoveAssign _ => 402
  | Method NoAssign _ => 499
  | Function _ | Friend _ | OtherDecl => 999
  end.

(** importer.cc:2339-2366 GetNameForSourceOrder. *)
Definition name_for_order (d : decl) : string :=
  match d_kind d with
  | Specialization m => m
  | Ctor _ m | Dtor m | Method _ m | Function m => m
  | Friend (Some m) => m
  | Friend None => EmptyString
  | Record | OtherDecl => EmptyString
  end.

(** importer.cc:352-357, 385-389 SourceOrderKey. *)
Record key := Key { k_begin : N; k_end : N; k_order : Z; k_name : string }.
(** clang::SourceRange::isValid. *)
Definition range_valid (k : key) : bool := loc_valid (k_begin k) && loc_valid (k_end k).

(** importer.cc:361-383 SourceOrderKey::isBefore. *)
Definition by_order (a b : key) : bool :=
  if k_order a <? k_order b then true
  else if k_order b <? k_order a then false
  else String.ltb (k_name a) (k_name b).
Definition is_before (a b : key) : bool :=
  if negb (range_valid a) || negb (range_valid b) then
    if negb (Bool.eqb (range_valid a) (range_valid b))
    then negb (range_valid a) && range_valid b
    else by_order a b
  else if negb (k_begin a =? k_begin b)%N then (k_begin a <? k_begin b)%N
  else if negb (k_end a =? k_end b)%N then (k_end a <? k_end b)%N
  else by_order a b.

(** importer.cc:391-400 GetSourceOrderKey. *)
Definition decl_key (d : decl) : key := Key (d_begin d) (d_end d) (decl_order d) (name_for_order d).
Definition comment_key (c : comment) : key := Key (c_begin c) (c_end c) 0 EmptyString.

(** llvm::stable_sort with SourceLocationComparator (importer.cc:424-429).
    The stable sorted permutation is unique (proved in Proofs.v), so insertion
    sort stands for the real algorithm. *)
Fixpoint sort_insert {A} (x : key * A) (l : list (key * A)) : list (key * A) :=
  match l with
  | [] => [x]
  | y :: l' => if is_before (fst y) (fst x) then y :: sort_insert x l' else x :: l
  end.
Fixpoint stable_sort {A} (l : list (key * A)) : list (key * A) :=
  match l with [] => [] | x :: l' => sort_insert x (stable_sort l') end.

(** importer.cc:640-642: llvm::lower_bound / upper_bound on the vector of all
    comments, which is sorted (importer.cc:802). *)
Fixpoint lower (l : list comment) (b : N) : list comment :=
  match l with [] => [] | c :: l' => if loc_before (c_begin c) b then lower l' b else l end.
Fixpoint upper (l : list comment) (e : N) : list comment :=
  match l with [] => [] | c :: l' => if loc_before e (c_begin c) then [] else c :: upper l' e end.

(** importer.cc:644-650: std::map::insert, keyed by the begin of the comment:
    nothing happens if there is an equivalent key. *)
Fixpoint map_insert (c : comment) (m : list comment) : list comment :=
  match m with
  | [] => [c]
  | c' :: m' =>
      if loc_before (c_begin c) (c_begin c') then c :: m
      else if loc_before (c_begin c') (c_begin c) then c' :: map_insert c m'
      else m
  end.
Definition comments_in (b e : N) (cs : list comment) : list comment :=
  fold_left (fun m c => if c_filtered c then m else map_insert c m) (upper (lower cs b) e) [].

(** importer.cc:669-676: std::map::erase of a key and of a range. *)
Definition erase_key (k : N) (m : list comment) : list comment :=
  filter (fun c => loc_before (c_begin c) k || loc_before k (c_begin c)) m.
Definition erase_range (b e : N) (m : list comment) : list comment :=
  filter (fun c => loc_before (c_begin c) b || loc_before e (c_begin c)) m.

(** importer.cc:634-683 GetDeclItems, of a declaration from [b] to [e] (both
    invalid for the translation unit) with the given canonical children. *)
Definition erase_for (m : list comment) (d : decl) : list comment :=
  let m := match d_comment d with Some k => erase_key k m | None => m end in
  if loc_valid (d_loc d) then erase_range (d_begin d) (d_end d) m else m.
Fixpoint imported_children (ds : list decl) (visited : list Z) : list decl :=
  match ds with
  | [] => []
  | d :: ds' =>
      if d_imported d then
        if existsb (Z.eqb (d_id d)) visited then imported_children ds' visited
        else d :: imported_children ds' (d_id d :: visited)
      else imported_children ds' visited
  end.
Definition decl_comments (b e : N) (cs : list comment) (ds : list decl) : list comment :=
  fold_left erase_for ds (comments_in b e cs).

(** What an imported declaration or comment became. *)
Inductive ikind := IRecord | INamespace | IUnsupported | IOther.

(** importer.cc:595-600 IsUnsupportedAndAlien; the cache as a partial map from
    ids to the kind and the owning target of the item. *)
Definition unsupported_alien (cur : Z) (cache : Z -> option (ikind * Z)) (id : Z) : bool :=
  match cache id with
  | Some (IUnsupported, t) => negb (t =? cur)
  | _ => false
  end.

(** importer.cc:731-767 GetItemIdsInSourceOrder. *)
Definition keyed_comments (cs : list comment) : list (key * Z) := map (fun c => (comment_key c, c_id c)) cs.
Definition keyed_decls (ds : list decl) : list (key * Z) := map (fun d => (decl_key d, d_id d)) ds.
Definition child_kept (alien : Z -> bool) (parent : ctx) (d : decl) : bool :=
  if alien (d_id d) then false
  else negb (negb (ctx_eqb (d_ctx d) parent) && ctx_is_record (d_ctx d)).
Definition item_ids (alien : Z -> bool) (parent : ctx) (b e : N) (cs : list comment) (ds : list decl) : list Z :=
  map snd (stable_sort (keyed_comments (decl_comments b e cs ds)
                        ++ keyed_decls (filter (child_kept alien parent) (imported_children ds [])))).

(** importer.cc:685-729 GetTopLevelItemIdsInSourceOrder, the list of target
    [t].  Simplification: one pass per target instead of one pass that pushes
    into a hash map of lists. *)
Definition top_kept (d : decl) : bool := negb (is_record_decl d && ctx_is_record (d_ctx d)).
Definition top_level_ids (cur : Z) (cs : list comment) (ds : list decl) (t : Z) : list Z :=
  map snd (stable_sort ((if t =? cur then keyed_comments (decl_comments 0 0 cs ds) else [])
                        ++ keyed_decls (filter (fun d => top_kept d && (d_target d =? t)) (imported_children ds [])))).

(** importer.cc:769-789 GetOrderedItemIdsOfTemplateInstantiations; the
    argument is the hash set in iteration order. *)
Definition instantiation_ids (set : list decl) : list Z := map snd (stable_sort (keyed_decls set)).

(** importer.cc:961-968: the list of target [t] after the instantiations have
    been appended to the current target's. *)
Definition all_top_level_ids (cur : Z) (cs : list comment) (ds set : list decl) (t : Z) : list Z :=
  top_level_ids cur cs ds t ++ (if t =? cur then instantiation_ids set else []).

(** invocation_.child_item_ids_ (decl_importer.h:114), in iteration order. *)
Definition child_map := list (Z * list Z).
Fixpoint children_of (m : child_map) (id : Z) : option (list Z) :=
  match m with [] => None | (k, l) :: m' => if k =? id then Some l else children_of m' id end.
Fixpoint push_child (m : child_map) (id c : Z) : child_map :=
  match m with
  | [] => [(id, [c])]
  | (k, l) :: m' => if k =? id then (k, l ++ [c]) :: m' else (k, l) :: push_child m' id c
  end.
Definition touch (m : child_map) (id : Z) : child_map :=
  match children_of m id with Some _ => m | None => m ++ [(id, [])] end.

(** importer.cc:930-942: the imported declarations whose semantic context is a
    class imported as a record, in the iteration order of import_cache_ (here
    the declarations with an item). *)
Definition record_member (cache : Z -> option (ikind * Z)) (d : decl) : bool :=
  match d_ctx d with
  | CRecord p => match cache p with Some (IRecord, _) => true | _ => false end
  | _ => false
  end.
(** importer.cc:947-959: one iteration of the second loop. *)
Definition add_member (alien : Z -> bool) (m : child_map) (d : decl) : child_map :=
  match d_ctx d with
  | CRecord p =>
      let m := touch m p in
      let l := match children_of m p with Some l => l | None => [] end in
      if negb (alien (d_id d)) && negb (existsb (Z.eqb (d_id d)) l) then push_child m p (d_id d) else m
  | _ => m
  end.
(** importer.cc:927-959. *)
Definition add_members (alien : Z -> bool) (cache : Z -> option (ikind * Z)) (imported : list decl) (m : child_map) : child_map :=
  fold_left (add_member alien)
            (map snd (stable_sort (map (fun d => (decl_key d, d)) (filter (record_member cache) imported)))) m.

(** importer.cc:991-1007: the post-order traversal; the state is the visited
    set and ordered_item_ids.  The recursion of collect_in_post_order is cut
    off by fuel; [post_order] gives enough of it (Proofs3.v). *)
Fixpoint collect (fuel : nat) (m : child_map) (id : Z) (st : list Z * list Z) : list Z * list Z :=
  match fuel with
  | O => st
  | S fuel' =>
      if existsb (Z.eqb id) (fst st) then st
      else
        let st' := fold_left (fun s c => collect fuel' m c s)
                     (match children_of m id with Some l => l | None => [] end)
                     (id :: fst st, snd st) in
        (fst st', snd st' ++ [id])
  end.
Definition ids_of (m : child_map) : list Z := flat_map (fun e => fst e :: snd e) m.
Definition post_order (m : child_map) : list Z :=
  snd (fold_left (fun s e => collect (S (List.length (ids_of m))) m (fst e) s) m ([], [])).

(** ir_proto::Item: its id, kind and children. *)
Inductive tree := Node (id : Z) (kind : ikind) (children : list tree).
Definition tree_kind (t : tree) : ikind := match t with Node _ k _ => k end.
Definition tree_id (t : tree) : Z := match t with Node i _ _ => i end.
(** id_to_item (importer.cc:974-982) as an association list. *)
Definition store := list (Z * tree).
Fixpoint find_item (s : store) (id : Z) : option tree :=
  match s with [] => None | (k, t) :: s' => if k =? id then Some t else find_item s' id end.
Fixpoint set_item (s : store) (id : Z) (t : tree) : store :=
  match s with [] => [] | (k, t') :: s' => if k =? id then (k, t) :: s' else (k, t') :: set_item s' id t end.
(** The copies of the children that have an item (importer.cc:1019-1024,
    1028-1033). *)
Definition copies (s : store) (l : list Z) : list tree :=
  flat_map (fun c => match find_item s c with Some t => [t] | None => [] end) l.
(** importer.cc:1009-1035: one iteration. *)
Definition copy_children (m : child_map) (s : store) (id : Z) : store :=
  match children_of m id with
  | None => s
  | Some l =>
      match find_item s id with
      | None => s
      | Some (Node i IRecord _) => set_item s id (Node i IRecord (copies s l))
      | Some (Node i INamespace _) => set_item s id (Node i INamespace (copies s l))
      | Some _ => s
      end
  end.
Definition build (m : child_map) (s : store) : store := fold_left (copy_children m) (post_order m) s.

(** importer.cc:1037-1052: the items of one target. *)
Definition target_items (alien : Z -> bool) (s : store) (ids : list Z) : list tree :=
  flat_map (fun id => match find_item s id with
                      | Some t => if alien id then [] else [t]
                      | None => []
                      end) ids.
(** importer.cc:927-1052 for target [t]: from the lists recorded while
    importing to the IR. *)
Definition ir_items (cur : Z) (cache : Z -> option (ikind * Z)) (imported : list decl) (m : child_map) (s : store)
    (cs : list comment) (ds set : list decl) (t : Z) : list tree :=
  let alien := unsupported_alien cur cache in
  let m := add_members alien cache imported m in
  target_items alien (build m s) (all_top_level_ids cur cs ds set t).
