(** What a reader of the source expects of the IR, stated without the
    importer's loops. *)
From Coq Require Import ZArith NArith List Bool String Ascii Permutation Sorted.
From Verif Require Import IrTree.Model.
Import ListNotations.
Local Open Scope Z_scope.
Local Open Scope list_scope.

(** ** Source order *)
(** Names are compared byte by byte. *)
Inductive name_before : string -> string -> Prop :=
| NameShorter c s : name_before EmptyString (String c s)
| NameSmaller c d s t : (N_of_ascii c < N_of_ascii d)%N -> name_before (String c s) (String d t)
| NameLater c s t : name_before s t -> name_before (String c s) (String c t).
Definition has_range (k : key) : Prop := k_begin k <> 0%N /\ k_end k <> 0%N.
Definition tie_broken (a b : key) : Prop :=
  k_order a < k_order b \/ (k_order a = k_order b /\ name_before (k_name a) (k_name b)).
(** Things without a place in the source come first; then by begin, by end,
    by kind and by name. *)
Inductive precedes (a b : key) : Prop :=
| PrecInvalid : ~ has_range a -> has_range b -> precedes a b
| PrecBegin : has_range a -> has_range b -> (k_begin a < k_begin b)%N -> precedes a b
| PrecEnd : has_range a -> has_range b -> k_begin a = k_begin b -> (k_end a < k_end b)%N -> precedes a b
| PrecTie : has_range a -> has_range b -> k_begin a = k_begin b -> k_end a = k_end b -> tie_broken a b -> precedes a b
| PrecTieInvalid : ~ has_range a -> ~ has_range b -> tie_broken a b -> precedes a b.

(** No entry precedes an earlier one. *)
Definition in_source_order {A} (l : list (key * A)) : Prop :=
  StronglySorted (fun x y => ~ precedes (fst y) (fst x)) l.
(** [l'] is [l] sorted, entries that tie keeping their order. *)
Definition sorted_version {A} (l l' : list (key * A)) : Prop :=
  Permutation l l' /\ in_source_order l' /\
  forall f, (forall x y, f x = true -> f y = true -> ~ precedes (fst x) (fst y)) -> filter f l' = filter f l.

(** The conventional order of declarations at the same place. *)
Definition group (k : dkind) : nat :=
  match k with
  | Record | Specialization _ => 0
  | Ctor DefaultCtor _ => 1 | Ctor CopyCtor _ => 2 | Ctor MoveCtor _ => 3 | Ctor OtherCtor _ => 4
  | Dtor _ => 5
  | Method CopyAssign _ => 6 | Method MoveAssign _ => 7 | Method NoAssign _ => 8
  | _ => 9
  end.

(** ** Which comments and declarations a container lists *)
(** A position in the range from [b] to [e]; 0 stands for no bound. *)
Definition in_range (b e p : N) : Prop := (b = 0 \/ b <= p)%N /\ (e = 0 \/ p <= e)%N.
(** The comments of the headers: at valid, different places, in order. *)
Definition comments_ok (cs : list comment) : Prop :=
  StronglySorted (fun a b => (c_begin a < c_begin b)%N) cs /\ Forall (fun c => c_begin c <> 0%N) cs.
Definition decls_ok (ds : list decl) : Prop := Forall (fun d => d_comment d <> Some 0%N) ds.
(** A comment that belongs to a declaration: it documents it or lies inside. *)
Definition belongs (d : decl) (c : comment) : Prop :=
  d_comment d = Some (c_begin c) \/ (d_loc d <> 0%N /\ in_range (d_begin d) (d_end d) (c_begin c)).
Definition free_comment (b e : N) (cs : list comment) (ds : list decl) (c : comment) : Prop :=
  In c cs /\ c_filtered c = false /\ in_range b e (c_begin c) /\ forall d, In d ds -> ~ belongs d c.
(** The first imported declaration with its id. *)
Definition first_imported (ds : list decl) (d : decl) : Prop :=
  exists pre post, ds = pre ++ d :: post /\ d_imported d = true /\
    forall d', In d' pre -> d_imported d' = true -> d_id d' <> d_id d.
Definition member_of_other_class (parent : ctx) (d : decl) : Prop :=
  exists p, d_ctx d = CRecord p /\ parent <> CRecord p.
(** What a namespace or class lists. *)
Inductive lists (alien : Z -> bool) (parent : ctx) (b e : N) (cs : list comment) (ds : list decl) : key -> Z -> Prop :=
| ListsComment c : free_comment b e cs ds c ->
    lists alien parent b e cs ds (Key (c_begin c) (c_end c) 0 EmptyString) (c_id c)
| ListsDecl d : first_imported ds d -> alien (d_id d) = false -> ~ member_of_other_class parent d ->
    lists alien parent b e cs ds (decl_key d) (d_id d).
(** What the top level of target [t] lists, [cur] being the current target. *)
Definition nested_class (d : decl) : Prop :=
  (d_kind d = Record \/ exists m, d_kind d = Specialization m) /\ exists p, d_ctx d = CRecord p.
Inductive lists_top (cur : Z) (cs : list comment) (ds : list decl) (t : Z) : key -> Z -> Prop :=
| ListsTopComment c : t = cur -> free_comment 0 0 cs ds c ->
    lists_top cur cs ds t (Key (c_begin c) (c_end c) 0 EmptyString) (c_id c)
| ListsTopDecl d : first_imported ds d -> d_target d = t -> ~ nested_class d ->
    lists_top cur cs ds t (decl_key d) (d_id d).

(** ** Members *)
(** [d] is an imported declaration whose class [p] was imported as a record. *)
Definition member (cache : Z -> option (ikind * Z)) (imported : list decl) (p : Z) (d : decl) : Prop :=
  In d imported /\ d_ctx d = CRecord p /\ exists t, cache p = Some (IRecord, t).

(** ** The tree *)
(** A container's children are, in order, the complete items of those ids of
    its list that have an item; other items are left as they were. *)
Inductive complete (m : child_map) (s : store) : Z -> tree -> Prop :=
| CompleteContainer id i k l cs0 cs :
    find_item s id = Some (Node i k cs0) -> k = IRecord \/ k = INamespace ->
    children_of m id = Some l -> complete_list m s l cs -> complete m s id (Node i k cs)
| CompleteLeaf id i k cs0 :
    find_item s id = Some (Node i k cs0) -> children_of m id = None \/ (k <> IRecord /\ k <> INamespace) ->
    complete m s id (Node i k cs0)
with complete_list (m : child_map) (s : store) : list Z -> list tree -> Prop :=
| CompleteNil : complete_list m s [] []
| CompleteMissing c l ts : find_item s c = None -> complete_list m s l ts -> complete_list m s (c :: l) ts
| CompleteCons c l t ts : complete m s c t -> complete_list m s l ts -> complete_list m s (c :: l) (t :: ts).
(** Containers are nested: every child list goes strictly inwards. *)
Definition nested (m : child_map) : Prop :=
  exists depth : Z -> nat, forall id l c, children_of m id = Some l -> In c l -> (depth id < depth c)%nat.
(** The same hash map in another iteration order. *)
Definition same_map {A} (m m' : list (Z * A)) : Prop := NoDup (map fst m) /\ Permutation m m'.
(** The items of a list of ids. *)
Inductive items_of (alien : Z -> bool) (m : child_map) (s : store) : list Z -> list tree -> Prop :=
| ItemsNil : items_of alien m s [] []
| ItemsSkip c l ts : find_item s c = None \/ alien c = true -> items_of alien m s l ts -> items_of alien m s (c :: l) ts
| ItemsCons c l t ts : complete m s c t -> alien c = false -> items_of alien m s l ts -> items_of alien m s (c :: l) (t :: ts).

(** ** Order of the listing *)
Definition listed_before (l : list Z) (x y : Z) : Prop := exists a b c, l = a ++ x :: b ++ y :: c.
Definition mangled_name (k : dkind) : option string :=
  match k with
  | Specialization m | Ctor _ m | Dtor m | Method _ m | Function m | Friend (Some m) => Some m
  | Record | Friend None | OtherDecl => None
  end.
(** Two declarations with a place in the source: the one that starts first,
    else the one that ends first, else by kind, else by mangled name. *)
Inductive comes_first (d d' : decl) : Prop :=
| FirstBegin : (d_begin d < d_begin d')%N -> comes_first d d'
| FirstEnd : d_begin d = d_begin d' -> (d_end d < d_end d')%N -> comes_first d d'
| FirstKind : d_begin d = d_begin d' -> d_end d = d_end d' -> (group (d_kind d) < group (d_kind d'))%nat -> comes_first d d'
| FirstName m m' : d_begin d = d_begin d' -> d_end d = d_end d' -> group (d_kind d) = group (d_kind d') -> d_ctx d = d_ctx d' ->
    mangled_name (d_kind d) = Some m -> mangled_name (d_kind d') = Some m' -> name_before m m' -> comes_first d d'.
Definition placed (d : decl) : Prop := d_begin d <> 0%N /\ d_end d <> 0%N.
Definition comment_placed (c : comment) : Prop := c_begin c <> 0%N /\ c_end c <> 0%N.
(** [d] is listed by a container. *)
Definition listed_decl (alien : Z -> bool) (parent : ctx) (ds : list decl) (d : decl) : Prop :=
  first_imported ds d /\ alien (d_id d) = false /\ ~ member_of_other_class parent d.
(** Ids are addresses: comments have different ones, different from those of declarations. *)
Definition ids_ok (cs : list comment) (ds : list decl) : Prop :=
  NoDup (map c_id cs) /\ forall c d, In c cs -> In d ds -> c_id c <> d_id d.
