(** C++ base classes: which ones Rust can upcast to, the upcast itself, and the methods a
    derived class inherits.

    Models rs_bindings_from_cc/importers/cxx_record.cc (GetUnambiguousPublicBases),
    generate_bindings/generate_struct_and_union.rs (cc_struct_upcast_impl, the inherited
    member functions) and generate_bindings/database/code_snippet.rs (the generated
    Inherits impl). *)
From Coq Require Import List Bool Arith ZArith.
Import ListNotations.

(** clang::AccessSpecifier, in clang's numeric order. *)
Inductive access : Set := APublic | AProtected | APrivate | ANone.

Definition access_num (a : access) : nat :=
  match a with APublic => 0 | AProtected => 1 | APrivate => 2 | ANone => 3 end.

(** clang::CXXBaseSpecifier of a class.  Simplification: a class is a number. *)
Record bspec : Set := mkB { b_cls : nat; b_virt : bool; b_acc : access }.

(** What is known of every class: its direct bases in order, the offset of a direct
    non-virtual base in its layout (ASTRecordLayout::getBaseClassOffset), whether the class
    was imported, and its member functions with an identifier name in order. *)
Record mfun : Set := mkM { m_name : nat; m_id : nat; m_gen : bool }.

Record hier : Type := mkH {
  bases : nat -> list bspec;
  boff : nat -> nat -> Z;
  imported : nat -> bool;
  funs : nat -> list mfun
}.

(** A clang::CXXBasePath: the base specifiers passed, outermost first, each with the class
    that has it (clang::CXXBasePathElement). *)
Notation step := (nat * bspec)%type.
Notation path := (list step).

(** clang::CXXRecordDecl::MergeAccess (clang, DeclCXX.h; not part of /repo). *)
Definition merge_access (path_acc decl_acc : access) : access :=
  match decl_acc with
  | APrivate => ANone
  | _ => if access_num decl_acc <? access_num path_acc then path_acc else decl_acc
  end.

(** The state of one [next_class()] call, cxx_record.cc:1628-1652: the set [seen], the class
    [found], and what clang::CXXBasePaths records.  [log] is the list of the base specifiers
    visited, each as the path to it; clang keeps only the counters that [nonvirtual_count]
    and [virtual_seen] compute from it (CXXBasePaths::ClassSubobjects). *)
Record st : Set := mkS {
  s_seen : list nat;
  s_found : option nat;
  s_log : list path;
  s_paths : list (path * access)
}.

Definition last_spec (p : path) : option bspec :=
  match rev p with [] => None | (_, b) :: _ => Some b end.

Definition is_virtual_visit (c : nat) (p : path) : bool :=
  match last_spec p with Some b => b_virt b && (b_cls b =? c) | None => false end.
Definition is_nonvirtual_visit (c : nat) (p : path) : bool :=
  match last_spec p with Some b => negb (b_virt b) && (b_cls b =? c) | None => false end.

Definition virtual_seen (l : list path) (c : nat) : bool := existsb (is_virtual_visit c) l.
Definition nonvirtual_count (l : list path) (c : nat) : nat :=
  length (filter (is_nonvirtual_visit c) l).

Definition mem (c : nat) (l : list nat) : bool := existsb (Nat.eqb c) l.

(** cxx_record.cc:1633-1646 [is_new_class]. *)
Definition is_new_class (b : bspec) (s : st) : bool * st :=
  match s_found s with
  | Some f => (b_cls b =? f, s)
  | None =>
      if mem (b_cls b) (s_seen s) then (false, s)
      else (true, mkS (b_cls b :: s_seen s) (Some (b_cls b)) (s_log s) (s_paths s))
  end.

(** One iteration of the loop of clang::CXXBasePaths::lookupInBases (clang,
    CXXInheritance.cpp; not part of /repo): count the visit, extend the path and its access,
    record the path if the base matches, else descend unless it is a virtual base that has
    been visited.  [rec] is the recursive call.  [acc] is [None] on the first step. *)
Definition visit (rec : nat -> path -> option access -> st -> st)
  (c : nat) (pre : path) (acc : option access) (s : st) (b : bspec) : st :=
  let p := pre ++ [(c, b)] in
  let go_down := negb (b_virt b) || negb (virtual_seen (s_log s) (b_cls b)) in
  let acc' := match acc with None => b_acc b | Some a => merge_access a (b_acc b) end in
  let s1 := mkS (s_seen s) (s_found s) (s_log s ++ [p]) (s_paths s) in
  let '(matches, s2) := is_new_class b s1 in
  if matches then mkS (s_seen s2) (s_found s2) (s_log s2) (s_paths s2 ++ [(p, acc')])
  else if go_down then rec (b_cls b) p (Some acc') s2
  else s2.

(** clang::CXXBasePaths::lookupInBases.  The depth is bounded by the class number, as a
    class can only derive from classes defined before it. *)
Fixpoint lookup_in_bases (H : hier) (fuel : nat) (c : nat) (pre : path) (acc : option access)
  (s : st) : st :=
  match fuel with
  | O => s
  | S n => fold_left (visit (lookup_in_bases H n) c pre acc) (bases H c) s
  end.

(** cxx_record.cc:1628-1652 [next_class()] after [paths.clear()]. *)
Definition next_class (H : hier) (c : nat) (seen : list nat) : st :=
  lookup_in_bases H (S c) c [] None (mkS seen None [] []).

(** clang::CXXBasePaths::isAmbiguous. *)
Definition is_ambiguous (s : st) (x : nat) : bool :=
  1 <? nonvirtual_count (s_log s) x + (if virtual_seen (s_log s) x then 1 else 0).

(** cxx_record.cc:1672-1683: the offset, absent if an edge is virtual. *)
Fixpoint path_offset (H : hier) (p : path) : option Z :=
  match p with
  | [] => Some 0%Z
  | (c, b) :: p' =>
      if b_virt b then None
      else match path_offset H p' with
           | Some o => Some (boff H c (b_cls b) + o)%Z
           | None => None
           end
  end.

Definition is_public (a : access) : bool := match a with APublic => true | _ => false end.

(** cxx_record.cc:1655-1697: the first path that is public, of an unambiguous imported
    class. *)
Fixpoint pick (H : hier) (s : st) (x : nat) (ps : list (path * access)) : option (nat * option Z) :=
  match ps with
  | [] => None
  | (p, a) :: ps' =>
      if negb (is_public a) then pick H s x ps'
      else if is_ambiguous s x then pick H s x ps'
      else if negb (imported H x) then pick H s x ps'
      else Some (x, path_offset H p)
  end.

(** cxx_record.cc:1654-1699: the outer loop.  Every round but the last finds a new base
    class, all of which have a smaller number. *)
Fixpoint base_rounds (H : hier) (c : nat) (fuel : nat) (seen : list nat)
  : list (nat * option Z) :=
  match fuel with
  | O => []
  | S n =>
      let s := next_class H c seen in
      match s_found s with
      | None => []
      | Some x =>
          match pick H s x (s_paths s) with
          | Some e => e :: base_rounds H c n (s_seen s)
          | None => base_rounds H c n (s_seen s)
          end
      end
  end.

Definition unambiguous_public_bases (H : hier) (c : nat) : list (nat * option Z) :=
  base_rounds H c (S c) [].

(** A pointer in the generated code: null or an address. *)
Inductive ptr : Set := Null | Addr (a : Z).

(** generate_struct_and_union.rs:1106-1140 and code_snippet.rs:712-724: the body of
    [upcast_ptr].  With a known offset the pointer is moved by it, whatever it is (null is
    address 0); otherwise a C++ thunk does the conversion ([cast], code_snippet.rs:1664-1676,
    a C++ implicit conversion). *)
Definition addr_of (p : ptr) : Z := match p with Null => 0%Z | Addr a => a end.
Definition ptr_of (a : Z) : ptr := if (a =? 0)%Z then Null else Addr a.

Definition upcast_ptr (o : option Z) (cast : ptr -> ptr) (derived : ptr) : ptr :=
  match o with
  | Some off => ptr_of (addr_of derived + off)
  | None => cast derived
  end.

(** generate_struct_and_union.rs:187-207
    [collect_unqualified_member_functions_from_all_bases]. *)
Definition inherited_functions (H : hier) (c : nat) : list (nat * mfun) :=
  flat_map (fun e => List.map (fun f => (fst e, f)) (funs H (fst e)))
           (unambiguous_public_bases H c).

Definition declares (H : hier) (c : nat) (n : nat) : bool :=
  existsb (fun f => m_name f =? n) (funs H c).

(** generate_struct_and_union.rs:243-256: the functions counted for a name. *)
Definition counted (H : hier) (c : nat) (e : nat * mfun) : bool :=
  m_gen (snd e) && negb (declares H c (m_name (snd e))).

(** generate_struct_and_union.rs:233-262 [filter_out_ambiguous_member_functions].
    Simplification: kept in the order of the bases instead of sorted by name. *)
Definition inherited_methods (H : hier) (c : nat) : list (nat * mfun) :=
  let cand := filter (counted H c) (inherited_functions H c) in
  filter (fun e =>
            length (filter (fun e' => m_name (snd e') =? m_name (snd e)) cand) =? 1) cand.
