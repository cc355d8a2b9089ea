(** Model of how the nullability checker reads the nullability of a C++ type:
    nullability/type_nullability.cc:241-1200 (the type walker behind
    getTypeNullability and countPointersInType, and rebuildWithNullability).

    Clang's types are modelled as trees of sugar and canonical nodes.  Source
    locations, template parameter packs, non-type template arguments and the
    SubstituteTypeParam callback are not modelled. *)
From Coq Require Import List Bool Arith.
Import ListNotations.

Inductive kind := NonNull | Nullable | Unspecified.

(** Types.  A template declaration or class template specialisation, and a file,
    are numbers.  [quals] are the template specialisations in the qualifier
    ("S<int*>::"), right to left, each with its arguments as written, or without
    when they cannot be mapped to parameters (partial specialisations). *)
Inductive ty :=
  (** any other canonical type *)
  | TBase
  | TPtr (t : ty)
  | TRef (t : ty)
  | TArr (t : ty)
  | TFun (ret : ty) (params : tys)
  (** RecordType: [smart] pointer?, the enclosing class (none or one, canonical),
      is it a class template specialisation, and its canonical arguments *)
  | TRec (d : nat) (smart : bool) (encl : tys) (q : quals) (isT : bool) (dargs : tys)
  (** TemplateSpecializationType of a class template: arguments as written, and
      the canonical ones for the defaulted parameters *)
  | TTst (d : nat) (smart : bool) (encl : tys) (q : quals) (args : tys) (dflt : tys)
  (** TemplateSpecializationType of an alias template: its annotation, whether it
      is transparent, its file, and the substituted body *)
  | TAlias (d : nat) (ann : option kind) (transparent : bool) (file : nat) (q : quals) (args : tys) (body : ty)
  (** TypedefType: the file of the typedef, and its type *)
  | TTypedef (file : nat) (q : quals) (body : ty)
  (** AttributedType: its nullability, if it has one *)
  | TAttr (k : option kind) (t : ty)
  | TParen (t : ty)
  (** all other sugar *)
  | TSugar (q : quals) (t : ty)
  (** SubstTemplateTypeParmType: parameter [i] of [d], replaced by [r] *)
  | TSubst (d : nat) (i : nat) (r : ty)
with tys := TNil | TCons (t : ty) (ts : tys)
with quals := QNil | QCons (d : nat) (known : bool) (args : tys) (q : quals).

Fixpoint to_list (ts : tys) : list ty := match ts with TNil => [] | TCons t ts => t :: to_list ts end.

(** Is the canonical type a pointer or smart pointer (isSupportedPointerType). *)
Fixpoint is_pointer (t : ty) : bool :=
  match t with
  | TPtr _ => true
  | TRec _ s _ _ _ _ | TTst _ s _ _ _ _ => s
  | TAlias _ _ _ _ _ _ t | TTypedef _ _ t | TAttr _ t | TParen t | TSugar _ t | TSubst _ _ t => is_pointer t
  | _ => false
  end.

(** type_nullability.cc:1051-1062, the loop of
    isLexicalPointerTypeWithoutNullability. *)
Fixpoint lexical (t : ty) : bool :=
  match t with
  | TTypedef _ _ _ | TAlias _ _ _ _ _ _ _ => false
  | TAttr (Some _) _ => false
  | TAttr None t | TParen t | TSugar _ t | TSubst _ _ t => lexical t
  | _ => true
  end.

(** type_nullability.cc:1066-1074, isUnknownValidOn. *)
Fixpoint is_unknown_valid_on (t : ty) : bool :=
  match t with
  | TParen t => is_unknown_valid_on t
  | TAlias _ _ true _ _ _ body => is_unknown_valid_on body
  | t => is_pointer t && lexical t
  end.

(** type_nullability.cc:333-357, unwrapAlias: does the body of alias [d] expand to
    its parameter 0. *)
Fixpoint expands_to_arg0 (d : nat) (t : ty) : bool :=
  match t with
  | TSubst d' i r => (Nat.eqb d d' && Nat.eqb i 0) || expands_to_arg0 d r
  | TAlias _ _ _ _ _ _ t | TTypedef _ _ t | TAttr _ t | TParen t | TSugar _ t => expands_to_arg0 d t
  | _ => false
  end.
Definition unwrap_alias (d : nat) (args : tys) (body : ty) : option ty :=
  match args with
  | TCons a _ => if expands_to_arg0 d body then Some a else None
  | TNil => None
  end.

(** type_nullability.cc:438-472, TemplateContext: what is known about template
    parameters while walking. *)
Inductive tctx := CNil | CNode (d : nat) (args : option tys) (file : nat) (ext argc : tctx).
Definition arg_context (c : tctx) : tctx := match c with CNil => CNil | CNode _ _ _ _ a => a end.

(** type_nullability.cc:566-650, getBoundTemplateArgsFromQualifiedType. *)
Fixpoint bind_quals (c : tctx) (f : nat) (q : quals) : tctx :=
  match q with
  | QNil => c
  | QCons d known args q => CNode d (if known then Some args else None) f (bind_quals c f q) c
  end.

(** The state of the walker: the pending nullability, what was reported (with the
    file that governs it), whether the assertion in sawNullability failed, and
    whether a fatal error was reported. *)
Record st := mkSt { pend : option kind; out : list (option kind * nat); asrt : bool; fatal : bool }.

(** type_nullability.cc:406-412, sawNullability. *)
Definition saw (k : kind) (s : st) : st :=
  mkSt (match pend s with Some p => Some p | None => Some k end) (out s)
       (asrt s || match k, pend s with
                  | Unspecified, _ => false
                  | _, Some Unspecified => true
                  | _, _ => false
                  end)
       (fatal s).

(** type_nullability.cc:414-419, ignoreUnexpectedNullability. *)
Definition ignore (s : st) : st := mkSt None (out s) (asrt s) (fatal s).

(** type_nullability.cc:545-560, report. *)
Definition report (f : nat) (s : st) : st := mkSt None (out s ++ [(pend s, f)]) (asrt s) (fatal s).

(** type_nullability.cc:860-905, the search in visitSubstTemplateTypeParmType:
    the argument, and its file. *)
Fixpoint lookup_subst (c : tctx) (d i : nat) : option (ty * nat) :=
  match c with
  | CNil => None
  | CNode d' args f ext _ =>
      if Nat.eqb d d' then
        match args with
        | None => None
        | Some l => match nth_error (to_list l) i with Some a => Some (a, f) | None => lookup_subst ext d i end
        end
      else lookup_subst ext d i
  end.

(** type_nullability.cc:958-974, the search in visitRecordType: the arguments,
    their file and their context. *)
Fixpoint lookup_rec (c : tctx) (d : nat) : option (tys * nat * tctx) :=
  match c with
  | CNil => None
  | CNode d' args f ext ac =>
      if Nat.eqb d d' then match args with None => None | Some l => Some (l, f, ac) end
      else lookup_rec ext d
  end.

Definition drop (n : nat) (l : list ty) : list ty := skipn n l.

(** The kind that counts for an attribute or annotation of an alias on [inner]. *)
Definition effective (k : option kind) (inner : option ty) : option kind :=
  match k with
  | Some Unspecified =>
      match inner with Some t => if is_unknown_valid_on t then k else None | None => None end
  | _ => k
  end.
Definition saw_opt (k : option kind) (s : st) : st := match k with Some k => saw k s | None => s end.

(** type_nullability.cc:661-1037, the visit functions; [f] is File, [c] is
    CurrentTemplateContext.  [None] when the fuel runs out. *)
Fixpoint walk (n : nat) (c : tctx) (f : nat) (t : ty) (s : st) : option st :=
  match n with
  | 0 => None
  | S n =>
      let walks := fun c f ts s =>
        fold_left (fun o t => match o with Some s => walk n c f t s | None => None end) ts (Some s) in
      match t with
      | TBase => Some (ignore s)
      | TPtr t => walk n c f t (report f s)
      | TRef t | TArr t => walk n c f t (ignore s)
      | TFun r ps => walks c f (r :: to_list ps) (ignore s)
      | TRec d smart encl q isT dargs =>
          let c := bind_quals c f q in
          let s := if smart then report f s else ignore s in
          match walks c f (to_list encl) s with
          | None => None
          | Some s =>
              if isT then
                match lookup_rec c d with
                | Some (l, f', ac) =>
                    match walks ac f' (to_list l) s with
                    | None => None
                    | Some s => walks c f (drop (length (to_list l)) (to_list dargs)) s
                    end
                | None => walks c f (to_list dargs) s
                end
              else Some s
          end
      | TTst d smart encl q args dflt =>
          let c := bind_quals c f q in
          let s := if smart then report f s else ignore s in
          walks c f (to_list encl ++ to_list args ++ to_list dflt) s
      | TAlias d ann transparent file q args body =>
          let c := bind_quals c f q in
          let s := saw_opt (effective ann (unwrap_alias d args body)) s in
          walk n (CNode d (Some args) f c c) (if transparent then f else file) body s
      | TTypedef file q body => walk n (bind_quals c f q) file body s
      | TAttr k t =>
          match walk n c f t (saw_opt (effective k (Some t)) s) with
          | Some s => Some (mkSt (pend s) (out s) (asrt s)
                                 (fatal s || match pend s with Some _ => true | None => false end))
          | None => None
          end
      | TParen t => walk n c f t s
      | TSugar q t => walk n (bind_quals c f q) f t s
      | TSubst d i r =>
          match lookup_subst c d i with
          | Some (a, f') => walk n (arg_context c) f' a s
          | None => walk n c f r s
          end
      end
  end.

Definition start : st := mkSt None [] false false.

(** type_nullability.cc:1112-1118, TypeNullabilityDefaults::get, with the pragmas
    of files, and 1120-1180, getTypeNullability. *)
Record defaults := mkD { d_default : kind; d_pragmas : list (nat * kind) }.
Definition default_for (D : defaults) (f : nat) : kind :=
  match find (fun p => Nat.eqb (fst p) f) (d_pragmas D) with Some p => snd p | None => d_default D end.
Definition kinds (D : defaults) (l : list (option kind * nat)) : list kind :=
  map (fun p => match fst p with Some k => k | None => default_for D (snd p) end) l.

Definition getTypeNullability (n : nat) (t : ty) (f : nat) (D : defaults) : option (list kind) :=
  match walk n CNil f t start with
  | Some s => if fatal s then None else Some (kinds D (out s))
  | None => None
  end.

(** type_nullability.cc:1076-1083, countPointersInType. *)
Definition countPointersInType (n : nat) (t : ty) : option nat :=
  match walk n CNil 0 t start with
  | Some s => if fatal s then None else Some (length (out s))
  | None => None
  end.

(** type_nullability.cc:1235-1320, Rebuilder, on canonical types: the rebuilt type
    and the rest of the vector; [None] for the fatal error "too short". *)
Fixpoint rebuild (t : ty) (v : list kind) : option (ty * list kind) :=
  match t with
  | TPtr t =>
      match v with
      | [] => None
      | k :: v =>
          match rebuild t v with
          | None => None
          | Some (t, v) =>
              Some (match k with Unspecified => TPtr t | _ => TAttr (Some k) (TPtr t) end, v)
          end
      end
  | TRef t => match rebuild t v with Some (t, v) => Some (TRef t, v) | None => None end
  | TArr t => match rebuild t v with Some (t, v) => Some (TArr t, v) | None => None end
  | TFun r ps =>
      match rebuild r v with
      | None => None
      | Some (r, v) => match rebuilds ps v with Some (ps, v) => Some (TFun r ps, v) | None => None end
      end
  | TRec d smart encl q true args =>
      match rebuilds args v with
      | Some (args, v) => Some (TTst d smart encl QNil args TNil, v)
      | None => None
      end
  | t => Some (t, v)
  end
with rebuilds (ts : tys) (v : list kind) : option (tys * list kind) :=
  match ts with
  | TNil => Some (TNil, v)
  | TCons t ts =>
      match rebuild t v with
      | None => None
      | Some (t, v) => match rebuilds ts v with Some (ts, v) => Some (TCons t ts, v) | None => None end
      end
  end.

(** type_nullability.cc:1324-1334, rebuildWithNullability: fatal when the vector
    is too long. *)
Definition rebuildWithNullability (t : ty) (v : list kind) : option ty :=
  match rebuild t v with Some (t, []) => Some t | _ => None end.
