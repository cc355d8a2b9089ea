(** What the nullability of a written type is: aliases and typedefs are expanded
    with their arguments as values, the outermost annotation of a pointer counts,
    and an unannotated pointer is governed by the file it is written in. *)
From Coq Require Import List Bool Arith.
From Verif.TypeNull Require Import Model.
Import ListNotations.

(** A canonical type with, at each pointer, its annotation and its file. *)
Inductive tree := Tr (slot : option (option kind * nat)) (kids : list tree).

(** Annotating a type replaces the annotation of its outermost pointer. *)
Definition annotate (k : option kind) (t : tree) : tree :=
  match k, t with
  | Some k, Tr (Some (_, f)) ks => Tr (Some (Some k, f)) ks
  | _, t => t
  end.

(** The pointers of a type in preorder. *)
Fixpoint pointers (t : tree) : list (option kind * nat) :=
  match t with
  | Tr slot ks => match slot with Some s => [s] | None => [] end ++ flat_map pointers ks
  end.

(** A type written as a pointer: no alias and no annotation on the way to it. *)
Fixpoint bare (t : ty) : bool :=
  match t with
  | TPtr _ => true
  | TRec _ smart _ _ _ _ => smart
  | TTst _ smart _ _ _ _ => smart
  | TAttr None t | TParen t | TSugar _ t | TSubst _ _ t => bare t
  | _ => false
  end.
(** The same behind aliases that only forward to another template. *)
Fixpoint bare_forwarded (t : ty) : bool :=
  match t with
  | TParen t => bare_forwarded t
  | TAlias _ _ true _ _ _ body => bare_forwarded body
  | t => bare t
  end.
(** Does the body of alias template [d] stand for its first parameter. *)
Fixpoint is_first (d : nat) (t : ty) : bool :=
  match t with
  | TSubst d' i r => if (if Nat.eqb d' d then Nat.eqb i 0 else false) then true else is_first d r
  | TAlias _ _ _ _ _ _ t | TTypedef _ _ t | TAttr _ t | TParen t | TSugar _ t => is_first d t
  | _ => false
  end.
(** Annotations count, but Unknown only on something written as a pointer. *)
Definition counted (k : option kind) (direct : bool) : option kind :=
  match k with Some Unspecified => if direct then k else None | k => k end.
Definition alias_direct (d : nat) (args : tys) (body : ty) : bool :=
  match args with TNil => false | TCons a _ => is_first d body && bare_forwarded a end.

(** What template parameters stand for: for each template, its arguments. *)
Notation env := (list (nat * option (list tree))).
Fixpoint lookup (e : env) (d : nat) : option (list tree) :=
  match e with
  | [] => None
  | (d', v) :: e => if Nat.eqb d d' then v else lookup e d
  end.

Fixpoint meaning (e : env) (f : nat) (t : ty) : tree :=
  match t with
  | TBase => Tr None []
  | TPtr t => Tr (Some (None, f)) [meaning e f t]
  | TRef t | TArr t => Tr None [meaning e f t]
  | TFun r ps => Tr None (meaning e f r :: meanings e f ps)
  | TRec d smart encl q isT dargs =>
      let e := bind e f q ++ e in
      Tr (if smart then Some (None, f) else None)
         (meanings e f encl ++
          if isT then
            match lookup e d with
            | Some l => l ++ skipn (length l) (meanings e f dargs)
            | None => meanings e f dargs
            end
          else [])
  | TTst d smart encl q args dflt =>
      let e := bind e f q ++ e in
      Tr (if smart then Some (None, f) else None)
         (meanings e f encl ++ meanings e f args ++ meanings e f dflt)
  | TAlias d ann transparent file q args body =>
      let e' := (d, Some (meanings e f args)) :: bind e f q ++ e in
      annotate (counted ann (alias_direct d args body)) (meaning e' (if transparent then f else file) body)
  | TTypedef file q body => meaning (bind e f q ++ e) file body
  | TAttr k t => annotate (counted k (bare_forwarded t)) (meaning e f t)
  | TParen t => meaning e f t
  | TSugar q t => meaning (bind e f q ++ e) f t
  | TSubst d i r =>
      match lookup e d with
      | Some l => match nth_error l i with Some v => v | None => meaning e f r end
      | None => meaning e f r
      end
  end
with meanings (e : env) (f : nat) (ts : tys) : list tree :=
  match ts with TNil => [] | TCons t ts => meaning e f t :: meanings e f ts end
with bind (e : env) (f : nat) (q : quals) : env :=
  match q with
  | QNil => []
  | QCons d known args q => (d, if known then Some (meanings e f args) else None) :: bind e f q
  end.

(** The nullability of a type: an unannotated pointer has that of the first pragma
    of its file, or else the default. *)
Fixpoint governing (ps : list (nat * kind)) (f : nat) (k : kind) : kind :=
  match ps with [] => k | (g, p) :: ps => if Nat.eqb f g then p else governing ps f k end.
Definition nullability_of (t : ty) (f : nat) (D : defaults) : list kind :=
  map (fun p => match p with (Some k, _) => k | (None, g) => governing (d_pragmas D) g (d_default D) end)
      (pointers (meaning [] f t)).

(** ** Canonical types, as shapes: is there a pointer, and the parts. *)
Inductive shape := Sh (pointer : bool) (parts : list shape).
Fixpoint canonical (t : ty) : shape :=
  match t with
  | TBase => Sh false []
  | TPtr t => Sh true [canonical t]
  | TRef t | TArr t => Sh false [canonical t]
  | TFun r ps => Sh false (canonical r :: canonicals ps)
  | TRec d smart encl q isT dargs => Sh smart (canonicals encl ++ if isT then canonicals dargs else [])
  | TTst d smart encl q args dflt => Sh smart (canonicals encl ++ canonicals args ++ canonicals dflt)
  | TAlias _ _ _ _ _ _ t | TTypedef _ _ t | TAttr _ t | TParen t | TSugar _ t | TSubst _ _ t => canonical t
  end
with canonicals (ts : tys) : list shape :=
  match ts with TNil => [] | TCons t ts => canonical t :: canonicals ts end.

Fixpoint pointer_count (s : shape) : nat :=
  match s with Sh p ks => (if p then 1 else 0) + list_sum (map pointer_count ks) end.

(** ** Well-formed uses of templates.

    [sc]: the templates whose parameters are visible, with the number of their
    arguments (none when unknown).  [outside d]: [d] is not used by the type, its
    parameters cannot be resolved. *)
Notation scope := (list (nat * option nat)).
Fixpoint count (ts : tys) : nat := match ts with TNil => 0 | TCons _ ts => S (count ts) end.
Fixpoint decls (q : quals) : list nat := match q with QNil => [] | QCons d _ _ q => d :: decls q end.
Fixpoint scope_of (q : quals) : scope :=
  match q with QNil => [] | QCons d known args q => (d, if known then Some (count args) else None) :: scope_of q end.
Fixpoint arity (sc : scope) (d : nat) : option (option nat) :=
  match sc with [] => None | (d', n) :: sc => if Nat.eqb d d' then Some n else arity sc d end.
Definition fresh (outside : nat -> bool) (sc : scope) (ds : list nat) : Prop :=
  NoDup ds /\ forall d, In d ds -> arity sc d = None /\ outside d = false.

(** Every parameter is one of a visible template and has an argument, and a
    template is not used again inside its own expansion. *)
Fixpoint tidy (outside : nat -> bool) (sc : scope) (t : ty) : Prop :=
  match t with
  | TBase => True
  | TPtr t | TRef t | TArr t | TAttr _ t | TParen t => tidy outside sc t
  | TFun r ps => tidy outside sc r /\ tidys outside sc ps
  | TRec d _ encl q isT dargs =>
      fresh outside sc (decls q) /\ tidyq outside sc q /\
      tidys outside (scope_of q ++ sc) encl /\
      (isT = true -> tidys outside (scope_of q ++ sc) dargs /\
         match arity (scope_of q ++ sc) d with None => outside d = true | Some _ => True end)
  | TTst _ _ encl q args dflt =>
      fresh outside sc (decls q) /\ tidyq outside sc q /\
      tidys outside (scope_of q ++ sc) encl /\ tidys outside (scope_of q ++ sc) args /\
      tidys outside (scope_of q ++ sc) dflt
  | TAlias d _ _ _ q args body =>
      fresh outside sc (d :: decls q) /\ tidyq outside sc q /\ tidys outside sc args /\
      tidy outside ((d, Some (count args)) :: scope_of q ++ sc) body
  | TTypedef _ q t | TSugar q t =>
      fresh outside sc (decls q) /\ tidyq outside sc q /\ tidy outside (scope_of q ++ sc) t
  | TSubst d i r =>
      match arity sc d with
      | Some (Some n) => i < n
      | Some None => tidy outside sc r
      | None => outside d = true /\ tidy outside sc r
      end
  end
with tidys (outside : nat -> bool) (sc : scope) (ts : tys) : Prop :=
  match ts with TNil => True | TCons t ts => tidy outside sc t /\ tidys outside sc ts end
with tidyq (outside : nat -> bool) (sc : scope) (q : quals) : Prop :=
  match q with QNil => True | QCons _ _ args q => tidys outside sc args /\ tidyq outside sc q end.

(** Parameters have been replaced by their arguments: [shapes] gives the canonical
    arguments of the visible templates. *)
Notation shapes := (list (nat * option (list shape))).
Fixpoint shapes_of (e : shapes) (d : nat) : option (list shape) :=
  match e with [] => None | (d', v) :: e => if Nat.eqb d d' then v else shapes_of e d end.
Fixpoint bind_shapes (q : quals) : shapes :=
  match q with
  | QNil => []
  | QCons d known args q => (d, if known then Some (canonicals args) else None) :: bind_shapes q
  end.
Fixpoint consistent (e : shapes) (t : ty) : Prop :=
  match t with
  | TBase => True
  | TPtr t | TRef t | TArr t | TAttr _ t | TParen t => consistent e t
  | TFun r ps => consistent e r /\ consistents e ps
  | TRec d _ encl q isT dargs =>
      let e' := bind_shapes q ++ e in
      consistentq e q /\ consistents e' encl /\
      (isT = true -> consistents e' dargs /\
         match shapes_of e' d with
         | Some l => l ++ skipn (length l) (canonicals dargs) = canonicals dargs
         | None => True
         end)
  | TTst _ _ encl q args dflt =>
      let e' := bind_shapes q ++ e in
      consistentq e q /\ consistents e' encl /\ consistents e' args /\ consistents e' dflt
  | TAlias d _ _ _ q args body =>
      consistentq e q /\ consistents e args /\
      consistent ((d, Some (canonicals args)) :: bind_shapes q ++ e) body
  | TTypedef _ q t | TSugar q t => consistentq e q /\ consistent (bind_shapes q ++ e) t
  | TSubst d i r =>
      match shapes_of e d with
      | Some l => match nth_error l i with Some s => s = canonical r | None => consistent e r end
      | None => consistent e r
      end
  end
with consistents (e : shapes) (ts : tys) : Prop :=
  match ts with TNil => True | TCons t ts => consistent e t /\ consistents e ts end
with consistentq (e : shapes) (q : quals) : Prop :=
  match q with QNil => True | QCons _ _ args q => consistents e args /\ consistentq e q end.

(** ** When "Unknown" is written only directly around pointers. *)
(** No template parameter and no annotated alias before the pointer. *)
Fixpoint quiet (t : ty) : bool :=
  match t with
  | TParen t | TSugar _ t | TAttr None t => quiet t
  | TAlias _ None _ _ _ _ body => quiet body
  | TAttr (Some _) _ | TAlias _ (Some _) _ _ _ _ _ | TTypedef _ _ _ | TSubst _ _ _ => false
  | _ => true
  end.

(** The alias is its first parameter, maybe through other aliases of the kind that
    add nothing, or Unknown again. *)
Fixpoint forwards (d : nat) (t : ty) : bool :=
  match t with
  | TSubst d' i _ => Nat.eqb d' d && Nat.eqb i 0
  | TAlias d' None _ _ QNil (TCons a _) body
  | TAlias d' (Some Unspecified) _ _ QNil (TCons a _) body => forwards d a && forwards d' body
  | _ => false
  end.

Fixpoint calm (t : ty) : bool :=
  match t with
  | TBase => true
  | TPtr t | TRef t | TArr t | TParen t => calm t
  | TFun r ps => calm r && calms ps
  | TRec _ _ encl q _ dargs => calms encl && calmq q && calms dargs
  | TTst _ _ encl q args dflt => calms encl && calmq q && calms args && calms dflt
  | TAlias d ann _ _ q args body =>
      calmq q && calms args && calm body &&
      match ann with
      | Some Unspecified =>
          forwards d body && match args with TCons a _ => negb (bare_forwarded a) || quiet a | TNil => true end
      | _ => true
      end
  | TTypedef _ q t | TSugar q t => calmq q && calm t
  | TAttr k t =>
      calm t && match k with Some Unspecified => negb (bare_forwarded t) || quiet t | _ => true end
  | TSubst _ _ r => calm r
  end
with calms (ts : tys) : bool :=
  match ts with TNil => true | TCons t ts => calm t && calms ts end
with calmq (q : quals) : bool :=
  match q with QNil => true | QCons _ _ args q => calms args && calmq q end.

(** ** Canonical types that can be rebuilt: no smart pointers, and no pointers in
    the arguments of enclosing classes. *)
Fixpoint plain (t : ty) : Prop :=
  match t with
  | TBase => True
  | TPtr t | TRef t | TArr t => plain t
  | TFun r ps => plain r /\ plains ps
  | TRec _ smart encl q isT dargs =>
      smart = false /\ q = QNil /\ plains encl /\ list_sum (map pointer_count (canonicals encl)) = 0 /\
      (isT = true -> plains dargs)
  | _ => False
  end
with plains (ts : tys) : Prop :=
  match ts with TNil => True | TCons t ts => plain t /\ plains ts end.
