(** Specification for the statements of the lifetime analysis: a concrete machine with memory locations, and what it
    means for the analysis to describe it.  Only the syntax (elements, types, initializers) and the repository record of
    the model are used, and the order on analysis states of PointsTo/Spec.v. *)
From Coq Require Import List ZArith Bool.
From Verif.Lifetimes Require Model.
From Verif.PointsTo Require Import Model Spec.
From Verif.PtTransfer Require Import Model.
Import ListNotations.
Local Open Scope Z_scope.

(** * The machine *)
(** A location is a number.  The memory says which location a pointer or reference stored at a location points to
    ([None]: null, or not a pointer).  An expression that was evaluated holds the location it denotes (glvalue) or points
    to (pointer); a null pointer holds none; a braced list holds those of its elements. *)
Record machine := Machine { mem : Z -> option Z; reg : Z -> list Z }.
Definition upd {A} (f : Z -> A) (k : Z) (v : A) : Z -> A := fun x => if Z.eq_dec x k then v else f x.
Fixpoint operand (e : expr) : Z := match e with Leaf id => id | Paren e => operand e end.
Definition value (s : machine) (e : expr) : list Z := reg s (operand e).
Definition eval (s : machine) (id : Z) (v : list Z) : machine := Machine (mem s) (upd (reg s) id v).
Definition pointer_of (v : list Z) (o : option Z) : Prop :=
  match o with Some l => In l v | None => True end.

(** Where things are. *)
Record layout := Layout {
  var_at : Z -> Z;
  field_at : Z -> Z -> Z;
  string_at : Z;
  temp_at : Z -> Z;
  result_at : Z -> Z;
  this_at : Z;
  same_array : Z -> Z -> Prop;
  same_class_object : Z -> Z -> Prop
}.

Section Machine.
Variables (L : layout) (record_fields : Z -> list (Z * ty)).

(** The locations that an initialization at [l] of type [t] writes: one pointer, or the elements of an array. *)
Definition cells (t : ty) (l x : Z) : Prop :=
  match t with
  | TPtr _ _ | TRef _ _ => x = l
  | TArr (TPtr _ _) | TArr (TRef _ _) => x = l \/ same_array L l x
  | _ => False
  end.
Definition writes (s : machine) (here : Z -> Prop) (v : list Z) (s' : machine) : Prop :=
  reg s' = reg s /\ (forall x, here x -> pointer_of v (mem s' x)) /\ (forall x, ~ here x -> mem s' x = mem s x).
(** Types whose initialization stores pointers in one object, and types without pointers. *)
Definition pointers_only (t : ty) : Prop :=
  match t with TPtr _ _ | TRef _ _ | TOther | TIncomplete | TArr TOther | TArr (TPtr _ _) | TArr (TRef _ _) => True | _ => False end.
(** Initialization of the object at a location.  Records by lists of as many initializers as fields. *)
Inductive initializes : Z -> ty -> init -> machine -> machine -> Prop :=
| InitPointers l t i s s' : pointers_only t -> writes s (cells t l) (value s (init_expr i)) s' -> initializes l t i s s'
| InitRecordFields l r id is_ s s' : init_fields l (record_fields r) is_ s s' -> initializes l (TRec r) (IList id is_) s s'
with init_fields : Z -> list (Z * ty) -> list init -> machine -> machine -> Prop :=
| NoFields l s : init_fields l [] [] s s
| NextField l f t fs i is_ s s1 s' :
    initializes (field_at L l f) t i s s1 -> init_fields l fs is_ s1 s' -> init_fields l ((f, t) :: fs) (i :: is_) s s'.

(** Arrays of arrays of pointers, which have no [declares] step (see C159_nested_arrays_refuted): every cell gets one of the
    values listed at the leaves of the braced lists. *)
Fixpoint array_of_pointers (t : ty) : Prop := match t with TArr t' => array_of_pointers t' | TPtr _ _ | TRef _ _ => True | _ => False end.
Definition nested_array (t : ty) : Prop := exists t', t = TArr (TArr t') /\ array_of_pointers t'.
Fixpoint leaf_values (s : machine) (i : init) : list Z := match i with IExpr e => value s e | IList _ l => flat_map (leaf_values s) l end.
Definition initializes_nested (l : Z) (t : ty) (i : init) (s s' : machine) : Prop :=
  nested_array t /\ writes s (fun x => x = l \/ same_array L l x) (leaf_values s i) s'.

(** Declarations. *)
Inductive declares : list (Z * ty * option init) -> machine -> machine -> Prop :=
| DeclNone s : declares [] s s
| DeclUninit d t rest s s' : declares rest s s' -> declares ((d, t, None) :: rest) s s'
| DeclRecord d r i rest s s' : declares rest s s' -> declares ((d, TRec r, Some i) :: rest) s s'
| DeclInit d t i rest s s1 s' : pointers_only t -> initializes (var_at L d) t i s s1 -> declares rest s1 s' ->
    declares ((d, t, Some i) :: rest) s s'.

(** One step: what the statement does.  Calls, constructor calls and temporaries that hold a pointer have no step here. *)
Inductive step : elem -> machine -> machine -> Prop :=
| SNotVar id s : step (DeclRef id None) s s
| SVar id d s : step (DeclRef id (Some (d, false))) s (eval s id [var_at L d])
| SReference id d s l : mem s (var_at L d) = Some l -> step (DeclRef id (Some (d, true))) s (eval s id [l])
| SString id s : step (StringLit id) s (eval s id [string_at L])
| SLoad id sub gl s l v : value s sub = [l] -> v = match mem s l with Some x => [x] | None => [] end ->
    step (Cast LValueToRValue id sub true gl) s (eval s id v)
| SLoadOther id sub gl s : step (Cast LValueToRValue id sub false gl) s s
| SNull id sub p gl s : step (Cast NullToPointer id sub p gl) s (eval s id [])
| SNoOp id sub p gl s : p || gl = true -> step (Cast NoOpLike id sub p gl) s (eval s id (value s sub))
| SNoOpOther id sub s : step (Cast NoOpLike id sub false false) s s
| SClassCast id sub p gl s l l' : value s sub = [l] -> same_class_object L l l' ->
    step (Cast ClassCast id sub p gl) s (eval s id [l'])
| SClassCastNull id sub p gl s : value s sub = [] -> step (Cast ClassCast id sub p gl) s (eval s id [])
| SUnsafe id sub p gl s s' : step (Cast TypeUnsafe id sub p gl) s s'
| SOtherCast id sub s : step (Cast OtherCast id sub false false) s s
| SReturn e t s : step (Return e t) s s
| SDecl vars s s' : declares vars s s' -> step (DeclStmt vars) s s'
| SReinterpret op id sub s : op = AddrOf \/ op = Deref -> step (Unary op id sub true) s (eval s id (value s sub))
| SPost id sub s l v v' : value s sub = [l] -> mem s l = Some v -> same_array L v v' ->
    step (Unary PostIncDec id sub true) s (Machine (upd (mem s) l (Some v')) (upd (reg s) id [v]))
| SPre id sub s l v v' : value s sub = [l] -> mem s l = Some v -> same_array L v v' ->
    step (Unary PreIncDec id sub true) s (Machine (upd (mem s) l (Some v')) (upd (reg s) id [l]))
| SPreOther id sub s l : value s sub = [l] -> step (Unary PreIncDec id sub true) s (eval s id [l])
| SUnaryOther op id sub tracked s : op = OtherUnary \/ tracked = false -> step (Unary op id sub tracked) s s
| SSubscript id base s l l' : value s base = [l] -> same_array L l l' -> step (Subscript id base) s (eval s id [l'])
| SAssignPointer id lhs rhs c t s l o : value s lhs = [l] -> pointer_of (value s rhs) o -> operand rhs <> id ->
    step (Assign id lhs rhs (TPtr c t)) s (Machine (upd (mem s) l o) (upd (reg s) id [l]))
| SAssignOther id lhs rhs t s l : is_ptr t = false -> value s lhs = [l] -> step (Assign id lhs rhs t) s (eval s id [l])
| SPlusLeft id lhs rhs s l l' : value s lhs = [l] -> same_array L l l' -> step (Arith id lhs rhs true false) s (eval s id [l'])
| SPlusRight id lhs rhs s l l' : value s rhs = [l] -> same_array L l l' -> step (Arith id lhs rhs false true) s (eval s id [l'])
| SArith id lhs rhs b s : step (Arith id lhs rhs b b) s s
| SCondTrue id t f s : step (Conditional id t f true) s (eval s id (value s t))
| SCondFalse id t f s : step (Conditional id t f true) s (eval s id (value s f))
| SCondOther id t f s : step (Conditional id t f false) s s
| SArray id inits s : forallb snd inits = true ->
    step (InitArray id inits) s (eval s id (flat_map (fun i => value s (fst i)) inits))
| SArrayOther id inits s : forallb snd inits = false -> step (InitArray id inits) s s
| SAggregate id t is_ s s' : initializes (result_at L id) t (IList id is_) s s' -> (exists r, t = TRec r) ->
    step (InitRecord id t is_) s s'
| STemp id sub s : step (Temporary id sub false) s (eval s id [temp_at L id])
| SField id base f s l : value s base = [l] -> step (Member id base (FieldMember f false)) s (eval s id [field_at L l f])
| SFieldRef id base f s l x : value s base = [l] -> mem s (field_at L l f) = Some x ->
    step (Member id base (FieldMember f true)) s (eval s id [x])
| SMethod id base s : step (Member id base Method) s s
| SThis id s : step (This id) s (eval s id [this_at L])
| SOther e s : step (OtherElem e) s s.
End Machine.

(** * What the analysis says about a machine *)
Section Meaning.
Variable abs : Z -> object.   (* the object of the analysis that stands for a location *)

(** The repository's objects stand for the things of the layout. *)
Record represents (R : repo) (L : layout) : Prop := Represents {
  rep_var : forall d, abs (var_at L d) = decl_object R d;
  rep_field : forall l f o, field_object R (abs l) f = Some o -> abs (field_at L l f) = o;
  rep_string : abs (string_at L) = string_object R;
  rep_temp : forall id, abs (temp_at L id) = temp_object R id;
  rep_result : forall id, abs (result_at L id) = result_object R id;
  rep_this : abs (this_at L) = this_object R;
  rep_array : forall l l', same_array L l l' -> abs l' = abs l;
  rep_class : forall l l', same_class_object L l l' -> abs l' = abs l
}.
(** Whatever a location or an evaluated expression points to is in the points-to set. *)
Definition covers (m : pmap) (s : machine) : Prop :=
  (forall l v, mem s l = Some v -> points m (Pointer (abs l)) (abs v)) /\
  (forall id v, In v (reg s id) -> points m (Expr (Leaf id)) (abs v)).
(** An object that is overwritten as a whole stands for one location. *)
Definition one_location (o : object) : Prop := forall l l', abs l = o -> abs l' = o -> l = l'.
Definition describes (a : lattice) (s : machine) : Prop :=
  match a with
  | Err _ => True
  | Ok m _ sv => covers m s /\ forall o, In o sv -> one_location o
  end.
End Meaning.

(** * Programs *)
(** A control flow graph: the element of each node and the edges. *)
Record program := Program { element : Z -> elem; edge : Z -> Z -> Prop }.
Inductive runs (L : layout) (fs : Z -> list (Z * ty)) (P : program) (entry : Z) (s0 : machine) : Z -> machine -> Prop :=
| RunStart : runs L fs P entry s0 entry s0
| RunStep n n' s s' : runs L fs P entry s0 n s -> step L fs (element P n) s s' -> edge P n n' -> runs L fs P entry s0 n' s'.
(** A variable that is declared with an initializer has an object of its own: nothing else is represented by it. *)
Definition own_objects (abs : Z -> object) (R : repo) (L : layout) (P : program) : Prop :=
  forall n vars d t i x, element P n = DeclStmt vars -> In (d, t, Some i) vars -> (exists l, cells L t (var_at L d) l) ->
    abs x = decl_object R d -> cells L t (var_at L d) x.
(** The analysis has converged: the state before each node includes the initial state at the entry, and what each edge
    brings in.  The control flow graph has no elements for parentheses, so no state mentions a parenthesized expression. *)
Definition no_parens (a : lattice) : Prop :=
  match a with Err _ => True | Ok m _ _ => forall e, ~ known m (Expr (Paren e)) end.
Definition converged (R : repo) (P : program) (entry : Z) (init : lattice) (A : Z -> lattice) : Prop :=
  lower init (A entry) /\ (forall n, no_parens (A n)) /\
  forall n n', edge P n n' -> exists fuel r, transfer R fuel (element P n) (A n) = Done r /\ lower r (A n').

(** * Constraints of an assignment *)
(** The sub-objects of two objects of the same type, field by field and base by base, down to what is not a record. *)
Inductive component (R : repo) : ty -> object -> object -> ty -> object -> object -> Prop :=
| CSelf t a b : (forall r, t <> TRec r) -> component R t a b t a b
| CField r f t a b a' b' t' x y : In (f, t) (fields R r) -> field_object R a f = Some a' -> field_object R b f = Some b' ->
    component R t a' b' t' x y -> component R (TRec r) a b t' x y
| CBase r base a b a' b' t' x y : In base (bases R r) -> base_object R a base = Some a' -> base_object R b base = Some b' ->
    component R (TRec base) a' b' t' x y -> component R (TRec r) a b t' x y.
(** [assigned i p n t]: when the pointers [ps] of type [t0] are assigned the pointees [ns], the pointer [p] of type [t] comes to
    be used where [n] is what is pointed to, in an invariant position if [i].  The position below a pointer is invariant unless
    its pointee is const (https://doc.rust-lang.org/nomicon/subtyping.html). *)
Inductive assigned (R : repo) (m : pmap) (ps ns : oset) (t0 : ty) : bool -> object -> object -> ty -> Prop :=
| ARoot p n : In p ps -> In n ns -> assigned R m ps ns t0 false p n t0
| ADeeper i p n t is_const pointee old t' p' q n' : assigned R m ps ns t0 i p n t ->
    t = TPtr is_const pointee \/ t = TRef is_const pointee ->
    points m (Pointer p) old -> component R pointee old n t' p' q -> t' <> TIncomplete -> points m (Pointer q) n' ->
    assigned R m ps ns t0 (negb is_const) p' n' t'.
(** The constraints for using [new] where [old] was: it must outlive it; for functions, it must be callable in its place. *)
Definition replaces (R : repo) (old new : object) (q : Z * Z) : Prop :=
  q = (life R old, life R new) \/ exists fo fn, func R old = Some fo /\ func R new = Some fn /\ In q (callable R fn fo).
Definition points_somewhere (t : ty) : Prop := exists c t', t = TPtr c t' \/ t = TRef c t'.
(** Demanded of the assignment: at every level the new pointee replaces the old one; in invariant positions also conversely. *)
Definition demanded_forward (R : repo) (m : pmap) (ps ns : oset) (t0 : ty) (q : Z * Z) : Prop :=
  exists i p n t old, assigned R m ps ns t0 i p n t /\ points_somewhere t /\ points m (Pointer p) old /\ replaces R old n q.
Definition demanded (R : repo) (m : pmap) (ps ns : oset) (t0 : ty) (q : Z * Z) : Prop :=
  demanded_forward R m ps ns t0 q \/
  exists p n t old, assigned R m ps ns t0 true p n t /\ points_somewhere t /\ points m (Pointer p) old /\ replaces R n old q.
(** A pointer and a pointee meet with one type; or even in positions of one variance. *)
Definition one_type (R : repo) (m : pmap) (ps ns : oset) (t0 : ty) : Prop :=
  forall i i' p n t t', assigned R m ps ns t0 i p n t -> assigned R m ps ns t0 i' p n t' -> t = t'.
Definition one_variance (R : repo) (m : pmap) (ps ns : oset) (t0 : ty) : Prop :=
  forall i i' p n t t', assigned R m ps ns t0 i p n t -> assigned R m ps ns t0 i' p n t' -> i = i'.

(** * The states the analysis computes *)
(** From the initial state, by statements of the program and by joins, in any order and number. *)
Inductive computed (R : repo) (P : program) (init : lattice) : lattice -> Prop :=
| CInit : computed R P init init
| CTransfer fuel n a r : computed R P init a -> transfer R fuel (element P n) a = Done r -> computed R P init r
| CJoin a b : computed R P init a -> computed R P init b -> computed R P init (fst (join a b)).
(** A map without duplicates, as the operations build it. *)
Definition well_formed (m : pmap) : Prop :=
  (NoDup (map fst (pointers m)) /\ forall k s, In (k, s) (pointers m) -> NoDup s) /\
  (NoDup (map fst (exprs m)) /\ forall k s, In (k, s) (exprs m) -> NoDup s).
(** The parts of an object. *)
Inductive part (R : repo) : object -> object -> Prop :=
| PSelf a : part R a a
| PField a f b c : field_object R a f = Some b -> part R b c -> part R a c.
(** Objects the function never declares and never overwrites as a whole: what its parameters point to, the return value,
    globals' pointees. *)
Definition kept (R : repo) (P : program) (sv : oset) (o : object) : Prop :=
  ~ In o sv /\ forall n vars d t i, element P n = DeclStmt vars -> In (d, t, Some i) vars -> ~ part R (decl_object R d) o.
(** The [this] pointers of calls have pointer types. *)
Definition this_is_pointer (R : repo) (P : program) : Prop :=
  forall n, match element P n with
            | Call id _ _ _ _ => points_somewhere (object_type R (call_this R id))
            | Construct _ _ _ t => points_somewhere t
            | _ => True
            end.

(** * Termination *)
(** Finitely many objects; no class contains itself as a field or base. *)
Definition finite_objects (R : repo) (m : pmap) (U : list object) : Prop :=
  (forall p x, points m (Pointer p) x -> In x U) /\
  (forall o f x, field_object R o f = Some x -> In x U) /\ (forall o b x, base_object R o b = Some x -> In x U).
Definition no_self_containment (R : repo) : Prop :=
  exists rank : Z -> nat, (forall r f r', In (f, TRec r') (fields R r) -> (rank r' < rank r)%nat) /\
                          (forall r b, In b (bases R r) -> (rank b < rank r)%nat).
(** No class reaches itself, not even through pointers. *)
Fixpoint names (t : ty) (r : Z) : Prop :=
  match t with TRec r' => r = r' | TPtr _ t | TRef _ t => names t r | _ => False end.
Definition no_self_reference (R : repo) : Prop :=
  exists rank : Z -> nat, (forall r f t r', In (f, t) (fields R r) -> names t r' -> (rank r' < rank r)%nat) /\
                          (forall r b, In b (bases R r) -> (rank b < rank r)%nat).

(** * Equality of two objects *)
(** The objects at the same place in two objects of one type, through fields, bases and pointers. *)
Inductive matched (R : repo) (m : pmap) : ty -> object -> object -> object -> object -> Prop :=
| MSelf t a b : matched R m t a b a b
| MField r f t a b a' b' x y : In (f, t) (fields R r) -> field_object R a f = Some a' -> field_object R b f = Some b' ->
    matched R m t a' b' x y -> matched R m (TRec r) a b x y
| MBase r base a b a' b' x y : In base (bases R r) -> base_object R a base = Some a' -> base_object R b base = Some b' ->
    matched R m (TRec base) a' b' x y -> matched R m (TRec r) a b x y
| MPointee t c t' a b a' b' x y : t = TPtr c t' \/ t = TRef c t' -> points m (Pointer a) a' -> points m (Pointer b) b' ->
    matched R m t' a' b' x y -> matched R m t a b x y.

(** * Temporaries that hold a pointer *)
(** What materializing the pointer [sub] as a temporary does: the temporary's location holds the pointer. *)
Definition holds_pointer (L : layout) (id : Z) (sub : expr) (s s' : machine) : Prop :=
  exists o, pointer_of (value s sub) o /\ s' = Machine (upd (mem s) (temp_at L id) o) (upd (reg s) id [temp_at L id]).
