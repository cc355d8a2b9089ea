(** Model of lifetime_analysis/lifetime_analysis.cc: how the lifetime analysis interprets statements (the transfer
    functions), on top of the points-to maps of PointsTo/Model.v and the constraints of Lifetimes/Model.v. *)
From Coq Require Import List Arith ZArith Bool.
From Verif.Lifetimes Require Model.
From Verif.PointsTo Require Import Model.
Import ListNotations.
Local Open Scope Z_scope.

(** The types the functions distinguish.  A pointer or reference says whether its pointee is const-qualified
    ([getPointeeType().isConstQualified()]).  [TOther] is any other complete type (scalars, functions). *)
Inductive ty :=
| TOther
| TPtr (pointee_const : bool) (pointee : ty)
| TRef (pointee_const : bool) (pointee : ty)
| TRec (r : Z)
| TArr (element : ty)
| TIncomplete.
(** Clang's [isPointerType() || isReferenceType()], [getPointeeType()], constness of the pointee. *)
Definition pointee_of (t : ty) : option (bool * ty) :=
  match t with TPtr c t' | TRef c t' => Some (c, t') | _ => None end.
Definition is_ptr (t : ty) : bool := match t with TPtr _ _ => true | _ => false end.
Definition is_ref (t : ty) : bool := match t with TRef _ _ => true | _ => false end.

(** What lifetime_analysis.cc asks of the [ObjectRepository] (object_repository.cc:544-751), of [Object]
    (object.h) and of the type system.  [None] is [report_fatal_error] ("Didn't find ...").
    [F] identifies a [FunctionLifetimes]; [callable new old] stands for
    [LifetimeConstraints::ForCallableSubstitutionFull]. *)
Record repo := Repo {
  life : object -> Lifetimes.Model.lifetime;
  func : object -> option Z;
  callable : Z -> Z -> Lifetimes.Model.constraints;
  params : Z -> list ty;
  fields : Z -> list (Z * ty);
  bases : Z -> list Z;
  field_object : object -> Z -> option object;
  base_object : object -> Z -> option object;
  decl_object : Z -> object;
  string_object : object;
  temp_object : Z -> object;
  this_object : object;
  return_object : object;
  arg_object : Z -> nat -> option object;
  call_this : Z -> object;
  call_ret : Z -> object;
  call_lifetimes : Z -> Z;
  result_object : Z -> object;
  object_type : object -> ty
}.

(** Results: the fuel ran out, the analyzer aborted ([report_fatal_error]), or a value. *)
Inductive res (A : Type) := Fuel | Crash | Done (a : A).
Arguments Fuel {A}. Arguments Crash {A}. Arguments Done {A} a.
Definition bind {A B} (r : res A) (f : A -> res B) : res B :=
  match r with Fuel => Fuel | Crash => Crash | Done a => f a end.
Notation "'do' x <- r ; k" := (bind r (fun x => k)) (at level 200, x pattern, r at level 100, k at level 200).
Definition found {A} (o : option A) : res A := match o with Some a => Done a | None => Crash end.

Section Repository.
Variable R : repo.

(** object_repository.cc:719-726 [GetFieldObject(const ObjectSet&, field)], 742-751 [GetBaseClassObject]. *)
Fixpoint map_objects (f : object -> option object) (s : oset) (acc : oset) : res oset :=
  match s with
  | [] => Done acc
  | o :: s' => do o' <- found (f o); map_objects f s' (add1 acc o')
  end.
Definition field_objects (s : oset) (f : Z) : res oset := map_objects (fun o => field_object R o f) s [].
Definition base_objects (s : oset) (b : Z) : res oset := map_objects (fun o => base_object R o b) s [].

(** lifetime_analysis.cc:105-120 [GenerateConstraintsForSingleAssignment]. *)
Definition single_assignment (oldp newp : object) (c : Lifetimes.Model.constraints) : Lifetimes.Model.constraints :=
  let c := match func R oldp, func R newp with
           | Some fo, Some fn => fst (Lifetimes.Model.join c (callable R fn fo))
           | _, _ => c
           end in
  fst (Lifetimes.Model.insert (life R oldp, life R newp) c).
(** lifetime_analysis.cc:122-141 [GenerateConstraintsForAssignmentNonRecursive]. *)
Definition non_recursive (olds news : oset) (invariant : bool) (c : Lifetimes.Model.constraints) : Lifetimes.Model.constraints :=
  let c := fold_left (fun c o => fold_left (fun c n => single_assignment o n c) news c) olds c in
  if invariant
  then fold_left (fun c o => fold_left (fun c n => single_assignment n o c) news c) olds c
  else c.

(** lifetime_analysis.cc:150-160: the pairs seen so far ([DenseSet<pair>]). *)
Definition pair_seen (seen : list (object * object)) (p n : object) : bool :=
  existsb (fun q => (p =? fst q) && (n =? snd q)) seen.
Definition see (seen : list (object * object)) (p n : object) : list (object * object) :=
  if pair_seen seen p n then seen else (p, n) :: seen.
Definition see_all (ps ns : oset) (seen : list (object * object)) : list (object * object) :=
  fold_left (fun seen p => fold_left (fun seen n => see seen p n) ns seen) ps seen.

(** lifetime_analysis.cc:185-189 [RecursiveVisitInfo]. *)
Record visit_info := Visit { v_type : ty; v_old : oset; v_new : oset }.
(** lifetime_analysis.cc:203-219: what a call of record type pushes, in the order of the pushes. *)
Fixpoint field_visits (l : list (Z * ty)) (o n : oset) : res (list visit_info) :=
  match l with
  | [] => Done []
  | (f, t) :: l' =>
      do o' <- field_objects o f; do n' <- field_objects n f; do rest <- field_visits l' o n;
      Done (Visit t o' n' :: rest)
  end.
Fixpoint base_visits (l : list Z) (o n : oset) : res (list visit_info) :=
  match l with
  | [] => Done []
  | b :: l' =>
      do o' <- base_objects o b; do n' <- base_objects n b; do rest <- base_visits l' o n;
      Done (Visit (TRec b) o' n' :: rest)
  end.

(** lifetime_analysis.cc:144-228 [GenerateConstraintsForAssignmentRecursive]; [visits] is its inner loop
    (194-227) over [calls_to_make], whose back is the head of the list. *)
Fixpoint recursive (fuel : nat) (m : pmap) (ps ns : oset) (t : ty) (invariant : bool)
    (c : Lifetimes.Model.constraints) (seen : list (object * object)) {struct fuel}
    : res (Lifetimes.Model.constraints * list (object * object)) :=
  match fuel with
  | O => Fuel
  | Datatypes.S fuel =>
      let seen' := see_all ps ns seen in
      if Nat.eqb (length seen) (length seen') then Done (c, seen') else
      match pointee_of t with
      | None => Done (c, seen')
      | Some (is_const, pointee) =>
          let olds := get_many m ps in
          let c := non_recursive olds ns invariant c in
          visits fuel m [Visit pointee olds ns] (negb is_const) c seen'
      end
  end
with visits (fuel : nat) (m : pmap) (calls : list visit_info) (invariant : bool)
    (c : Lifetimes.Model.constraints) (seen : list (object * object)) {struct fuel}
    : res (Lifetimes.Model.constraints * list (object * object)) :=
  match fuel with
  | O => Fuel
  | Datatypes.S fuel =>
      match calls with
      | [] => Done (c, seen)
      | Visit t o n :: calls =>
          match t with
          | TIncomplete => visits fuel m calls invariant c seen
          | TRec r =>
              do fs <- field_visits (fields R r) o n;
              do bs <- base_visits (bases R r) o n;
              visits fuel m (rev (fs ++ bs) ++ calls) invariant c seen
          | _ =>
              do (c, seen) <- recursive fuel m o (get_many m n) t invariant c seen;
              visits fuel m calls invariant c seen
          end
      end
  end.

(** lifetime_analysis.cc:230-241 [GenerateConstraintsForAssignment]. *)
Definition for_assignment (fuel : nat) (m : pmap) (ps ns : oset) (t : ty) (c : Lifetimes.Model.constraints) : res Lifetimes.Model.constraints :=
  do (c, _) <- recursive fuel m ps ns t false c []; Done c.

(** lifetime_analysis.cc:243-271 [GenerateConstraintsForObjectLifetimeEquality]. *)
Fixpoint equality (fuel : nat) (m : pmap) (a b : oset) (t : ty) (c : Lifetimes.Model.constraints) {struct fuel} : res Lifetimes.Model.constraints :=
  match fuel with
  | O => Fuel
  | Datatypes.S fuel =>
      let c := non_recursive a b true c in
      match t with
      | TRec r =>
          do c <- (fix over_fields (l : list (Z * ty)) c :=
                     match l with
                     | [] => Done c
                     | (f, ft) :: l' => do a' <- field_objects a f; do b' <- field_objects b f;
                                        do c <- equality fuel m a' b' ft c; over_fields l' c
                     end) (fields R r) c;
          (fix over_bases (l : list Z) c :=
             match l with
             | [] => Done c
             | base :: l' => do a' <- base_objects a base; do b' <- base_objects b base;
                             do c <- equality fuel m a' b' (TRec base) c; over_bases l' c
             end) (bases R r) c
      | _ => match pointee_of t with
             | Some (_, t') => equality fuel m (get_many m a) (get_many m b) t' c
             | None => Done c
             end
      end
  end.

(** lifetime_analysis.cc:275-290 [HandlePointsToSetExtension].  The assertion at 283 (no record type) is taken to be checked. *)
Definition is_record (t : ty) : bool := match t with TRec _ => true | _ => false end.
Definition extend_all (m : pmap) (ps ns : oset) : pmap := fold_left (fun m p => extend m p ns) ps m.
Definition extension (fuel : nat) (ps ns : oset) (t : ty) (m : pmap) (c : Lifetimes.Model.constraints) : res (pmap * Lifetimes.Model.constraints) :=
  if is_record t then Crash else
  do c <- for_assignment fuel m ps ns t c; Done (extend_all m ps ns, c).

(** An initializer: a braced list (semantic form; [id] is the list as an expression) or any other expression. *)
Inductive init := IExpr (e : expr) | IList (id : Z) (inits : list init).
Definition init_expr (i : init) : expr := match i with IExpr e => e | IList id _ => Leaf id end.
(** lifetime_analysis.cc:292-335 [TransferInitializer]; [keep] is [TargetPointeeBehavior::kKeep].  [m] is both what
    is read and what is updated.  A list that is too short for the fields is excluded by the assertion at 311
    (here: aborts). *)
Fixpoint initializer (fuel : nat) (dest : object) (t : ty) (i : init) (keep : bool) (m : pmap) (c : Lifetimes.Model.constraints)
    {struct i} : res (pmap * Lifetimes.Model.constraints) :=
  let t := match t with TArr t' => t' | _ => t end in
  match i, t with
  | IList _ is_, TRec r =>
      (fix over (l : list (Z * ty)) (is_ : list init) m c {struct is_} :=
         match is_, l with
         | _, [] => Done (m, c)
         | i :: is', (f, ft) :: l' =>
             do d <- found (field_object R dest f);
             do (m, c) <- initializer fuel d ft i keep m c; over l' is' m c
         | [], _ :: _ => Crash
         end) (fields R r) is_ m c
  | _, (TPtr _ _ | TRef _ _ | TRec _) =>
      do s <- found (get_expr m (init_expr i));
      if keep then extension fuel [dest] s t m c else Done (set m dest s, c)
  | _, _ => Done (m, c)
  end.

(** The kinds of cast that the switch at 416-486 distinguishes. *)
Inductive cast_kind := LValueToRValue | NullToPointer | NoOpLike | ClassCast | TypeUnsafe | OtherCast.
Inductive unary_op := AddrOf | Deref | PostIncDec | PreIncDec | OtherUnary.
Inductive member_kind := FieldMember (f : Z) (is_reference : bool) | StaticMethod (d : Z) | Method | OtherMember.
(** The callee of a call: known statically (its lifetimes, or an error, and whether the call is a member operator),
    or an expression of function pointer type. *)
Inductive callee := Direct (f : Z) (member_operator : bool) | NoLifetimes (message : Z) | Indirect (e : expr).
(** Where the value of a call goes (lifetime_analysis.cc:899-912). *)
Inductive call_value := IntoObject | Plain.

(** CFG elements.  [id] identifies the expression of the element; flags say what the functions ask of Clang:
    [ptr]: the type is a pointer; [gl]: the expression is a glvalue. *)
Inductive elem :=
| DeclRef (id : Z) (decl : option (Z * bool))
| StringLit (id : Z)
| Cast (kind : cast_kind) (id : Z) (sub : expr) (ptr gl : bool)
| Return (e : option expr) (return_type : ty)
| DeclStmt (vars : list (Z * ty * option init))
| Unary (op : unary_op) (id : Z) (sub : expr) (tracked : bool)
| Subscript (id : Z) (base : expr)
| Assign (id : Z) (lhs rhs : expr) (lhs_type : ty)
| Arith (id : Z) (lhs rhs : expr) (lhs_ptr rhs_ptr : bool)
| Conditional (id : Z) (t f : expr) (tracked : bool)
| InitArray (id : Z) (inits : list (expr * bool))
| InitRecord (id : Z) (t : ty) (inits : list init)
| Temporary (id : Z) (sub : expr) (sub_ptr : bool)
| Member (id : Z) (base : expr) (m : member_kind)
| This (id : Z)
| Call (id : Z) (c : callee) (args : list init) (this_arg : option expr) (value : call_value)
| Construct (id : Z) (c : callee) (args : list init) (this_type : ty)
| OtherElem (contains_errors : option Z).

(** State of the visitor: the points-to map, the constraints, the single-valued objects. *)
Definition state := (pmap * Lifetimes.Model.constraints * oset)%type.
(** The visitor returns [std::nullopt] (the state) or an error message. *)
Inductive outcome := Go (s : state) | Stop (message : Z).
Definition unsafe_cast : Z := -1.

(** lifetime_analysis.cc:525-542 [VisitDeclStmt]. *)
Fixpoint decls (fuel : nat) (vars : list (Z * ty * option init)) (m : pmap) (c : Lifetimes.Model.constraints) : res (pmap * Lifetimes.Model.constraints) :=
  match vars with
  | [] => Done (m, c)
  | (d, t, Some i) :: vars' =>
      do (m, c) <- (if is_record t then Done (m, c) else initializer fuel (decl_object R d) t i false m c);
      decls fuel vars' m c
  | (_, _, None) :: vars' => decls fuel vars' m c
  end.

(** lifetime_analysis.cc:715-725: the loop over the elements of a list that does not initialize a record; [None]
    when an element has no object set by its type (720-722). *)
Fixpoint union_inits (m : pmap) (l : list (expr * bool)) (acc : oset) : res (option oset) :=
  match l with
  | [] => Done (Some acc)
  | (e, tracked) :: l' =>
      if tracked then do s <- found (get_expr m e); union_inits m l' (add_all acc s) else Done None
  end.

(** lifetime_analysis.cc:868-881 and 938-944: the arguments, from index [i]; [shift]: the parameter of argument [i]
    is [i - 1]. *)
Fixpoint arguments (fuel : nat) (id : Z) (types : list ty) (args : list init) (i : nat) (shift : bool) (m : pmap) (c : Lifetimes.Model.constraints)
    : res (pmap * Lifetimes.Model.constraints) :=
  match args with
  | [] => Done (m, c)
  | a :: args' =>
      do dest <- found (arg_object R id i);
      do t <- found (nth_error types (if shift then i - 1 else i)%nat);
      do (m, c) <- initializer fuel dest t a true m c;
      arguments fuel id types args' (Datatypes.S i) shift m c
  end.

(** lifetime_analysis.cc:863-897: one callee.  [this_arg] is the implicit object argument of a member call; for a
    member operator it is argument 0. *)
Definition one_callee (fuel : nat) (id : Z) (args : list init) (this_arg : option expr) (f : Z) (operator : bool)
    (m : pmap) (c : Lifetimes.Model.constraints) : res (pmap * Lifetimes.Model.constraints) :=
  let c := fst (Lifetimes.Model.join c (callable R f (call_lifetimes R id))) in
  do (m, c) <- (if operator then arguments fuel id (params R f) (tl args) 1 true m c
                else arguments fuel id (params R f) args 0 false m c);
  let this_e := if operator then match args with a :: _ => Some (init_expr a) | [] => None end else this_arg in
  match this_e with
  | None => Done (m, c)
  | Some e =>
      do s <- found (get_expr m e);
      extension fuel [call_this R id] s (object_type R (call_this R id)) m c
  end.
Fixpoint all_callees (fuel : nat) (id : Z) (args : list init) (this_arg : option expr) (l : list (Z * bool))
    (m : pmap) (c : Lifetimes.Model.constraints) : res (pmap * Lifetimes.Model.constraints) :=
  match l with
  | [] => Done (m, c)
  | (f, operator) :: l' =>
      do (m, c) <- one_callee fuel id args this_arg f operator m c;
      all_callees fuel id args this_arg l' m c
  end.
(** lifetime_analysis.cc:850-860: the lifetimes of the functions a function pointer may point to. *)
Definition indirect_callees (s : oset) : list (Z * bool) :=
  flat_map (fun o => match func R o with Some f => [(f, false)] | None => [] end) s.

Definition next (x : res (pmap * Lifetimes.Model.constraints)) (sv : oset) : res outcome :=
  do (m, c) <- x; Done (Go (m, c, sv)).

(** The visitor: one case per [Visit...] function. *)
Definition visit (fuel : nat) (e : elem) (st : state) : res outcome :=
  let '(m, c, sv) := st in
  let same := Done (Go st) in
  let assign_expr id s := Done (Go (set_expr m (Leaf id) s, c, sv)) in
  match e with
  (** 383-405 [VisitDeclRefExpr]; the flag: the declared type is a reference. *)
  | DeclRef id None => same
  | DeclRef id (Some (d, true)) => assign_expr id (get m (decl_object R d))
  | DeclRef id (Some (d, false)) => assign_expr id [decl_object R d]
  (** 407-412 [VisitStringLiteral]. *)
  | StringLit id => assign_expr id [string_object R]
  (** 414-488 [VisitCastExpr]. *)
  | Cast LValueToRValue id sub ptr _ =>
      if ptr then do s <- found (get_expr m sub); assign_expr id (get_many m s) else same
  | Cast NullToPointer id _ _ _ => assign_expr id []
  | Cast NoOpLike id sub ptr gl =>
      if ptr || gl then do s <- found (get_expr m sub); assign_expr id s else same
  | Cast ClassCast id sub _ _ => do s <- found (get_expr m sub); assign_expr id s
  | Cast TypeUnsafe _ _ _ _ => Done (Stop unsafe_cast)
  | Cast OtherCast _ _ ptr gl => if gl || ptr then Crash else same
  (** 490-523 [VisitReturnStmt]; [ExprWithCleanups] is looked through. *)
  | Return e t =>
      match pointee_of t with
      | None => same
      | Some _ => do e <- found e; do s <- found (get_expr m e);
                  do c <- for_assignment fuel m [return_object R] s t c; Done (Go (m, c, sv))
      end
  | DeclStmt vars => next (decls fuel vars m c) sv
  (** 544-594 [VisitUnaryOperator]; [tracked]: a glvalue, or of pointer or array type. *)
  | Unary op id sub tracked =>
      if tracked then
        do s <- found (get_expr m sub);
        match op with
        | AddrOf | Deref | PreIncDec => assign_expr id s
        | PostIncDec => assign_expr id (get_many m s)
        | OtherUnary => same
        end
      else same
  (** 596-611 [VisitArraySubscriptExpr]. *)
  | Subscript id base => do s <- found (get_expr m base); assign_expr id s
  (** 613-643 [VisitBinaryOperator], [BO_Assign]. *)
  | Assign id lhs rhs t =>
      do l <- found (get_expr m lhs);
      let m := set_expr m (Leaf id) l in
      if is_ptr t then
        do r <- found (get_expr m rhs);
        if Nat.eqb (length l) 1 && forallb (contains sv) l
        then Done (Go (set_many m l r, c, sv))
        else next (extension fuel l r t m c) sv
      else Done (Go (m, c, sv))
  (** 645-661 [BO_Add], [BO_Sub]. *)
  | Arith id lhs rhs lp rp =>
      if xorb lp rp then
        do s <- found (get_expr m (if lp then lhs else rhs)); assign_expr id s
      else same
  (** 669-689 [VisitConditionalOperator]. *)
  | Conditional id t f tracked =>
      if tracked then
        do st <- (if has_expr m t then found (get_expr m t) else Done []);
        do sf <- (if has_expr m f then found (get_expr m f) else Done []);
        assign_expr id (oset_union st sf)
      else same
  (** 691-728 [VisitInitListExpr] (semantic form, not transparent). *)
  | InitArray id inits =>
      do s <- union_inits m inits [];
      match s with Some s => assign_expr id s | None => same end
  | InitRecord id t inits => next (initializer fuel (result_object R id) t (IList id inits) true m c) sv
  (** 730-736 [VisitMaterializeTemporaryExpr]; the materialized value [sub] is not looked at. *)
  | Temporary id _ _ => assign_expr id [temp_object R id]
  (** 738-769 [VisitMemberExpr]. *)
  | Member id base k =>
      do s <- found (get_expr m base);
      match k with
      | StaticMethod d => assign_expr id [decl_object R d]
      | Method => same
      | OtherMember => Crash
      | FieldMember f is_reference =>
          do o <- field_objects s f;
          assign_expr id (if is_reference then get_many m o else o)
      end
  (** 771-777 [VisitCXXThisExpr]. *)
  | This id => assign_expr id [this_object R]
  (** 806-914 [VisitCallExpr]. *)
  | Call id callee args this_arg value =>
      let go callees :=
        do (m, c) <- all_callees fuel id args this_arg callees m c;
        match value with
        | IntoObject =>
            let o := result_object R id in
            do c <- equality fuel m [o] [call_ret R id] (object_type R o) c; Done (Go (m, c, sv))
        | Plain =>
            match get m (call_ret R id) with
            | [] => Done (Go (m, c, sv))
            | s => Done (Go (set_expr m (Leaf id) s, c, sv))
            end
        end in
      match callee with
      | NoLifetimes message => Done (Stop message)
      | Direct f operator => go [(f, operator)]
      | Indirect e => do s <- found (get_expr m e); go (indirect_callees s)
      end
  (** 916-955 [VisitCXXConstructExpr]. *)
  | Construct id callee args this_type =>
      match callee with
      | Direct f _ =>
          let c := fst (Lifetimes.Model.join c (callable R f (call_lifetimes R id))) in
          do (m, c) <- arguments fuel id (params R f) args 0 false m c;
          next (extension fuel [call_this R id] [result_object R id] this_type m c) sv
      | NoLifetimes message => Done (Stop message)
      | Indirect _ => Crash
      end
  (** 371-381 [VisitExpr]. *)
  | OtherElem (Some message) => Done (Stop message)
  | OtherElem None => same
  end.

(** lifetime_analysis.cc:351-367 [LifetimeAnalysis::transfer]. *)
Definition transfer (fuel : nat) (e : elem) (s : lattice) : res lattice :=
  match s with
  | Err _ => Done s
  | Ok m c sv =>
      do o <- visit fuel e (m, c, sv);
      Done (match o with Go (m, c, sv) => Ok m c sv | Stop message => Err message end)
  end.
End Repository.
