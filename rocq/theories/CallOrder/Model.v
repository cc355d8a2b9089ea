(** Model of lifetime_analysis/analyze.cc: in which order the functions of a translation unit are analyzed, and how recursive functions and
    virtual methods are treated. *)
From Coq Require Import List Arith ZArith Bool.
Import ListNotations.
Local Open Scope Z_scope.

Section Unit.
(** The lifetimes of a function ([FunctionLifetimes]), and what is inferred for one: lifetimes or an error ([FunctionLifetimesOrError]). *)
Variable L : Type.
Inductive result := Lifetimes (l : L) | Failed (error : Z).
Definition env := list (Z * result).
(** [DenseMap::find], [operator[]=].  Functions are their canonical declarations, as numbers. *)
Fixpoint lookup (a : env) (f : Z) : option result :=
  match a with [] => None | (g, r) :: a' => if f =? g then Some r else lookup a' f end.
Definition has (a : env) (f : Z) : bool := match lookup a f with Some _ => true | None => false end.
Definition put (f : Z) (r : result) (a : env) : env := (f, r) :: a.

(** What the functions ask of Clang and of the analysis of single functions.
    [callees]: analyze.cc:809-874 [GetCallees], in the order of its set, or its error; [base_methods]: 941-955 [GetBaseMethods], in the order of
    its set; [overriding]: the overriders that [BuildBaseToOverrides] (927-939) finds; [annotations]: [GetLifetimeAnnotations];
    [single f a]: [AnalyzeSingleFunction] followed by [ConstructFunctionLifetimes], with the results [a] for its callees;
    [disconnected]: [FunctionLifetimes::CreateForDecl] with new lifetimes everywhere; [isomorphic]: [IsIsomorphic];
    [constrain f base over]: [ConstrainLifetimes(base, over.ForOverriddenMethod(f))]. *)
Record unit_info := Unit {
  builtin : Z -> bool;
  defined : Z -> bool;
  is_virtual : Z -> bool;
  is_pure : Z -> bool;
  callees : Z -> list Z + Z;
  base_methods : Z -> list Z;
  overriding : Z -> list Z;
  num_params : Z -> nat;
  annotations : Z -> result;
  single : Z -> env -> result;
  disconnected : Z -> result;
  isomorphic : L -> L -> bool;
  constrain : Z -> L -> L -> result
}.
Variable U : unit_info.
Definition too_many_iterations : Z := -1.
Definition param_mismatch : Z := -2.

(** analyze.cc:69-74 [VisitedCallStackEntry].  The stack's top is the end of the list, as in the code. *)
Record entry := Entry { e_func : Z; in_cycle : bool; in_overrides : bool }.
Record state := State { analyzed : env; visited : list entry }.
Definition mark (e : entry) : entry := Entry (e_func e) true (in_overrides e).
(** analyze.cc:879-903 [FindAndMarkCycleWithFunc]: the entries from the last one for [f] on are marked; [None]: not found. *)
Fixpoint find_and_mark (v : list entry) (f : Z) : option (list entry) :=
  match v with
  | [] => None
  | e :: v' =>
      match find_and_mark v' f with
      | Some v'' => Some (e :: v'')
      | None => if e_func e =? f then Some (mark e :: List.map mark v') else None
      end
  end.
Definition set_overrides (v : list entry) (k : nat) (b : bool) : list entry :=
  firstn k v ++ match skipn k v with [] => [] | e :: v' => Entry (e_func e) (in_cycle e) b :: v' end.
Definition last_in_overrides (v : list entry) : bool := match rev v with [] => false | e :: _ => in_overrides e end.

(** Results: the fuel ran out, an assertion failed, or a value. *)
Inductive res (A : Type) := Fuel | Crash | Done (a : A).
Arguments Fuel {A}. Arguments Crash {A}. Arguments Done {A} a.
Definition bind {A B} (r : res A) (f : A -> res B) : res B :=
  match r with Fuel => Fuel | Crash => Crash | Done a => f a end.
Notation "'do' x <- r ; k" := (bind r (fun x => k)) (at level 200, x pattern, r at level 100, k at level 200).

(** analyze.cc:1016-1034: the initial lifetimes; an error ends the analysis of the cycle. *)
Fixpoint initialize (fs : list Z) (a : env) : env + Z :=
  match fs with
  | [] => inl a
  | f :: fs' => match disconnected U f with Failed e => inr e | r => initialize fs' (put f r a) end
  end.
(** analyze.cc:1059-1085: one round over the cycle. *)
Fixpoint round (fs : list Z) (a : env) (changed : bool) : (env * bool) + Z :=
  match fs with
  | [] => inl (a, changed)
  | f :: fs' =>
      match single U f a with
      | Failed e => inr e
      | Lifetimes l =>
          match lookup a f with
          | Some (Lifetimes l0) => if isomorphic U l0 l then round fs' a changed else round fs' (put f (Lifetimes l) a) true
          | _ => round fs' a changed
          end
      end
  end.
(** analyze.cc:1046-1086: rounds until nothing changes; [left] is how many rounds are still allowed. *)
Fixpoint rounds (left : nat) (fs : list Z) (a : env) : env + Z :=
  match left with
  | O => inr too_many_iterations
  | S left' => match round fs a false with
               | inr e => inr e
               | inl (a', false) => inl a'
               | inl (a', true) => rounds left' fs a'
               end
  end.
(** analyze.cc:1036-1042: one more than the largest number of parameters; the check at 1050 allows one more round. *)
Definition expected_iterations (fs : list Z) : nat := S (fold_left (fun n f => Nat.max n (num_params U f)) fs 0%nat).
(** analyze.cc:1016-1090 [AnalyzeRecursiveFunctions], and 1285-1294: all members get the error. *)
Definition analyze_cycle (fs : list Z) (a : env) : env :=
  match (match initialize fs a with inr e => inr e | inl a' => rounds (S (expected_iterations fs)) fs a' end) with
  | inl a' => a'
  | inr e => fold_left (fun a f => put f (Failed e) a) fs a
  end.

(** analyze.cc:957-1014: [GetFunctionLifetimesFromAnalyzed], [UpdateFunctionLifetimesWithOverrides]; 1299-1304. *)
Fixpoint with_overrides (f : Z) (base : L) (os : list Z) (a : env) : result :=
  match os with
  | [] => Lifetimes base
  | o :: os' =>
      if negb (Nat.eqb (num_params U o) (num_params U f)) then Failed param_mismatch else
      match lookup a o with
      | Some (Lifetimes l) => match constrain U f base l with Lifetimes base' => with_overrides f base' os' a | Failed e => Failed e end
      | _ => with_overrides f base os' a
      end
  end.
Definition update_with_overrides (f : Z) (os : list Z) (a : env) : env :=
  match lookup a f with
  | Some (Lifetimes l) => put f (with_overrides f l os a) a
  | _ => a
  end.

(** The entries at a position and below it. *)
Definition cycle_at (v : list entry) (k : nat) : bool := match nth_error v k with Some e => in_cycle e | None => false end.
(** analyze.cc:1229-1310: what happens when all callees and overrides of [f], at position [k], have been visited. *)
Definition finish (f : Z) (k : nat) (in_ov : bool) (bases overrides : list Z) (st : state) : res state :=
  let v := visited st in
  let a := analyzed st in
  if negb (match nth_error v k with Some e => e_func e =? f | None => false end) then Crash else
  if (k <? length v - 1)%nat && negb (forallb in_cycle (skipn k v)) then Crash else
  if (0 <? k)%nat && cycle_at v k && cycle_at v (k - 1) then Done st else
  do a <- (if negb (cycle_at v k)
           then match bases with
                | [] => Done (put f (single U f a) a)
                | _ => if has a f then Done a else Crash
                end
           else Done (analyze_cycle (List.map e_func (skipn k v)) a));
  Done (State (if in_ov then update_with_overrides f overrides a else a) (firstn k v)).

Fixpoint over (visit : Z -> state -> res state) (fs : list Z) (st : state) : res state :=
  match fs with [] => Done st | f :: fs' => do st <- visit f st; over visit fs' st end.
(** analyze.cc:1107-1310 [AnalyzeFunctionRecursive]. *)
Fixpoint analyze (fuel : nat) (f : Z) (st : state) : res state :=
  match fuel with
  | O => Fuel
  | S fuel =>
      let a := analyzed st in
      let v := visited st in
      if builtin U f then Done st else
      if negb (defined U f) && negb (is_virtual U f && is_pure U f) && negb (has a f) then Done (State (put f (annotations U f) a) v) else
      let in_ov := last_in_overrides v in
      if has a f && negb in_ov then Done st else
      match (if in_ov then None else find_and_mark v f) with
      | Some v' => Done (State a v')
      | None =>
          match callees U f with
          | inr e => Done (State (put f (Failed e) a) v)
          | inl cs =>
              let k := length v in
              do st <- over (fun c st => if has (analyzed st) c then Done st else analyze fuel c st) cs (State a (v ++ [Entry f false false]));
              if is_virtual U f then
                let st := State (analyzed st) (set_overrides (visited st) k true) in
                if negb in_ov then
                  do st <- over (analyze fuel) (base_methods U f) st;
                  finish f k in_ov (base_methods U f) [] (State (analyzed st) (set_overrides (visited st) k false))
                else
                  do st <- over (analyze fuel) (overriding U f) st;
                  finish f k in_ov [] (overriding U f) (State (analyzed st) (set_overrides (visited st) k false))
              else finish f k in_ov [] [] st
          end
      end
  end.
(** analyze.cc:1312-1350 [AnalyzeTranslationUnitAndCollectTemplates] without the templates; 1436-1456 [AnalyzeFunction] is the case of one definition. *)
Definition analyze_all (fuel : nat) (definitions : list Z) : res state := over (analyze fuel) definitions (State [] []).
End Unit.
