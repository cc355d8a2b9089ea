(** Model of the C++ class that cc_bindings_from_rs generates for a Rust struct, enum or union: its default, copy, move and
    conversion constructors, assignment operators and destructor, and how its objects go into and come out of calls of Rust
    functions.  Files, all in /repo/cc_bindings_from_rs/generate_bindings unless a directory is given: lib.rs,
    database/adt_core_bindings.rs (cited as adt.rs), generate_struct_and_union.rs (gsu.rs), generate_function.rs (gf.rs),
    /repo/support/internal/memswap.h and slot.h.

    A C++ object is one storage location holding the bytes of one Rust value; the value has a name (never reused) and some
    data.  Temporaries of the generated code are explicit.  [None] means that the generated or the calling C++ code does not
    compile (deleted function) or that the calling program is not valid C++ (uses an object that does not exist).

    Simplifications: [Clone::clone_from] is [*self = source.clone()], which its documentation requires; Rust functions called
    by the constructors do not panic (a panic aborts the process: the thunks are extern "C"). *)
From Coq Require Import List Arith ZArith Bool.
Import ListNotations.

(** * What the generator knows about a type *)

(** The traits it asks rustc for: [needs_drop], [Default], [Copy], [Clone], [Unpin]; and whether values are passed through
    extern "C" calls by value (query_compiler.rs:43-123 [is_c_abi_compatible_by_value]: for a struct, [repr(transparent)]
    around such a type, or the [same_abi] attribute). *)
Record traits := Traits {
  needs_drop : bool; has_default : bool; is_copy : bool; is_clone : bool; is_unpin : bool; by_value : bool }.

(** adt.rs:107-127 [CopyCtorStyle]. *)
Inductive copy_style := CopyTrivial | CopyClone.
Definition copy_ctor_style (implements_copy implements_clone : bool) : option copy_style :=
  if implements_copy then Some CopyTrivial else if implements_clone then Some CopyClone else None.

(** adt.rs:132-163 [MoveCtorStyle]. *)
Inductive move_style := MoveDefault | MoveMemSwap | MoveCopy.
Definition move_ctor_style (does_not_need_drop has_default_ctor unpin has_copy_ctor : bool) : option move_style :=
  if does_not_need_drop then Some MoveDefault
  else if has_default_ctor && unpin then Some MoveMemSwap
  else if has_copy_ctor then Some MoveCopy
  else None.

(** lib.rs:1473-1487 [has_copy_ctor_and_assignment_operator], lib.rs:1620-1635 [has_move_ctor_and_assignment_operator]. *)
Definition copy_of (t : traits) : option copy_style := copy_ctor_style (is_copy t) (is_clone t).
Definition move_of (t : traits) : option move_style :=
  move_ctor_style (negb (needs_drop t)) (has_default t) (is_unpin t) (if copy_of t then true else false).

(** * Objects and Rust values *)

Inductive bytes := Garbage | Val (id : nat) (d : N).

Record state := State {
  mem : nat -> bytes;          (* storage of each C++ object *)
  alive : nat -> bool;         (* objects constructed and not yet destroyed *)
  rust : list (nat * N);       (* values owned by Rust code *)
  dropped : list nat;          (* values whose destructor has run *)
  next : nat;                  (* number of values created so far *)
  ub : bool }.                 (* uninitialised memory was read or dropped as a value *)

Definition init : state := State (fun _ => Garbage) (fun _ => false) [] [] 0 false.

Definition upd {A} (f : nat -> A) (x : nat) (a : A) : nat -> A := fun y => if y =? x then a else f y.
Definition set_mem (st : state) (x : nat) (b : bytes) : state :=
  State (upd (mem st) x b) (alive st) (rust st) (dropped st) (next st) (ub st).
Definition set_alive (st : state) (x : nat) (a : bool) : state :=
  State (mem st) (upd (alive st) x a) (rust st) (dropped st) (next st) (ub st).
Definition go_wrong (st : state) : state := State (mem st) (alive st) (rust st) (dropped st) (next st) true.

(** A new Rust value. *)
Definition fresh (d : N) (st : state) : bytes * state :=
  (Val (next st) d, State (mem st) (alive st) (rust st) (dropped st) (S (next st)) (ub st)).

Section Class.
Variable t : traits.
Variable dflt : N.             (* data of [Default::default()] *)
Variable cln : N -> N.         (* data of a clone *)

(** gsu.rs:1441-1497: the destructor calls [drop_in_place] (generate_function_thunk.rs:834-846), or is trivial. *)
Definition drop_bytes (b : bytes) (st : state) : state :=
  if needs_drop t then
    match b with
    | Val i _ => State (mem st) (alive st) (rust st) (i :: dropped st) (next st) (ub st)
    | Garbage => go_wrong st
    end
  else st.

(** [Clone::clone] on the value in [b]. *)
Definition clone_bytes (b : bytes) (st : state) : bytes * state :=
  match b with Val _ d => fresh (cln d) st | Garbage => (Garbage, go_wrong st) end.

(** memswap.h:21-30 (at the level of bytes: MemSwap.v): nothing happens if the objects are the same. *)
Definition mem_swap (same : bool) (a b : bytes) : bytes * bytes := if same then (a, b) else (b, a).

(** lib.rs:1496-1514 and 1553-1585: [operator=(const T&)].  Results: left object, right object, state. *)
Definition copy_assign (same : bool) (l r : bytes) (st : state) : option (bytes * bytes * state) :=
  match copy_of t with
  | Some CopyTrivial => Some (r, r, st)
  | Some CopyClone =>
      if same then Some (l, r, st)
      else let (c, st1) := clone_bytes r st in Some (c, r, drop_bytes l st1)
  | None => None
  end.

(** lib.rs:1639-1731: assignment from an rvalue.  With [MoveCopy] no move assignment is declared and overload resolution finds
    [operator=(const T&)]; with no style it is deleted. *)
Definition move_assign (same : bool) (l r : bytes) (st : state) : option (bytes * bytes * state) :=
  match move_of t with
  | Some MoveDefault => Some (r, r, st)
  | Some MoveMemSwap => let (l', r') := mem_swap same l r in Some (l', r', st)
  | Some MoveCopy => copy_assign same l r st
  | None => None
  end.

(** The body of a constructor that calls a thunk (lib.rs:1434-1446, 1555-1563, gsu.rs:884-895): the thunk returns the value
    [v] either by value, then the body is [*this = thunk(...);] and the temporary is destroyed at the end of the statement,
    or through the pointer [this].  The fields are members of anonymous unions, so no field is initialised before. *)
Definition ctor_body (v : bytes) (st : state) : option (bytes * state) :=
  if by_value t then
    match move_assign false Garbage v st with
    | Some (this, tmp, st1) => Some (this, drop_bytes tmp st1)
    | None => None
    end
  else Some (v, st).

(** lib.rs:1390-1449 [generate_default_ctor]. *)
Definition default_ctor (st : state) : option (bytes * state) :=
  if has_default t then let (v, st1) := fresh dflt st in ctor_body v st1 else None.

(** gsu.rs:690-915 [generate_constructor_impls]: [explicit T(U value)] for [impl From<U> for T]; [d] is the converted data. *)
Definition from_ctor (d : N) (st : state) : option (bytes * state) :=
  let (v, st1) := fresh d st in ctor_body v st1.

(** lib.rs:1483-1600: copy constructor. *)
Definition copy_ctor (other : bytes) (st : state) : option (bytes * state) :=
  match copy_of t with
  | Some CopyTrivial => Some (other, st)
  | Some CopyClone => let (c, st1) := clone_bytes other st in ctor_body c st1
  | None => None
  end.

(** lib.rs:1639-1731: move constructor; results: new object, source object, state. *)
Definition move_ctor (other : bytes) (st : state) : option (bytes * bytes * state) :=
  match move_of t with
  | Some MoveDefault => Some (other, other, st)
  | Some MoveMemSwap =>
      match default_ctor st with
      | Some (this, st1) => move_assign false this other st1
      | None => None
      end
  | Some MoveCopy =>
      match copy_ctor other st with
      | Some (this, st1) => Some (this, other, st1)
      | None => None
      end
  | None => None
  end.

(** Rust takes ownership of a value by reading its bytes. *)
Definition own (b : bytes) (st : state) : state :=
  match b with
  | Val i d => State (mem st) (alive st) ((i, d) :: rust st) (dropped st) (next st) (ub st)
  | Garbage => go_wrong st
  end.

(** gf.rs:206-298 [cc_param_to_c_abi] for a struct: the parameter object [b] of the generated function is handed over.  A type
    passed by value is passed as an lvalue (gf.rs:214-215), so the copy constructor makes the argument, which the callee owns
    (the classes are [[clang::trivial_abi]]).  Otherwise a type that does not need drop is read in place, and any other one is
    moved into a Slot (slot.h:73-76), whose destructor does nothing (slot.h:115-117). *)
Definition take_param (b : bytes) (st : state) : option (bytes * state) :=
  if by_value t then
    match copy_ctor b st with Some (c, st1) => Some (b, own c st1) | None => None end
  else if negb (needs_drop t) then Some (b, own b st)
  else
    match move_ctor b st with
    | Some (slot, b', st1) => Some (b', own slot st1)
    | None => None
    end.

(** slot.h:143-155 (clang selects this specialisation; arrays_test.cc relies on it), for a parameter of type [std::array<T, n>] (arrays are never passed by value): the generated class has
    the UnsafeRelocateTag constructor (gsu.rs:2981-3003), so the Slot copies the bytes of the array; gf.rs:276-281 hands a type
    that does not need drop over in place. *)
Definition take_array (bs : list bytes) (st : state) : state := fold_left (fun s b => own b s) bs st.

(** A function returning a value (gf.rs:724-759): by value, or written to a Slot and relocated out of it (slot.h:95-104). *)
Definition return_value (b : bytes) (st : state) : bytes * state := (b, st).

(** * Programs *)

(** What a C++ program and the Rust code it calls can do with values of this type. *)
Inductive op :=
| ODefault (x : nat)                 (* T x; *)
| OFrom (x : nat) (d : N)            (* T x(u); *)
| OCopyCtor (x y : nat)              (* T x(y); *)
| OMoveCtor (x y : nat)              (* T x(std::move(y)); *)
| OCopyAssign (x y : nat)            (* x = y; *)
| OMoveAssign (x y : nat)            (* x = std::move(y); *)
| ODestroy (x : nat)                 (* end of x's lifetime *)
| OReturn (x : nat) (d : N)          (* T x = rust_fn(); with a value made by Rust *)
| OGive (x : nat) (i : nat)          (* T x = rust_fn(); with value i that Rust owned *)
| OTake (x : nat)                    (* body of the wrapper of a Rust function, for its parameter object x *)
| OTakeArray (xs : list nat)         (* the same for a parameter of array type with elements xs *)
| ORelease (i : nat)                 (* Rust drops value i *)
| OSet (x : nat) (d : N).            (* the data is changed in place *)

Definition find_rust (i : nat) (l : list (nat * N)) : option N :=
  option_map snd (find (fun p => fst p =? i) l).
Definition remove_rust (i : nat) (l : list (nat * N)) : list (nat * N) := filter (fun p => negb (fst p =? i)) l.
Definition set_rust (st : state) (l : list (nat * N)) : state :=
  State (mem st) (alive st) l (dropped st) (next st) (ub st).

(** The constructed object [x] starts its lifetime. *)
Definition begin (x : nat) (r : option (bytes * state)) : option state :=
  match r with Some (b, st) => Some (set_alive (set_mem st x b) x true) | None => None end.

Definition step (o : op) (st : state) : option state :=
  match o with
  | ODefault x => if alive st x then None else begin x (default_ctor st)
  | OFrom x d => if alive st x then None else begin x (from_ctor d st)
  | OCopyCtor x y => if alive st x || negb (alive st y) then None else begin x (copy_ctor (mem st y) st)
  | OMoveCtor x y =>
      if alive st x || negb (alive st y) then None
      else match move_ctor (mem st y) st with
           | Some (b, src, st1) => begin x (Some (b, set_mem st1 y src))
           | None => None
           end
  | OCopyAssign x y =>
      if alive st x && alive st y then
        match copy_assign (x =? y) (mem st x) (mem st y) st with
        | Some (l, r, st1) => Some (set_mem (set_mem st1 y r) x l)
        | None => None
        end
      else None
  | OMoveAssign x y =>
      if alive st x && alive st y then
        match move_assign (x =? y) (mem st x) (mem st y) st with
        | Some (l, r, st1) => Some (set_mem (set_mem st1 y r) x l)
        | None => None
        end
      else None
  | ODestroy x =>
      if alive st x then Some (set_alive (set_mem (drop_bytes (mem st x) st) x Garbage) x false) else None
  | OReturn x d => if alive st x then None else let (v, st1) := fresh d st in begin x (Some (return_value v st1))
  | OGive x i =>
      if alive st x then None
      else match find_rust i (rust st) with
           | Some d => begin x (Some (return_value (Val i d) (set_rust st (remove_rust i (rust st)))))
           | None => None
           end
  | OTake x =>
      if alive st x then
        match take_param (mem st x) st with Some (b, st1) => Some (set_mem st1 x b) | None => None end
      else None
  | OTakeArray xs =>
      if forallb (alive st) xs then Some (take_array (map (mem st) xs) st) else None
  | ORelease i =>
      match find_rust i (rust st) with
      | Some d => Some (drop_bytes (Val i d) (set_rust st (remove_rust i (rust st))))
      | None => None
      end
  | OSet x d =>
      if alive st x then
        Some (match mem st x with Val i _ => set_mem st x (Val i d) | Garbage => go_wrong st end)
      else None
  end.

Fixpoint run (ops : list op) (st : state) : option state :=
  match ops with
  | [] => Some st
  | o :: rest => match step o st with Some st1 => run rest st1 | None => None end
  end.

End Class.

(** * What the generator accepts *)

(** gsu.rs:1439 with lib.rs:1400-1414: a default constructor is declared and defined; lib.rs:1538-1546 the same for the copy
    constructor calling [clone]. *)
Definition emits_default_ctor (t : traits) : bool := has_default t.
Definition emits_clone_ctor (t : traits) : bool :=
  match copy_of t with Some CopyClone => true | _ => false end.

(** format_type.rs:541-550 (by value) and generate_function_thunk.rs:161-180 (through a pointer): a function with a parameter
    of this type is accepted if the class has a move constructor. *)
Definition accepts_param (t : traits) : bool := if move_of t then true else false.

(** generate_function_thunk.rs:90-101 and 159-160: an array of this type is always accepted as a parameter (only nested
    arrays are looked at). *)
Definition accepts_array_param (t : traits) : bool := true.
