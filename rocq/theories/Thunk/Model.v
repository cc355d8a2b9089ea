(** Model of how cc_bindings_from_rs moves parameters and return values between the generated C++ wrapper of a Rust function
    and its Rust thunk.  Files, all in /repo/cc_bindings_from_rs/generate_bindings: generate_function_thunk.rs (cited as
    gft.rs), generate_function.rs (gf.rs), query_compiler.rs, format_type.rs, database/type_location.rs; and
    /repo/support/internal/slot.h.

    Both sides of the generated code are executed on one memory of typed cells.  A pointer read from a cell that does not
    hold a pointer, a value read from a cell that does not hold one, and so on, are undefined behaviour: [None].

    Simplifications: async functions and their futures, [RvalueReference]/[ByValue] parameters and the aliasing check
    (Aliasing) are left out; the conversion functions of bridged types and the encoding of composable types (Bridge) are
    arbitrary functions, one pair per type; the contents of an array are one value. *)
From Coq Require Import List Arith ZArith Bool String DecimalString.
Import ListNotations.
Local Open Scope nat_scope.
Local Open Scope list_scope.

(** * Types *)

(** format_type.rs:1254-1302 [BridgedType]: [PointerLikeTransmute] and [ExternCFuncConverters], each for a C++ type that is a
    pointer or not (format_type.rs:1618-1651), and [Composable]. *)
Inductive bridge := Transmute (cpp_pointer : bool) | Convert (cpp_pointer : bool) | Composable.

(** What is asked about a struct, enum or union: how it is bridged if it is (None for [Option] when generics are always
    specialised), whether it is [Option], the [same_abi] attribute, drop glue, and which special member functions its C++
    class has. *)
Record adt := ADT { tag : nat; bridged : option bridge; is_option : bool; same_abi : bool; drop : bool;
                    has_move : bool; has_copy : bool; has_default : bool }.

(** [Prim]: bool, numbers, thin pointers and references, function pointers.  [Fat]: pointers to unsized types.  [Newtype]: a
    repr(transparent) struct and the type of its first field. *)
Inductive ty := Prim | Never | Char | Fat | Tuple (ts : list ty) | Array (t : ty) | Adt (a : adt) | Newtype (a : adt) (t : ty).

(** The [portable_abi_compatible] flag and the [LayoutCompatTuple] feature. *)
Record config := Config { portable : bool; layout_compat_tuple : bool }.

Definition adt_of (t : ty) : option adt := match t with Adt a | Newtype a _ => Some a | _ => None end.

(** format_type.rs:1668-1750 [is_bridged_type]. *)
Definition is_bridged (t : ty) : option bridge := match adt_of t with Some a => bridged a | None => None end.

(** rustc's [needs_drop]. *)
Fixpoint needs_drop (t : ty) : bool :=
  match t with
  | Prim | Never | Char | Fat => false
  | Tuple ts => existsb needs_drop ts
  | Array e => needs_drop e
  | Adt a | Newtype a _ => drop a
  end.

(** gft.rs:67-74 [is_drop_not_default]. *)
Fixpoint implements_default (t : ty) : bool :=
  match t with
  | Prim | Char => true
  | Never | Fat => false
  | Tuple ts => forallb implements_default ts
  | Array e => implements_default e
  | Adt a | Newtype a _ => has_default a
  end.
Definition is_drop_not_default (t : ty) : bool := needs_drop t && negb (implements_default t).

(** * Memory *)

(** Values of Rust, and C++ values: the bytes of one object that correspond to a Rust value or belong to a bridged C++ type
    ([VBits]); a [std::tuple]; an object that was moved from. *)
Inductive rval := RLeaf (n : N) | RTuple (rs : list rval).
Inductive cval := VBits (r : rval) | VTuple (vs : list cval) | VMoved.

Notation addr := nat.
Inductive cell :=
| CBits (r : rval)            (* bytes of a value *)
| CTup (xs : list addr)       (* a std::tuple with these subobjects *)
| CMoved                      (* a moved-from object *)
| CPtr (a : addr)             (* a pointer variable or a pointer argument *)
| CPtrs (xs : list addr)      (* void*[] *)
| CEnc (k : nat) (r : rval)   (* a buffer with the encoding of a value *)
| CUninit.

Notation memory := (addr -> cell).
Definition set (m : memory) (a : addr) (c : cell) : memory := fun b => if b =? a then c else m b.
(** Memory and the next unused address. *)
Notation heap := ((addr -> cell) * addr)%type.
Definition alloc (h : heap) (c : cell) : addr * heap := (snd h, (set (fst h) (snd h) c, S (snd h))).
Definition store (h : heap) (a : addr) (c : cell) : heap := (set (fst h) a c, snd h).

Section Generator.
Variable cfg : config.

(** query_compiler.rs:43-123 [is_c_abi_compatible_by_value]. *)
Fixpoint by_value (t : ty) : bool :=
  match t with
  | Prim | Never => true
  | Char | Fat => negb (portable cfg)
  | Tuple [] => true
  | Tuple _ | Array _ => false
  | Adt a => same_abi a
  | Newtype a f => if same_abi a then true else if portable cfg then false else by_value f
  end.

(** gft.rs:33-65 [tuple_c_abi_c_type], [tuple_c_abi_rs_type] and the test repeated at gf.rs:216-219, 393-396, gft.rs:357-360,
    487-491: a tuple is passed as an array of pointers to its elements. *)
Definition as_pointer_array (t : ty) : option (list ty) :=
  match t with Tuple ts => if layout_compat_tuple cfg then None else Some ts | _ => None end.

(** gft.rs:76-89 [is_bridged_layout_compat_type]. *)
Definition is_bridged_layout_compat_type (t : ty) : bool :=
  match t with
  | Tuple (_ :: _) => true
  | Adt a | Newtype a _ => is_option a
  | _ => false
  end.

(** * What is accepted *)

(** database/type_location.rs:9-78. *)
Inductive location := FnReturn (is_constructor : bool) | FnParam | NestedBridgeable | TemplateArg | Other.
Definition is_bridgeable (l : location) : bool :=
  match l with FnReturn true => false | FnReturn false | FnParam | NestedBridgeable => true | TemplateArg | Other => false end.
Definition is_return (l : location) : bool := match l with FnReturn _ => true | _ => false end.

Definition is_composable (t : ty) : bool := match is_bridged t with Some Composable => true | _ => false end.
(** format_type.rs:1275-1284. *)
Definition is_layout_compatible (b : bridge) : bool := match b with Transmute _ => true | _ => false end.

(** format_type.rs:385-660 [format_ty_for_cc]: which types have a C++ type in which position.  A specialisation
    [rs_std::Tuple] or [rs_std::Option] exists if its arguments are supported (generate_template_specialization.rs); what can
    fail for a struct alone (generics, visibility) is left out. *)
Fixpoint format_ok (t : ty) (l : location) {struct t} : bool :=
  match t with
  | Never => is_return l                                                     (* :385-391 *)
  | Tuple [] => is_return l || is_bridgeable l                               (* :393-403 *)
  | Tuple ts =>
      if negb (is_bridgeable l) || layout_compat_tuple cfg                   (* :395-421 *)
      then forallb (fun e => format_ok e TemplateArg) ts
      else forallb (fun e => negb (is_composable e) && format_ok e NestedBridgeable) ts   (* :422-443 *)
  | Array e => format_ok e Other                                             (* :445-459 *)
  | Adt a | Newtype a _ =>
      (if is_bridgeable l && by_value t then has_move a else true)           (* :541-550 *)
      && match bridged a with                                                (* :552-587 *)
         | Some b => (is_option a && negb (is_bridgeable l)) || is_layout_compatible b || is_bridgeable l
         | None => true
         end
  | Prim | Char | Fat => true
  end.

(** gft.rs:91-103 [array_c_abi_c_type]. *)
Definition array_ok (e : ty) : bool :=
  match e with Array i => negb (is_drop_not_default i) | _ => true end.

(** gft.rs:134-183: a parameter of the thunk is declared. *)
Definition accept_param (t : ty) : bool :=
  format_ok t FnParam &&
  (if is_bridged t then true
   else if by_value t then true
   else if as_pointer_array t then true
   else match t with
        | Array e => array_ok e
        | Adt a | Newtype a _ => has_move a
        | _ => true
        end).

(** gf.rs:307-456: the tests made while the storage of a return value is declared. *)
Fixpoint storage_ok (recursive : bool) (t : ty) : bool :=
  if is_bridged t then true
  else if by_value t then format_ok t Other                                  (* :383 *)
  else match t with
       | Tuple ts => if layout_compat_tuple cfg then format_ok t Other else forallb (storage_ok true) ts
       | Adt a | Newtype a _ => (if recursive then has_move a else true) && format_ok t Other   (* :426-442 *)
       | _ => format_ok t Other
       end.

(** gft.rs:129-131, 185-221 and gf.rs:725-747. *)
Definition accept_return (t : ty) : bool :=
  format_ok t (FnReturn false) &&
  (if is_bridged t then true
   else if by_value t then true
   else storage_ok false t && match t with Array e => array_ok e | _ => true end).

(** * Signatures *)

(** How something is passed: by value as the given type, or as a pointer. *)
Inductive kind := ByValue (t : ty) | Pointer.

(** gft.rs:134-183: parameters of the C++ declaration.  A bridged C++ type that is a pointer is passed as it is, which is a
    pointer as well. *)
Definition decl_param (t : ty) : kind :=
  match is_bridged t with
  | Some (Transmute true) | Some (Convert true) => Pointer
  | Some (Transmute false) | Some (Convert false) => Pointer
  | Some Composable => Pointer
  | None => if by_value t then ByValue t else Pointer
  end.

(** gft.rs:185-221: return type of the declaration; [None] is void, and the flag says whether a pointer is added. *)
Definition decl_return (is_constructor : bool) (t : ty) : option ty * bool :=
  if is_constructor && is_bridged_layout_compat_type t then (None, true)
  else match is_bridged t with
       | Some _ => (None, true)
       | None => if by_value t then (Some t, false) else (None, true)
       end.

(** gft.rs:369-384 [c_abi_for_param_type]. *)
Definition impl_param (t : ty) : kind :=
  match is_bridged t with
  | Some (Transmute _) | Some (Convert _) => Pointer
  | Some Composable => Pointer
  | None => if by_value t then ByValue t else Pointer
  end.

(** gft.rs:609-660. *)
Definition impl_return (t : ty) : option ty * bool :=
  match is_bridged t with
  | None => if by_value t then (Some t, false) else (None, true)
  | Some _ => (None, true)
  end.

Definition with_ret_ptr (ps : list kind) (r : option ty * bool) : list kind * option ty :=
  (if snd r then ps ++ [Pointer] else ps, fst r).

(** gft.rs:105-242 [generate_thunk_decl] and 565-675 [generate_thunk_impl]: parameters and result of both. *)
Definition thunk_decl (is_constructor : bool) (ps : list ty) (r : ty) : list kind * option ty :=
  with_ret_ptr (map decl_param ps) (decl_return is_constructor r).
Definition thunk_impl (ps : list ty) (r : ty) : list kind * option ty :=
  with_ret_ptr (map impl_param ps) (impl_return r).

(** gft.rs:677-710 [is_thunk_required], for an extern "C" function. *)
Definition thunk_required (ps : list ty) (r : ty) : bool := negb (by_value r && forallb by_value ps).
(** The extern "C" Rust function itself. *)
Definition extern_fn (ps : list ty) (r : ty) : list kind * option ty := (map ByValue ps, Some r).

(** gf.rs:725-755: the call in the wrapper passes a pointer to the storage of the result or returns the result of the call. *)
Definition call_return (t : ty) : option ty * bool :=
  match is_bridged t with
  | None => if by_value t then (Some t, false) else (None, true)
  | Some _ => (None, true)
  end.

(** Conversion functions of bridged types, by tag. *)
Variable cpp_to_rust : nat -> rval -> rval.
Variable rust_to_cpp : nat -> rval -> rval.
Definition tag_of (t : ty) : nat := match adt_of t with Some a => tag a | None => 0 end.

(** * C++: parameters *)

(** Names of generated locals: the parameter's number, then what is appended (gf.rs:148-151, 182, 198, 222, 231, 260, 280). *)
Inductive seg := Elem (i : nat) | SlotName | BufferName | CabiName | CabiElem (i : nat).
Definition name := (nat * list seg)%type.
Definition app_seg (n : name) (s : seg) : name := (fst n, snd n ++ [s]).

(** What an expression of the generated code denotes: an object, an array object, or a value that is no object. *)
Inductive expr := LV (a : addr) | ARR (a : addr) | PV (c : cell).
(** The expression as an argument of a call: lvalue-to-rvalue or array-to-pointer conversion. *)
Definition as_argument (h : heap) (e : expr) : cell := match e with LV a => fst h a | ARR a => CPtr a | PV c => c end.
(** The address of [auto&& v = e]: a new object only if [e] is no object. *)
Definition bind_ref (h : heap) (e : expr) : addr * heap := match e with LV a | ARR a => (a, h) | PV c => alloc h c end.
(** The address of [auto* v = &e]. *)
Definition bind_ptr (h : heap) (e : expr) : option (addr * heap) := match e with LV a | ARR a => Some (alloc h (CPtr a)) | PV _ => None end.

(** slot.h:76 and 146-152: [Slot s(std::move(x))] moves the object into the slot; an array of class objects is copied bytewise
    and stays as it was. *)
Definition moved_out (t : ty) (c : cell) : cell := match t with Array _ => c | _ => CMoved end.
Definition slot_from (t : ty) (h : heap) (x : addr) : addr * heap :=
  let c := fst h x in alloc (store h x (moved_out t c)) c.

(** gf.rs:165-286 [cc_param_to_c_abi]: [nm] and [x] are the name and the address of the C++ object.  Returns the names of the
    locals declared, the resulting expression and the memory. *)
Fixpoint cc_param (t : ty) (nm : name) (x : addr) (h : heap) {struct t} : option (list name * expr * heap) :=
  match is_bridged t with
  | Some (Transmute true) | Some (Convert true) => Some ([], LV x, h)                              (* :176-177 *)
  | Some (Transmute false) | Some (Convert false) =>
      if negb (needs_drop t) then Some ([], PV (CPtr x), h)                                        (* :178-179 *)
      else let (s, h1) := slot_from t h x in Some ([app_seg nm SlotName], PV (CPtr s), h1)         (* :180-187 *)
  | Some Composable =>                                                                             (* :189-206 *)
      match fst h x with
      | CBits r =>
          let (b, h1) := alloc (store h x CMoved) (CEnc (tag_of t) (cpp_to_rust (tag_of t) r)) in
          Some ([app_seg nm BufferName], ARR b, h1)
      | _ => None
      end
  | None =>
      if by_value t then Some ([], LV x, h)                                                        (* :214-215 *)
      else
        let other :=
          if negb (needs_drop t) then Some ([], PV (CPtr x), h)                                    (* :267-271 *)
          else let (s, h1) := slot_from t h x in Some ([app_seg nm SlotName], PV (CPtr s), h1)     (* :272-284 *)
        in
        match t with
        | Tuple ts =>
            if layout_compat_tuple cfg then other
            else
              match fst h x with
              | CTup xs =>
                  (* :230-259 *)
                  match (fix elements (ts : list ty) (i : nat) (xs : list addr) (h : heap) {struct ts}
                           : option (list name * list addr * heap) :=
                           match ts, xs with
                           | [], [] => Some ([], [], h)
                           | e :: ts1, y :: ys =>
                               match cc_param e (app_seg nm (Elem i)) y h with
                               | Some (ds, ex, h1) =>
                                   match (match e with Tuple _ => bind_ptr h1 ex | _ => Some (bind_ref h1 ex) end) with
                                   | Some (c, h2) =>
                                       match elements ts1 (S i) ys h2 with
                                       | Some (ds', cs, h3) =>
                                           Some (app_seg nm (Elem i) :: ds ++ app_seg nm (CabiElem i) :: ds', c :: cs, h3)
                                       | None => None
                                       end
                                   | None => None
                                   end
                               | None => None
                               end
                           | _, _ => None
                           end) ts 0 xs h with
                  | Some (ds, cs, h1) =>
                      let (r, h2) := alloc h1 (CPtrs cs) in Some (ds ++ [app_seg nm CabiName], ARR r, h2)   (* :260-266 *)
                  | None => None
                  end
              | _ => None
              end
        | _ => other
        end
  end.

(** gf.rs:645-672: all parameters, in order; arguments are evaluated after all statements. *)
Fixpoint cc_params (i : nat) (ts : list ty) (xs : list addr) (h : heap) : option (list name * list expr * heap) :=
  match ts, xs with
  | [], [] => Some ([], [], h)
  | t :: ts1, x :: xs1 =>
      match cc_param t (i, []) x h with
      | Some (ds, e, h1) =>
          match cc_params (S i) ts1 xs1 h1 with Some (ds', es, h2) => Some (ds ++ ds', e :: es, h2) | None => None end
      | None => None
      end
  | _, _ => None
  end.

(** * Rust: parameters *)

(** gft.rs:244-367 [convert_value_from_c_abi_to_rust] and the functions it calls: [c] is the argument received. *)
Fixpoint rs_param (t : ty) (c : cell) (m : memory) {struct t} : option rval :=
  match is_bridged t with
  | Some (Transmute true) => match c with CBits r => Some r | _ => None end                        (* :265-268 *)
  | Some (Transmute false) =>                                                                      (* :269-273 *)
      match c with CPtr a => match m a with CBits r => Some r | _ => None end | _ => None end
  | Some (Convert true) => match c with CBits r => Some (cpp_to_rust (tag_of t) r) | _ => None end (* :275-287 *)
  | Some (Convert false) =>
      match c with CPtr a => match m a with CBits r => Some (cpp_to_rust (tag_of t) r) | _ => None end | _ => None end
  | Some Composable =>                                                                             (* :296-304 *)
      match c with CPtr a => match m a with CEnc k r => if k =? tag_of t then Some r else None | _ => None end | _ => None end
  | None =>
      if by_value t then                                                                           (* :354-356 *)
        match t with
        | Tuple [] => Some (RTuple [])
        | _ => match c with CBits r => Some r | _ => None end
        end
      else
        let read := match c with CPtr a => match m a with CBits r => Some r | _ => None end | _ => None end in  (* :364-366 *)
        match t with
        | Tuple ts =>
            if layout_compat_tuple cfg then read
            else
              match c with                                                                         (* :308-335 *)
              | CPtr a =>
                  match m a with
                  | CPtrs xs =>
                      match (fix elements (ts : list ty) (xs : list addr) {struct ts} : option (list rval) :=
                               match ts, xs with
                               | [], [] => Some []
                               | e :: ts1, y :: ys =>
                                   match rs_param e (m y) m, elements ts1 ys with
                                   | Some r, Some rs => Some (r :: rs)
                                   | _, _ => None
                                   end
                               | _, _ => None
                               end) ts xs with
                      | Some rs => Some (RTuple rs)
                      | None => None
                      end
                  | _ => None
                  end
              | _ => None
              end
        | _ => read
        end
  end.

Fixpoint rs_params (ts : list ty) (cs : list cell) (m : memory) : option (list rval) :=
  match ts, cs with
  | [], [] => Some []
  | t :: ts1, c :: cs1 =>
      match rs_param t c m, rs_params ts1 cs1 m with Some r, Some rs => Some (r :: rs) | _, _ => None end
  | _, _ => None
  end.

(** * Rust: return values *)

(** gft.rs:437-532 [write_rs_value_to_c_abi_ptr]. *)
Fixpoint rs_write (is_constructor : bool) (t : ty) (v : rval) (p : addr) (m : memory) {struct t} : option memory :=
  match is_bridged t with
  | Some (Transmute _) => Some (set m p (CBits v))                                                 (* :452 *)
  | Some (Convert _) => Some (set m p (CBits (rust_to_cpp (tag_of t) v)))                          (* :453-466 *)
  | Some Composable => Some (set m p (CEnc (tag_of t) v))                                          (* :468-483 *)
  | None =>
      if by_value t then
        match t with
        | Tuple [] => Some m                                                                       (* no bytes *)
        | _ => Some (set m p (CBits v))                                                            (* :485-486 *)
        end
      else
        match t with
        | Tuple ts =>
            if is_constructor || layout_compat_tuple cfg then Some (set m p (CBits v))             (* :518-528 *)
            else
              match v, m p with                                                                    (* :487-517 *)
              | RTuple vs, CPtrs ps =>
                  (fix elements (ts : list ty) (vs : list rval) (ps : list addr) (m : memory) {struct ts} : option memory :=
                     match ts, vs, ps with
                     | [], [], [] => Some m
                     | e :: ts1, v1 :: vs1, p1 :: ps1 =>
                         match rs_write false e v1 p1 m with Some m1 => elements ts1 vs1 ps1 m1 | None => None end
                     | _, _, _ => None
                     end) ts vs ps m
              | _, _ => None
              end
        | Prim | Never => None                                                                     (* :529-531 *)
        | _ => Some (set m p (CBits v))
        end
  end.

(** * C++: return values *)

(** How the result is fetched from the storage (the [unpack_expr]s of gf.rs:307-456). *)
Inductive unpack := TakeSlot (a : addr) | TakeUnion (a : addr) | Decode (k : nat) (a : addr) | CopyLocal (a : addr) | MakeTuple (us : list unpack).

(** gf.rs:307-456 [cc_return_value_from_c_abi]: allocates the storage; returns names declared, address of the storage, and how
    to fetch the result. *)
Fixpoint cc_storage (t : ty) (h : heap) {struct t} : addr * unpack * heap :=
  let slot := let (a, h1) := alloc h CUninit in (a, TakeSlot a, h1) in
  match is_bridged t with
  | Some (Transmute _) | Some (Convert _) =>
      if needs_drop t then slot                                                                    (* :326-338 *)
      else let (a, h1) := alloc h CUninit in (a, TakeUnion a, h1)                                  (* :339-362 *)
  | Some Composable => let (a, h1) := alloc h CUninit in (a, Decode (tag_of t) a, h1)              (* :364-380 *)
  | None =>
      if by_value t then                                                                           (* :382-392 *)
        match t with
        | Tuple [] => let (a, h1) := alloc h (CTup []) in (a, CopyLocal a, h1)
        | _ => let (a, h1) := alloc h CUninit in (a, CopyLocal a, h1)
        end
      else
        match t with
        | Tuple ts =>
            if layout_compat_tuple cfg then slot
            else                                                                                   (* :393-424 *)
              let '(ps, us, h1) :=
                (fix elements (ts : list ty) (h : heap) {struct ts} : list addr * list unpack * heap :=
                   match ts with
                   | [] => ([], [], h)
                   | e :: ts1 =>
                       let '(a, u, h1) := cc_storage e h in
                       let '(ps, us, h2) := elements ts1 h1 in
                       (a :: ps, u :: us, h2)
                   end) ts h in
              let (a, h2) := alloc h1 (CPtrs ps) in (a, MakeTuple us, h2)
        | _ => slot                                                                                (* :425-455 *)
        end
  end.

Fixpoint cc_unpack (u : unpack) (m : memory) : option cval :=
  match u with
  | TakeSlot a | TakeUnion a => match m a with CBits r => Some (VBits r) | _ => None end
  | CopyLocal a => match m a with CBits r => Some (VBits r) | CTup [] => Some (VTuple []) | _ => None end
  | Decode k a => match m a with CEnc k' r => if k =? k' then Some (VBits (rust_to_cpp k r)) else None | _ => None end
  | MakeTuple us =>
      match (fix elements (us : list unpack) : option (list cval) :=
               match us with
               | [] => Some []
               | u1 :: us1 => match cc_unpack u1 m, elements us1 with Some v, Some vs => Some (v :: vs) | _, _ => None end
               end) us with
      | Some vs => Some (VTuple vs)
      | None => None
      end
  end.

(** * A whole call *)

(** A C++ object with value [v] is created. *)
Fixpoint create (v : cval) (h : heap) : addr * heap :=
  match v with
  | VBits r => alloc h (CBits r)
  | VMoved => alloc h CMoved
  | VTuple vs =>
      let (x, h0) := alloc h CUninit in
      let '(xs, h1) :=
        (fix elements (vs : list cval) (h : heap) : list addr * heap :=
           match vs with
           | [] => ([], h)
           | v1 :: vs1 => let (y, h1) := create v1 h in let (ys, h2) := elements vs1 h1 in (y :: ys, h2)
           end) vs h0 in
      (x, store h1 x (CTup xs))
  end.
Fixpoint create_all (vs : list cval) (h : heap) : list addr * heap :=
  match vs with
  | [] => ([], h)
  | v1 :: vs1 => let (y, h1) := create v1 h in let (ys, h2) := create_all vs1 h1 in (y :: ys, h2)
  end.

(** What is left in a C++ object. *)
Fixpoint observe (depth : nat) (m : memory) (x : addr) : option cval :=
  match depth with
  | O => None
  | S d =>
      match m x with
      | CBits r => Some (VBits r)
      | CMoved => Some VMoved
      | CTup xs =>
          match (fix elements (xs : list addr) : option (list cval) :=
                   match xs with
                   | [] => Some []
                   | y :: ys => match observe d m y, elements ys with Some v, Some vs => Some (v :: vs) | _, _ => None end
                   end) xs with
          | Some vs => Some (VTuple vs)
          | None => None
          end
      | _ => None
      end
  end.

Definition empty_heap : heap := (fun _ => CUninit, 0).

(** The wrapper called with parameter objects of these values: what the Rust function is called with, and what is left in the
    parameter objects afterwards. *)
Definition call_with (depth : nat) (ts : list ty) (vs : list cval) : option (list rval * list (option cval)) :=
  let (xs, h0) := create_all vs empty_heap in
  match cc_params 0 ts xs h0 with
  | Some (_, es, h1) =>
      match rs_params ts (map (as_argument h1) es) (fst h1) with
      | Some rs => Some (rs, map (observe depth (fst h1)) xs)
      | None => None
      end
  | None => None
  end.

(** The Rust function returns [r]: what the wrapper returns. *)
Definition return_from (t : ty) (r : rval) (h : heap) : option cval :=
  match call_return t with
  | (Some _, _) => match t with Tuple [] => Some (VTuple []) | _ => Some (VBits r) end      (* gf.rs:725-737 *)
  | (None, _) =>
      let '(a, u, h1) := cc_storage t h in
      match rs_write false t r a (fst h1) with Some m => cc_unpack u m | None => None end
  end.

(** A constructor of the class ([this] at [p]) calls its thunk: what the new object is afterwards.  lib.rs:1429-1445, 1559-1570
    and generate_struct_and_union.rs:886-895 decide by [is_c_abi_compatible_by_value] alone whether to write
    [*this = thunk(..)] or [thunk(.., this)]; [None] if that does not agree with the declaration. *)
Definition construct (t : ty) (r : rval) (p : addr) (m : memory) : option cell :=
  match by_value t, decl_return true t with
  | true, (Some _, _) => Some (CBits r)
  | false, (None, _) => match rs_write true t r p m with Some m1 => Some (m1 p) | None => None end
  | _, _ => None
  end.

(** * Does the generated C++ code compile? *)

(** Copying, moving or default-constructing the C++ type for [t] in a wrapper. *)
Fixpoint copyable (t : ty) : bool :=
  match t with Tuple ts => forallb copyable ts | Array e => copyable e | Adt a | Newtype a _ => has_copy a | _ => true end.
Fixpoint movable (t : ty) : bool :=
  match t with Tuple ts => forallb movable ts | Array e => movable e | Adt a | Newtype a _ => has_move a | _ => true end.
Definition default_constructible (t : ty) : bool :=
  match t with Adt a | Newtype a _ => has_default a | _ => true end.

(** gf.rs:165-286: [std::move] into a Slot needs a move constructor, except for arrays of classes of Rust types; an lvalue passed by
    value needs a copy constructor.  Bridged C++ types are assumed to be copyable and movable. *)
Definition slot_compiles (t : ty) : bool :=
  match t with
  | Array (Adt _ | Newtype _ _ | Tuple (_ :: _)) => true                     (* slot.h:149-150 *)
  | Array e => movable e
  | _ => movable t
  end.
Fixpoint param_compiles (t : ty) : bool :=
  match is_bridged t with
  | Some _ => true
  | None =>
      if by_value t then copyable t
      else
        match t with
        | Tuple ts =>
            if layout_compat_tuple cfg then negb (needs_drop t) || slot_compiles t else forallb param_compiles ts
        | _ => negb (needs_drop t) || slot_compiles t
        end
  end.

(** gf.rs:382-392: the local for a result passed by value inside a tuple is default-constructed and copied; other elements are
    moved into the tuple by [std::make_tuple]. *)
Fixpoint element_compiles (t : ty) : bool :=
  match is_bridged t with
  | Some _ => true
  | None =>
      if by_value t then default_constructible t && copyable t
      else
        match t with
        | Tuple ts => if layout_compat_tuple cfg then movable t else forallb element_compiles ts
        | _ => movable t
        end
  end.
Definition return_compiles (t : ty) : bool :=
  match is_bridged t with
  | Some _ => true
  | None =>
      if by_value t then true
      else match as_pointer_array t with Some ts => forallb element_compiles ts | None => true end
  end.

End Generator.

(** * Names in the generated C++ code *)
Local Open Scope string_scope.
Local Open Scope list_scope.

(** Rust's [{i}] for a usize. *)
Definition number (n : nat) : string := NilZero.string_of_uint (Nat.to_uint n).
Definition seg_text (s : seg) : string :=
  match s with
  | Elem i => ("_" ++ number i)%string                                                 (* gf.rs:231 *)
  | SlotName => "_slot"                                                       (* :182, :280 *)
  | BufferName => "_buffer"                                                   (* :198 *)
  | CabiName => "_cabi"                                                       (* :260 *)
  | CabiElem i => ("_cabi" ++ "_" ++ number i)%string                                  (* :222, 148-151 *)
  end.
Fixpoint path_text (p : list seg) : string := match p with [] => "" | s :: p1 => (seg_text s ++ path_text p1)%string end.
Definition text (params : nat -> string) (n : name) : string := (params (fst n) ++ path_text (snd n))%string.

(** gf.rs:307-456: locals for the storage of a return value; [ident] is "return_value" (:742). *)
Section Storage.
Variable cfg : config.
Fixpoint storage_names (ident : string) (t : ty) {struct t} : list string :=
  let storage := ("__" ++ ident ++ "_storage")%string in                               (* :316 *)
  let holder := ("__" ++ ident ++ "_ret_val_holder")%string in
  match is_bridged t with
  | Some (Transmute _) | Some (Convert _) =>
      if needs_drop t then [holder; storage]                                  (* :328-332 *)
      else [("__" ++ ident ++ "_crubit_return_union")%string; holder; storage]         (* :345-355 *)
  | Some Composable => [storage]                                              (* :371-373 *)
  | None =>
      if by_value cfg t then [holder; storage]                                (* :384-388 *)
      else
        match t with
        | Tuple ts =>
            if layout_compat_tuple cfg then [holder; storage]
            else
              (fix elements (ts : list ty) (i : nat) {struct ts} : list string :=
                 match ts with
                 | [] => []
                 | e :: ts1 => storage_names (ident ++ "_" ++ number i)%string e ++ elements ts1 (S i)   (* :402 *)
                 end) ts 0 ++ [storage]                                                    (* :418-420 *)
        | _ => [holder; storage]                                              (* :441-446 *)
        end
  end.
(** gf.rs:725-747. *)
Definition return_names (t : ty) : list string :=
  match call_return cfg t with (Some _, _) => [] | (None, _) => storage_names "return_value" t end.
End Storage.
