(** * rs_bindings_from_cc: how Rust calls a C++ function.
      generate_bindings/generate_function_thunk.rs, generate_function.rs (generate_func_body,
      function_signature), database/rs_snippet.rs (passing_convention),
      importers/function.cc (GetMemberFuncSemantic). *)
From Coq Require Import List Arith Bool.
Import ListNotations.

(** ** Types *)

(** ir.rs [PointerTypeKind]. *)
Inductive pkind := Nullable | NonNull | Owned | LRef | RRef.

(** The C++ type of a parameter or result (ir.rs [CcTypeVariant]) together with the
    [RsTypeKind] it maps to.  Simplification: [RsTypeKind] has separate constructors for a
    reference with a lifetime ([Reference], [RvalueReference]) and without
    ([Pointer] of kind [LValueRef], [RValueRef]); the functions here treat them alike,
    so one constructor stands for both (rs_type_kind.rs:55-157).  [SliceRef] counts as
    [CExist] with the same ABI; error types are rejected before ([check_by_value]). *)
Inductive cty :=
| CPrim (p : nat)
| CVoid
| CPtr (k : pkind) (t : cty)
| CFun (non_null : bool)
| CRec (r : nat)
| CEnum (e : nat)
| CExist (x : nat)
| CBridge (b : nat)
| CIncomplete
| CAlias (a : nat) (t : cty).

(** rs_snippet.rs:1328-1334 [unalias]. *)
Fixpoint unalias (t : cty) : cty := match t with CAlias _ u => unalias u | _ => t end.

Inductive refq := Unqualified | LQual | RQual.
Inductive fkind := Free | Method (q : refq) (is_virtual : bool) | Constructor | Destructor.

Record func := Func {
  f_kind : fkind;
  f_params : list cty;          (* with [__this] first for methods *)
  f_ret : cty;
  f_inline : bool;
  f_template : bool;            (* is_member_or_descendant_of_class_template *)
  f_c_conv : bool;              (* has_c_calling_convention *)
  f_conflict : bool }.          (* has_conflicting_mangled_name *)

Definition is_virtual (f : func) : bool :=
  match f_kind f with Method _ v => v | _ => false end.

(** rs_snippet.rs:2221-2270. *)
Inductive convention := AbiCompatible | LayoutCompatible | ComposablyBridged | CtorConv | OwnedPtr | VoidConv.

Section Env.
  (** Facts about classes: [is_unpin], a move and a copy constructor are available;
      [ExistingRustType::is_same_abi]. *)
  Variable unpin movable copyable same_abi : nat -> bool.

  (** rs_snippet.rs:1316-1326. *)
  Definition is_unpin (t : cty) : bool :=
    match unalias t with CIncomplete => false | CRec r => unpin r | _ => true end.

  (** rs_snippet.rs:1485-1517. *)
  Definition is_c_abi_compatible_by_value (t : cty) : bool :=
    match unalias t with
    | CPtr _ _ | CFun _ | CEnum _ | CPrim _ | CVoid => true
    | CIncomplete | CRec _ | CBridge _ => false
    | CExist x => same_abi x
    | CAlias _ _ => false
    end.

  (** rs_snippet.rs:1523-1532. *)
  Definition is_move_constructible (t : cty) : bool :=
    match unalias t with CIncomplete => false | CRec r => movable r | _ => true end.

  Definition is_owned_ptr (t : cty) : bool :=
    match unalias t with CPtr Owned _ => true | _ => false end.
  Definition is_void (t : cty) : bool := match unalias t with CVoid => true | _ => false end.
  Definition is_bridge_type (t : cty) : bool := match unalias t with CBridge _ => true | _ => false end.
  Definition is_primitive (t : cty) : bool :=
    match unalias t with CPrim _ | CVoid => true | _ => false end.
  Definition has_referent (t : cty) : bool := match unalias t with CPtr _ _ => true | _ => false end.

  (** rs_snippet.rs:1963-1980. *)
  Definition passing_convention (t : cty) : convention :=
    if is_owned_ptr t then OwnedPtr
    else if is_void t then VoidConv
    else if is_bridge_type t then ComposablyBridged
    else if negb (is_unpin t) then CtorConv
    else if is_c_abi_compatible_by_value t then AbiCompatible
    else LayoutCompatible.

  (** generate_function_thunk.rs:27-126. *)
  Definition can_skip_cc_thunk (f : func) : bool :=
    negb (f_inline f) && negb (f_template f) && negb (is_virtual f) && f_c_conv f &&
    is_c_abi_compatible_by_value (f_ret f) &&
    forallb is_c_abi_compatible_by_value (f_params f) && negb (f_conflict f).

  (** ** The declaration of the thunk in Rust *)
  Inductive rparam := PVoidMut | PUCharMut | PUCharConst | PMutRef (t : cty) | PValue (t : cty).

  (** generate_function_thunk.rs:216-226. *)
  Definition rs_thunk_param (t : cty) : rparam :=
    match passing_convention t with
    | ComposablyBridged => PUCharConst
    | LayoutCompatible | CtorConv => PMutRef t
    | AbiCompatible | VoidConv | OwnedPtr => PValue t
    end.

  (** generate_function_thunk.rs:128-238: parameters and result ([None]: unit); [None] when
      a constructor has no [__this]. *)
  Definition generate_function_thunk (f : func) : option (list rparam * option cty) :=
    match f_kind f with
    | Constructor =>
        match f_params f with
        | CPtr LRef _ :: ps => Some (PVoidMut :: map rs_thunk_param ps, None)
        | _ => None
        end
    | _ =>
        let ps := map rs_thunk_param (f_params f) in
        Some (match passing_convention (f_ret f) with
              | ComposablyBridged => (PUCharMut :: ps, None)
              | LayoutCompatible | CtorConv => (PVoidMut :: ps, None)
              | VoidConv => (ps, None)
              | AbiCompatible | OwnedPtr => (ps, Some (f_ret f))
              end)
    end.

  (** ** The definition of the thunk in C++ *)

  (** [QVal t]: the type as [format_cpp_type] spells it: references at the top are spelled as
      pointers, an alias by its name (cpp_type_name.rs:15-21, 49-151). *)
  Inductive cparam := QVal (t : cty) | QPtr (t : cty) | QUChar | QConstUChar.

  (** Expressions over the parameters (numbered without the output parameter). *)
  Inductive cexpr := EVar (i : nat) | EDeref (e : cexpr) | EMove (e : cexpr) | EDecode (i : nat).

  Inductive ccall :=
  | CallFree (args : list cexpr)
  | CallOn (this : cexpr) (args : list cexpr)
  | CallConstructAt (args : list cexpr)
  | CallDestroyAt (args : list cexpr).

  Inductive creturn := RetVoid | RetPlain | RetAddressof | RetNamedAddress | RetNew | RetEncode.

  Record cthunk := CThunk {
    ct_out : option cparam;
    ct_params : list cparam;
    ct_call : ccall;
    ct_return : creturn;
    ct_result : option cty }.

  (** generate_function_thunk.rs:553-570 (a normal call). *)
  Definition cc_thunk_param (t : cty) : cparam :=
    if is_bridge_type t then QConstUChar
    else if negb (is_c_abi_compatible_by_value t) then QPtr t
    else QVal t.

  (** generate_function_thunk.rs:573-627. *)
  Definition arg_expression (i : nat) (t : cty) : option cexpr :=
    match t with
    | CPtr RRef _ => Some (EMove (EDeref (EVar i)))
    | CPtr LRef _ => Some (EDeref (EVar i))
    | CPtr (Nullable | NonNull | Owned) _ => Some (EVar i)
    | CFun true => Some (EDeref (EVar i))
    | CFun false => Some (EVar i)
    | _ =>
        match passing_convention t with
        | ComposablyBridged => Some (EDecode i)
        | LayoutCompatible | CtorConv =>
            if is_c_abi_compatible_by_value t then Some (EMove (EVar i))
            else Some (EMove (EDeref (EVar i)))
        | AbiCompatible | OwnedPtr =>
            if is_primitive t || has_referent t then Some (EVar i) else Some (EMove (EVar i))
        | VoidConv => None
        end
    end.

  Fixpoint arg_expressions (i : nat) (l : list cty) : option (list cexpr) :=
    match l with
    | [] => Some []
    | t :: r =>
        match arg_expression i t, arg_expressions (S i) r with
        | Some e, Some es => Some (e :: es)
        | _, _ => None
        end
    end.

  (** generate_function_thunk.rs:683-712. *)
  Definition the_call (f : func) (args : list cexpr) : option ccall :=
    match f_kind f with
    | Free => Some (CallFree args)
    | Constructor => Some (CallConstructAt args)
    | Destructor => Some (CallDestroyAt args)
    | Method q _ =>
        match args with
        | _ :: rest =>
            Some (CallOn (match q with
                          | RQual => EMove (EDeref (EVar 0))
                          | _ => EDeref (EVar 0)
                          end) rest)
        | [] => None
        end
    end.

  (** generate_function_thunk.rs:632-652 and 713-757. *)
  Definition generate_cc_thunk (f : func) : option cthunk :=
    match arg_expressions 0 (f_params f) with
    | None => None
    | Some args =>
        match the_call f args with
        | None => None
        | Some call =>
            let ps := map cc_thunk_param (f_params f) in
            Some match passing_convention (f_ret f) with
                 | ComposablyBridged => CThunk (Some QUChar) ps call RetEncode None
                 | LayoutCompatible | CtorConv => CThunk (Some (QPtr (f_ret f))) ps call RetNew None
                 | VoidConv => CThunk None ps call RetVoid None
                 | AbiCompatible | OwnedPtr =>
                     CThunk None ps call
                       match f_ret f with
                       | CPtr LRef _ => RetAddressof
                       | CPtr RRef _ => RetNamedAddress
                       | CFun true => RetAddressof
                       | _ => RetPlain
                       end (Some (f_ret f))
                 end
        end
    end.

  (** ** Running a call *)

  (** Objects made during a call: a class object, one that was moved from, or a bridge
      buffer that holds an encoded value. *)
  Inductive content := Obj (v : nat) | MovedFrom | Encoded (v : nat).

  Inductive cat := Lvalue | Xvalue.
  (** What a C++ function gets for a parameter. *)
  Inductive carg :=
  | GScalar (n : nat) | GAddr (a : nat) | GFun (a : nat) | GRef (c : cat) (a : nat)
  | GObj (a v : nat).
  Inductive callee :=
  | ToFree | ToMethod (dynamic : bool) (c : cat) (a : nat) | ToConstructor (a : nat) | ToDestructor (a : nat).
  Inductive event := Called (to : callee) (args : list carg).

  Record world := World { objs : nat -> option content; nxt : nat; log : list event }.

  Definition set (w : world) (a : nat) (c : option content) : world :=
    World (fun b => if Nat.eqb b a then c else objs w b) (nxt w) (log w).
  Definition alloc (w : world) (c : option content) : nat * world :=
    (nxt w, World (fun b => if Nat.eqb b (nxt w) then c else objs w b) (S (nxt w)) (log w)).
  Definition emit (w : world) (e : event) : world := World (objs w) (nxt w) (log w ++ [e]).

  (** What C++ evaluates an expression to: a scalar or pointer (of any category), an
      lvalue or xvalue of an object, a prvalue of class type. *)
  Inductive res := Word (n : nat) | LvObj (a : nat) | XvObj (a : nat) | PvVal (v : nat).

  (** Is this type, spelled in C++, a reference?  Only behind an alias. *)
  Definition spelled_reference (t : cty) : bool :=
    match t with
    | CAlias _ u =>
        match unalias u with CPtr (LRef | RRef) _ => true | CFun b => b | _ => false end
    | _ => false
    end.

  (** C++: the value of a parameter as an expression (a named reference is an lvalue),
      [*e], [std::move(e)], decoding a buffer (once). [None]: does not compile, or
      undefined. *)
  Fixpoint eval (ps : list cparam) (words : list nat) (w : world) (e : cexpr) : option (res * world) :=
    match e with
    | EVar i =>
        match nth_error ps i, nth_error words i with
        | Some (QVal t), Some n =>
            Some (if spelled_reference t then LvObj n else Word n, w)
        | Some _, Some n => Some (Word n, w)
        | _, _ => None
        end
    | EDeref e' =>
        match eval ps words w e' with
        | Some (Word a, w1) => Some (LvObj a, w1)
        | _ => None
        end
    | EMove e' =>
        match eval ps words w e' with
        | Some (LvObj a, w1) => Some (XvObj a, w1)
        | Some (XvObj a, w1) => Some (XvObj a, w1)
        | Some (Word n, w1) => Some (Word n, w1)
        | _ => None
        end
    | EDecode i =>
        match nth_error ps i, nth_error words i with
        | Some QConstUChar, Some a =>
            match objs w a with
            | Some (Encoded v) => Some (PvVal v, set w a None)
            | _ => None
            end
        | _, _ => None
        end
    end.

  (** C++ initialises a by-value parameter of class type. *)
  Definition init_object (can_move can_copy : bool) (w : world) (r : res) : option (carg * world) :=
    match r with
    | PvVal v => let (b, w1) := alloc w (Some (Obj v)) in Some (GObj b v, w1)
    | XvObj a =>
        match objs w a with
        | Some (Obj v) =>
            if can_move
            then let (b, w1) := alloc (set w a (Some MovedFrom)) (Some (Obj v)) in Some (GObj b v, w1)
            else None
        | _ => None
        end
    | LvObj a =>
        match objs w a with
        | Some (Obj v) =>
            if can_copy then let (b, w1) := alloc w (Some (Obj v)) in Some (GObj b v, w1) else None
        | _ => None
        end
    | Word _ => None
    end.

  (** C++ initialises a parameter of the function. *)
  Definition init (t : cty) (w : world) (r : res) : option (carg * world) :=
    match unalias t with
    | CPrim _ | CEnum _ => match r with Word n => Some (GScalar n, w) | _ => None end
    | CPtr LRef _ => match r with LvObj a => Some (GRef Lvalue a, w) | _ => None end
    | CPtr RRef _ => match r with XvObj a => Some (GRef Xvalue a, w) | _ => None end
    | CPtr _ _ => match r with Word a => Some (GAddr a, w) | _ => None end
    | CFun true => match r with LvObj a | XvObj a => Some (GFun a, w) | _ => None end
    | CFun false => match r with Word a => Some (GAddr a, w) | _ => None end
    | CExist x =>
        if same_abi x then match r with Word n => Some (GScalar n, w) | _ => None end
        else init_object true true w r
    | CRec r' => init_object (movable r') (copyable r') w r
    | CBridge _ => init_object true true w r
    | CVoid | CIncomplete | CAlias _ _ => None
    end.

  Fixpoint init_all (ps : list cparam) (words : list nat) (w : world) (ts : list cty) (es : list cexpr)
    : option (list carg * world) :=
    match ts, es with
    | [], [] => Some ([], w)
    | t :: ts', e :: es' =>
        match eval ps words w e with
        | Some (r, w1) =>
            match init t w1 r with
            | Some (g, w2) =>
                match init_all ps words w2 ts' es' with
                | Some (gs, w3) => Some (g :: gs, w3)
                | None => None
                end
            | None => None
            end
        | None => None
        end
    | _, _ => None
    end.

  (** The end of an object's life; of a dead one: undefined. *)
  Definition destroy (w : world) (a : nat) : option world :=
    match objs w a with
    | Some (Obj _) | Some MovedFrom => Some (set w a None)
    | _ => None
    end.
  Fixpoint destroy_all (w : world) (l : list nat) : option world :=
    match l with
    | [] => Some w
    | a :: r => match destroy w a with Some w1 => destroy_all w1 r | None => None end
    end.
  Fixpoint objects_of (gs : list carg) : list nat :=
    match gs with
    | [] => []
    | GObj a _ :: r => a :: objects_of r
    | _ :: r => objects_of r
    end.

  (** What the C++ function returns. *)
  Inductive cres := CNothing | CWord (n : nat) | CRefTo (a : nat) | CObj (v : nat).

  (** Evaluates the object expression, the arguments, calls, ends the parameters. *)
  Definition perform (f : func) (ps : list cparam) (words : list nat) (w : world) (c : ccall)
    : option (option nat * world) :=
    let finish to ts es w :=
      match init_all ps words w ts es with
      | Some (gs, w1) =>
          match destroy_all (emit w1 (Called to gs)) (objects_of gs) with
          | Some w2 => Some w2
          | None => None
          end
      | None => None
      end in
    match c with
    | CallFree es => option_map (pair None) (finish ToFree (f_params f) es w)
    | CallOn this es =>
        match eval ps words w this with
        | Some (LvObj a, w1) =>
            option_map (pair None) (finish (ToMethod (is_virtual f) Lvalue a) (tl (f_params f)) es w1)
        | Some (XvObj a, w1) =>
            option_map (pair None) (finish (ToMethod (is_virtual f) Xvalue a) (tl (f_params f)) es w1)
        | _ => None
        end
    | CallConstructAt (EDeref (EVar 0) :: es) | CallConstructAt (EVar 0 :: es) =>
        (* construct_at takes the pointer (rs_bindings_support: its address for a reference) *)
        match nth_error words 0 with
        | Some a => option_map (pair (Some a)) (finish (ToConstructor a) (tl (f_params f)) es w)
        | None => None
        end
    | CallDestroyAt [EDeref (EVar 0)] | CallDestroyAt [EVar 0] =>
        match nth_error words 0 with
        | Some a => option_map (pair None) (finish (ToDestructor a) [] [] w)
        | None => None
        end
    | _ => None
    end.

  (** The C++ thunk: gets its words, calls, and hands the result over. [built]: where a
      constructor made the object. *)
  Definition run_cc_thunk (f : func) (th : cthunk) (out : option nat) (words : list nat) (result : cres)
      (w : world) : option (option nat * world) :=
    match perform f (ct_params th) words w (ct_call th) with
    | None => None
    | Some (Some a, w1) =>
        match result with CObj v => Some (None, set w1 a (Some (Obj v))) | _ => None end
    | Some (None, w1) =>
        match ct_return th, out, result with
        | RetVoid, None, CNothing => Some (None, w1)
        | RetPlain, None, CWord n =>
            if spelled_reference (f_ret f) then None else Some (Some n, w1)
        | RetPlain, None, CRefTo a =>
            if spelled_reference (f_ret f) then Some (Some a, w1) else None
        | RetAddressof, None, CRefTo a => Some (Some a, w1)
        | RetNamedAddress, None, CRefTo a => Some (Some a, w1)
        | RetNew, Some a, CObj v => Some (None, set w1 a (Some (Obj v)))
        | RetEncode, Some a, CObj v => Some (None, set w1 a (Some (Encoded v)))
        | _, _, _ => None
        end
    end.

  (** Without a thunk: the function itself gets the words, by the C++ ABI. *)
  Definition abi_arg (t : cty) (n : nat) : option carg :=
    match unalias t with
    | CPrim _ | CEnum _ => Some (GScalar n)
    | CPtr LRef _ => Some (GRef Lvalue n)
    | CPtr RRef _ => Some (GRef Xvalue n)
    | CPtr _ _ => Some (GAddr n)
    | CFun true => Some (GFun n)
    | CFun false => Some (GAddr n)
    | CExist x => if same_abi x then Some (GScalar n) else None
    | _ => None
    end.
  Fixpoint abi_args (ts : list cty) (words : list nat) : option (list carg) :=
    match ts, words with
    | [], [] => Some []
    | t :: ts', n :: ws => 
        match abi_arg t n, abi_args ts' ws with Some g, Some gs => Some (g :: gs) | _, _ => None end
    | _, _ => None
    end.
  Definition run_direct (f : func) (words : list nat) (result : cres) (w : world)
    : option (option nat * world) :=
    match f_kind f with
    | Free =>
        match abi_args (f_params f) words with
        | Some gs =>
            let w1 := emit w (Called ToFree gs) in
            match result with
            | CNothing => Some (None, w1)
            | CWord n | CRefTo n => Some (Some n, w1)
            | CObj _ => None
            end
        | None => None
        end
    | Method q _ =>
        match words with
        | a :: ws =>
            match abi_args (tl (f_params f)) ws with
            | Some gs =>
                (* the symbol of this very method: no dynamic dispatch *)
                let w1 := emit w (Called (ToMethod false (match q with RQual => Xvalue | _ => Lvalue end) a) gs) in
                match result with
                | CNothing => Some (None, w1)
                | CWord n | CRefTo n => Some (Some n, w1)
                | CObj _ => None
                end
            | None => None
            end
        | [] => None
        end
    | Constructor =>
        match words with
        | a :: ws =>
            match abi_args (tl (f_params f)) ws, result with
            | Some gs, CObj v => Some (None, set (emit w (Called (ToConstructor a) gs)) a (Some (Obj v)))
            | _, _ => None
            end
        | [] => None
        end
    | Destructor =>
        match words, result with
        | [a], CNothing => Some (None, emit w (Called (ToDestructor a) []))
        | _, _ => None
        end
    end.

  (** ** The Rust side *)

  (** A Rust argument: a scalar, pointer or reference; or an owned value (for [CtorConv]: an
      [impl Ctor] that makes it).  A Rust result likewise. *)
  Inductive rarg := AWord (n : nat) | AOwn (v : nat).
  Inductive rres := RUnit | RWord (n : nat) | ROwn (v : nat).

  (** generate_function.rs:2893-2949 (function_signature): what the body passes for an argument,
      and the locals it drops at the end. *)
  Definition thunk_arg (t : cty) (x : rarg) (w : world) : option (nat * list nat * world) :=
    match passing_convention t, x with
    | AbiCompatible, AWord n => Some (n, [], w)
    | OwnedPtr, AWord n => Some (n, [], w)
    | LayoutCompatible, AOwn v => let (a, w1) := alloc w (Some (Obj v)) in Some (a, [a], w1)
    | CtorConv, AOwn v => let (a, w1) := alloc w (Some (Obj v)) in Some (a, [a], w1)
    | ComposablyBridged, AOwn v => let (a, w1) := alloc w (Some (Encoded v)) in Some (a, [], w1)
    | _, _ => None
    end.
  Fixpoint thunk_args (ts : list cty) (xs : list rarg) (w : world) : option (list nat * list nat * world) :=
    match ts, xs with
    | [], [] => Some ([], [], w)
    | t :: ts', x :: xs' =>
        match thunk_arg t x w with
        | Some (n, d, w1) =>
            match thunk_args ts' xs' w1 with
            | Some (ns, ds, w2) => Some (n :: ns, d ++ ds, w2)
            | None => None
            end
        | None => None
        end
    | _, _ => None
    end.

  Definition invoke (f : func) (out : option nat) (words : list nat) (result : cres) (w : world)
    : option (option nat * world) :=
    if can_skip_cc_thunk f then run_direct f words result w
    else match generate_cc_thunk f with
         | Some th => run_cc_thunk f th out words result w
         | None => None
         end.

  (** [MaybeUninit::assume_init], decoding the return buffer. *)
  Definition take_object (w : world) (a : nat) : option (nat * world) :=
    match objs w a with Some (Obj v) => Some (v, set w a None) | _ => None end.
  Definition take_encoded (w : world) (a : nat) : option (nat * world) :=
    match objs w a with Some (Encoded v) => Some (v, set w a None) | _ => None end.

  (** generate_function.rs:1568-1660 (generate_func_body).  For [CtorConv] results this is the
      body of the [FnCtor], run when it is emplaced; the slot is then the caller's.
      For constructors the arguments come without [__this]. *)
  Definition rust_call (f : func) (xs : list rarg) (result : cres) (w : world) : option (rres * world) :=
    match f_kind f with
    | Constructor =>
        let (slot, w0) := alloc w None in
        match thunk_args (tl (f_params f)) xs w0 with
        | Some (words, drops, w1) =>
            match invoke f None (slot :: words) result w1 with
            | Some (None, w2) =>
                match take_object w2 slot with
                | Some (v, w3) => option_map (pair (ROwn v)) (destroy_all w3 drops)
                | None => None
                end
            | _ => None
            end
        | None => None
        end
    | _ =>
        match passing_convention (f_ret f) with
        | AbiCompatible | OwnedPtr =>
            match thunk_args (f_params f) xs w with
            | Some (words, drops, w1) =>
                match invoke f None words result w1 with
                | Some (Some n, w2) => option_map (pair (RWord n)) (destroy_all w2 drops)
                | _ => None
                end
            | None => None
            end
        | VoidConv =>
            match thunk_args (f_params f) xs w with
            | Some (words, drops, w1) =>
                match invoke f None words result w1 with
                | Some (None, w2) => option_map (pair RUnit) (destroy_all w2 drops)
                | _ => None
                end
            | None => None
            end
        | LayoutCompatible | CtorConv =>
            let (slot, w0) := alloc w None in
            match thunk_args (f_params f) xs w0 with
            | Some (words, drops, w1) =>
                match invoke f (Some slot) words result w1 with
                | Some (None, w2) =>
                    match take_object w2 slot with
                    | Some (v, w3) => option_map (pair (ROwn v)) (destroy_all w3 drops)
                    | None => None
                    end
                | _ => None
                end
            | None => None
            end
        | ComposablyBridged =>
            let (slot, w0) := alloc w None in
            match thunk_args (f_params f) xs w0 with
            | Some (words, drops, w1) =>
                match invoke f (Some slot) words result w1 with
                | Some (None, w2) =>
                    match take_encoded w2 slot with
                    | Some (v, w3) => option_map (pair (ROwn v)) (destroy_all w3 drops)
                    | None => None
                    end
                | _ => None
                end
            | None => None
            end
        end
    end.
End Env.

(** ** Accessors without a thunk *)

(** A class: its direct bases with their offsets, and its fields: number, offset, size, alignment
    of the (primitive) type — all in bytes; packed classes may misalign fields. *)
Record field := Field { fd_id : nat; fd_offset : nat; fd_size : nat; fd_align : nat }.
Inductive class := Class (bases : list (nat * class)) (fields : list field).

Definition class_fields (c : class) : list field := match c with Class _ fs => fs end.
Definition class_bases (c : class) : list (nat * class) := match c with Class bs _ => bs end.

(** The body of a method, as far as GetMemberFuncSemantic looks: [return field;], [field = param;]
    where the field is found by the path through the bases (indices), or anything else. *)
Inductive mbody := ReturnsField (path : list nat) (i : nat) | AssignsField (path : list nat) (i : nat) | OtherBody.

(** The class that declares the field: MemberExpr::getMemberDecl()->getParent(). *)
Fixpoint declaring (c : class) (path : list nat) : option class :=
  match path with
  | [] => Some c
  | k :: r =>
      match nth_error (class_bases c) k with
      | Some (_, b) => declaring b r
      | None => None
      end
  end.

(** function.cc:273-311, 313-446: the offset recorded for a getter or setter: that of the field in
    the class that declares it.  (Bit fields, type conversions: refused.)  Nothing asks whether the
    method is virtual. *)
Definition accessor_offset (c : class) (b : mbody) : option field :=
  match b with
  | ReturnsField p i | AssignsField p i =>
      match declaring c p with
      | Some d => nth_error (class_fields d) i
      | None => None
      end
  | OtherBody => None
  end.

Definition get_member_func_semantic (is_virtual : bool) (c : class) (b : mbody) : option field :=
  accessor_offset c b.

Inductive access (A : Type) := Fine (x : A) | Misaligned.
Arguments Fine {A} _.
Arguments Misaligned {A}.

(** Memory, by bytes. *)
Definition read_bytes (m : nat -> nat) (a n : nat) : list nat := map m (seq a n).
Fixpoint write_bytes (m : nat -> nat) (a : nat) (l : list nat) : nat -> nat :=
  match l with
  | [] => m
  | x :: r => write_bytes (fun b => if Nat.eqb b a then x else m b) (S a) r
  end.

(** generate_function.rs:1519-1566: reading (writing) [self + offset / 8]; dereferencing a
    misaligned pointer is undefined. *)
Definition direct_get (m : nat -> nat) (self : nat) (fd : field) : access (list nat) :=
  if Nat.eqb ((self + fd_offset fd) mod fd_align fd) 0
  then Fine (read_bytes m (self + fd_offset fd) (fd_size fd))
  else Misaligned.
Definition direct_set (m : nat -> nat) (self : nat) (fd : field) (v : list nat) : access (nat -> nat) :=
  if Nat.eqb ((self + fd_offset fd) mod fd_align fd) 0
  then Fine (write_bytes m (self + fd_offset fd) v)
  else Misaligned.
