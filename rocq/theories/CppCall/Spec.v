(** * What a Rust caller of a C++ function relies on, without reference to how thunks are made. *)
From Coq Require Import List Arith Bool.
From Verif.CppCall Require Import Model.
Import ListNotations.

(** What a type is once its aliases are resolved. *)
Inductive stands_for : cty -> cty -> Prop :=
| sf_alias a t u : stands_for t u -> stands_for (CAlias a t) u
| sf_prim p : stands_for (CPrim p) (CPrim p)
| sf_void : stands_for CVoid CVoid
| sf_ptr k t : stands_for (CPtr k t) (CPtr k t)
| sf_fun b : stands_for (CFun b) (CFun b)
| sf_rec r : stands_for (CRec r) (CRec r)
| sf_enum e : stands_for (CEnum e) (CEnum e)
| sf_exist x : stands_for (CExist x) (CExist x)
| sf_bridge b : stands_for (CBridge b) (CBridge b)
| sf_incomplete : stands_for CIncomplete CIncomplete.

(** ** The machine-level contract of a function: how each parameter and the result travel.
    A class type by value travels differently in Rust and in C++, so [ARustValue] and
    [ACppValue] never agree. *)
Inductive abi := AVoid | AInt (p : nat) | AEnum (e : nat) | AAddress | AShared (x : nat)
               | ARustValue | ACppValue.

Section Env.
  Variable unpin movable copyable same_abi : nat -> bool.

  (** C++'s own view of a type (references travel as addresses). *)
  Inductive cpp_abi : cty -> abi -> Prop :=
  | ca_void t : stands_for t CVoid -> cpp_abi t AVoid
  | ca_prim t p : stands_for t (CPrim p) -> cpp_abi t (AInt p)
  | ca_enum t e : stands_for t (CEnum e) -> cpp_abi t (AEnum e)
  | ca_ptr t k u : stands_for t (CPtr k u) -> cpp_abi t AAddress
  | ca_fun t b : stands_for t (CFun b) -> cpp_abi t AAddress
  | ca_rec t r : stands_for t (CRec r) -> cpp_abi t ACppValue
  | ca_bridge t b : stands_for t (CBridge b) -> cpp_abi t ACppValue
  | ca_shared t x : stands_for t (CExist x) -> same_abi x = true -> cpp_abi t (AShared x)
  | ca_exist t x : stands_for t (CExist x) -> same_abi x = false -> cpp_abi t ACppValue
  | ca_incomplete t : stands_for t CIncomplete -> cpp_abi t ACppValue.

  (** Rust's view of the same type. *)
  Inductive rust_abi : cty -> abi -> Prop :=
  | ra_void t : stands_for t CVoid -> rust_abi t AVoid
  | ra_prim t p : stands_for t (CPrim p) -> rust_abi t (AInt p)
  | ra_enum t e : stands_for t (CEnum e) -> rust_abi t (AEnum e)
  | ra_ptr t k u : stands_for t (CPtr k u) -> rust_abi t AAddress
  | ra_fun t b : stands_for t (CFun b) -> rust_abi t AAddress
  | ra_rec t r : stands_for t (CRec r) -> rust_abi t ARustValue
  | ra_bridge t b : stands_for t (CBridge b) -> rust_abi t ARustValue
  | ra_shared t x : stands_for t (CExist x) -> same_abi x = true -> rust_abi t (AShared x)
  | ra_exist t x : stands_for t (CExist x) -> same_abi x = false -> rust_abi t ARustValue
  | ra_incomplete t : stands_for t CIncomplete -> rust_abi t ARustValue.

  (** Parameters of the Rust declaration, of the C++ definition. *)
  Inductive rust_param : rparam -> abi -> Prop :=
  | rp_void : rust_param PVoidMut AAddress
  | rp_uchar : rust_param PUCharMut AAddress
  | rp_ucharc : rust_param PUCharConst AAddress
  | rp_mut t : rust_param (PMutRef t) AAddress
  | rp_value t a : rust_abi t a -> rust_param (PValue t) a.
  Inductive cpp_param : cparam -> abi -> Prop :=
  | cp_val t a : cpp_abi t a -> cpp_param (QVal t) a
  | cp_ptr t : cpp_param (QPtr t) AAddress
  | cp_uchar : cpp_param QUChar AAddress
  | cp_ucharc : cpp_param QConstUChar AAddress.
  Inductive rust_result : option cty -> abi -> Prop :=
  | rr_unit : rust_result None AVoid
  | rr_value t a : rust_abi t a -> rust_result (Some t) a.
  Inductive cpp_result : option cty -> abi -> Prop :=
  | cr_void : cpp_result None AVoid
  | cr_value t a : cpp_abi t a -> cpp_result (Some t) a.

  Definition agree {A B : Type} (P : A -> abi -> Prop) (Q : B -> abi -> Prop) (x : A) (y : B) : Prop :=
    exists a, P x a /\ Q y a.

  (** All the parameters of the C++ thunk: the output one first. *)
  Definition all_params (th : cthunk) : list cparam :=
    match ct_out th with Some p => p :: ct_params th | None => ct_params th end.

  (** ** Functions that reach code generation *)
  Inductive passable : cty -> Prop :=
  | pa_prim t p : stands_for t (CPrim p) -> passable t
  | pa_enum t e : stands_for t (CEnum e) -> passable t
  | pa_ptr t k u : stands_for t (CPtr k u) -> passable t
  | pa_fun t b : stands_for t (CFun b) -> passable t
  | pa_exist t x : stands_for t (CExist x) -> passable t
  | pa_bridge t b : stands_for t (CBridge b) -> passable t
  | pa_rec t r : stands_for t (CRec r) -> (unpin r = false -> movable r = true) -> passable t.

  Definition complete (t : cty) : Prop := ~ stands_for t CIncomplete.

  Definition accepted (f : func) : Prop :=
    Forall passable (f_params f) /\ complete (f_ret f) /\
    match f_kind f with
    | Free => True
    | Method _ _ => exists k t ps, f_params f = CPtr k t :: ps
    | Constructor => (exists t ps, f_params f = CPtr LRef t :: ps) /\ f_ret f = CVoid
    | Destructor => (exists t, f_params f = [CPtr LRef t]) /\ f_ret f = CVoid
    end.

  (** Two things C++ code would not do with a by-value argument it holds in a variable:
      pass a variable where [using R = T&&; f(R)] is declared; move a class whose
      move constructor is deleted. *)
  Inductive awkward : cty -> Prop :=
  | aw_rref a t u : stands_for t (CPtr RRef u) -> awkward (CAlias a t)
  | aw_unmovable t r : stands_for t (CRec r) -> movable r = false -> awkward t.

  (** ** What a call does *)

  (** The Rust argument for a parameter: an owned value for types that are values with their own
      identity; a machine word otherwise. *)
  Inductive fits_param : cty -> rarg -> Prop :=
  | fp_prim t p n : stands_for t (CPrim p) -> fits_param t (AWord n)
  | fp_enum t e n : stands_for t (CEnum e) -> fits_param t (AWord n)
  | fp_ptr t k u n : stands_for t (CPtr k u) -> fits_param t (AWord n)
  | fp_fun t b n : stands_for t (CFun b) -> fits_param t (AWord n)
  | fp_shared t x n : stands_for t (CExist x) -> same_abi x = true -> fits_param t (AWord n)
  | fp_exist t x v : stands_for t (CExist x) -> same_abi x = false -> fits_param t (AOwn v)
  | fp_bridge t b v : stands_for t (CBridge b) -> fits_param t (AOwn v)
  | fp_rec t r v : stands_for t (CRec r) -> fits_param t (AOwn v).

  (** What the C++ function must receive for it. *)
  Inductive arrives : cty -> rarg -> carg -> Prop :=
  | ar_alias a t x g : arrives t x g -> arrives (CAlias a t) x g
  | ar_prim p n : arrives (CPrim p) (AWord n) (GScalar n)
  | ar_enum e n : arrives (CEnum e) (AWord n) (GScalar n)
  | ar_lref t n : arrives (CPtr LRef t) (AWord n) (GRef Lvalue n)
  | ar_rref t n : arrives (CPtr RRef t) (AWord n) (GRef Xvalue n)
  | ar_nullable t n : arrives (CPtr Nullable t) (AWord n) (GAddr n)
  | ar_nonnull t n : arrives (CPtr NonNull t) (AWord n) (GAddr n)
  | ar_owned t n : arrives (CPtr Owned t) (AWord n) (GAddr n)
  | ar_funref n : arrives (CFun true) (AWord n) (GFun n)
  | ar_funptr n : arrives (CFun false) (AWord n) (GAddr n)
  | ar_shared x n : same_abi x = true -> arrives (CExist x) (AWord n) (GScalar n)
  | ar_exist x v b : same_abi x = false -> arrives (CExist x) (AOwn v) (GObj b v)
  | ar_bridge k v b : arrives (CBridge k) (AOwn v) (GObj b v)
  | ar_rec r v b : arrives (CRec r) (AOwn v) (GObj b v).

  Inductive all_arrive : list cty -> list rarg -> list carg -> Prop :=
  | aa_nil : all_arrive [] [] []
  | aa_cons t ts x xs g gs :
      arrives t x g -> all_arrive ts xs gs -> all_arrive (t :: ts) (x :: xs) (g :: gs).

  (** What the C++ function returned, what the Rust caller gets. *)
  Inductive returns : cty -> cres -> rres -> Prop :=
  | re_alias a t c r : returns t c r -> returns (CAlias a t) c r
  | re_void : returns CVoid CNothing RUnit
  | re_prim p n : returns (CPrim p) (CWord n) (RWord n)
  | re_enum e n : returns (CEnum e) (CWord n) (RWord n)
  | re_lref t n : returns (CPtr LRef t) (CRefTo n) (RWord n)
  | re_rref t n : returns (CPtr RRef t) (CRefTo n) (RWord n)
  | re_nullable t n : returns (CPtr Nullable t) (CWord n) (RWord n)
  | re_nonnull t n : returns (CPtr NonNull t) (CWord n) (RWord n)
  | re_owned t n : returns (CPtr Owned t) (CWord n) (RWord n)
  | re_funref n : returns (CFun true) (CRefTo n) (RWord n)
  | re_funptr n : returns (CFun false) (CWord n) (RWord n)
  | re_shared x n : same_abi x = true -> returns (CExist x) (CWord n) (RWord n)
  | re_exist x v : same_abi x = false -> returns (CExist x) (CObj v) (ROwn v)
  | re_bridge b v : returns (CBridge b) (CObj v) (ROwn v)
  | re_rec r v : returns (CRec r) (CObj v) (ROwn v).

  (** One call of [f] with these Rust arguments: who is called, and with what. *)
  Inductive correct_call (f : func) (w : world) : list rarg -> event -> Prop :=
  | cc_free xs gs :
      f_kind f = Free -> all_arrive (f_params f) xs gs -> correct_call f w xs (Called ToFree gs)
  | cc_method q v a xs gs c :
      f_kind f = Method q v ->
      (q = RQual -> c = Xvalue) -> (q <> RQual -> c = Lvalue) ->
      all_arrive (tl (f_params f)) xs gs ->
      correct_call f w (AWord a :: xs) (Called (ToMethod v c a) gs)
  | cc_constructor a xs gs :
      f_kind f = Constructor -> objs w a = None -> all_arrive (tl (f_params f)) xs gs ->
      correct_call f w xs (Called (ToConstructor a) gs)
  | cc_destructor a :
      f_kind f = Destructor -> correct_call f w [AWord a] (Called (ToDestructor a) []).

  (** The Rust arguments of [f]: a constructor's callers pass no [this]. *)
  Definition rust_params (f : func) : list cty :=
    match f_kind f with Constructor => tl (f_params f) | _ => f_params f end.

  (** A constructor returns the object it made. *)
  Definition call_returns (f : func) (c : cres) (r : rres) : Prop :=
    match f_kind f with
    | Constructor => exists v, c = CObj v /\ r = ROwn v
    | _ => returns (f_ret f) c r
    end.
End Env.

(** Addresses that were never handed out hold nothing. *)
Definition fresh_above (w : world) : Prop := forall a, nxt w <= a -> objs w a = None.

(** ** Accessors: where C++ finds a field *)

(** The field found through bases [path], then number [i]: its declaration, its distance from the
    start of the object. *)
Inductive located : class -> list nat -> nat -> nat -> field -> Prop :=
| lo_here bs fs i fd : nth_error fs i = Some fd -> located (Class bs fs) [] i (fd_offset fd) fd
| lo_base bs fs k off b path i o fd :
    nth_error bs k = Some (off, b) -> located b path i o fd ->
    located (Class bs fs) (k :: path) i (off + o) fd.

(** The bytes of memory from an address on. *)
Definition holds (m : nat -> nat) (a : nat) (l : list nat) : Prop :=
  forall k x, nth_error l k = Some x -> m (a + k) = x.

(** Which body runs when a method is called: the final overrider of a virtual one. *)
Inductive executed {A : Type} : bool -> A -> option A -> A -> Prop :=
| ex_override own over : executed true own (Some over) over
| ex_own v own : executed v own None own
| ex_static own over : executed false own over own.
