(** Model of integer constants and of the integer types of ffi_11.  Files in /repo: rs_bindings_from_cc/ir.h (IntegerConstant),
    ir.cc, ir.rs; rs_bindings_from_cc/generate_bindings/database/code_snippet.rs (cs.rs) and rs_snippet.rs (rs.rs);
    support/ffi_11/src/lib.rs (ffi.rs) and newtype.rs (nt.rs).

    Not modelled: atomics, floating point arithmetic, Debug and Display, arithmetic on newtypes (it is that of the wrapped type). *)
From Coq Require Import ZArith List Bool.
Import ListNotations.
Local Open Scope Z_scope.

(** * Rust's own types *)

(** A primitive integer type: signed, bits. *)
Record int := Int { sgn : bool; bits : Z }.
Definition low (i : int) : Z := if sgn i then - 2 ^ (bits i - 1) else 0.
Definition high (i : int) : Z := if sgn i then 2 ^ (bits i - 1) else 2 ^ bits i.
Definition in_range (i : int) (v : Z) : Prop := low i <= v < high i.
Definition in_rangeb (i : int) (v : Z) : bool := (low i <=? v) && (v <? high i).

Inductive builtin := Fixed (i : int) | Isize | Usize | F32 | F64 | BoolT | VoidT.

(** Targets that ffi.rs:277-412 tells apart (all else is a compile error). *)
Inductive platform := LP64 | LP64_long_long | LLP64 | ILP32 | ILP32_windows.
Definition word (p : platform) : Z := match p with ILP32 | ILP32_windows => 32 | _ => 64 end.
Definition int_of (p : platform) (b : builtin) : option int :=
  match b with Fixed i => Some i | Isize => Some (Int true (word p)) | Usize => Some (Int false (word p)) | _ => None end.

Definition i8 := Int true 8. Definition u8 := Int false 8. Definition i16 := Int true 16. Definition u16 := Int false 16.
Definition i32 := Int true 32. Definition u32 := Int false 32. Definition i64 := Int true 64. Definition u64 := Int false 64.
Definition i128 := Int true 128. Definition u128 := Int false 128.

(** * ffi_11 *)

Inductive c_type := CVoid | CNullptr | CFloat | CDouble | CChar | CSchar | CUchar | CShort | CUshort | CInt | CUint | CLong | CUlong
                  | CLonglong | CUlonglong | CChar8 | CChar16 | CChar32 | CWchar.

(** A Rust type: a builtin one, or one defined by ffi_11 around a builtin one ([c_nullptr_t] is around a pointer). *)
Inductive rust_type := B (b : builtin) | N (c : c_type) (i : int) | NullptrT.

(** ffi.rs:98-518. *)
Definition ffi (p : platform) (c : c_type) : rust_type :=
  match c with
  | CVoid => B VoidT                                                                     (* :98 *)
  | CNullptr => NullptrT                                                                 (* :432-435 *)
  | CFloat => B F32 | CDouble => B F64                                                   (* :111-118 *)
  | CChar => N CChar u8                                                                  (* :126-132 *)
  | CSchar => B (Fixed i8) | CUchar => B (Fixed u8)                                      (* :239-250 *)
  | CShort => B (Fixed i16) | CUshort => B (Fixed u16)                                   (* :252-263 *)
  | CInt => B (Fixed i32) | CUint => B (Fixed u32)                                       (* :265-276 *)
  | CLong => match p with LP64 => B (Fixed i64) | LP64_long_long => N CLong i64 | LLP64 => N CLong i32 | ILP32 | ILP32_windows => N CLong i32 end
  | CUlong => match p with LP64 => B (Fixed u64) | LP64_long_long => N CUlong u64 | LLP64 => N CUlong u32 | ILP32 | ILP32_windows => N CUlong u32 end
  | CLonglong => match p with LP64 => N CLonglong i64 | _ => B (Fixed i64) end
  | CUlonglong => match p with LP64 => N CUlonglong u64 | _ => B (Fixed u64) end
  | CChar8 => N CChar8 u8 | CChar16 => N CChar16 u16 | CChar32 => N CChar32 u32          (* :448-465 *)
  | CWchar => match p with LLP64 | ILP32_windows => N CWchar u16 | _ => N CWchar u32 end                 (* :477-518 *)
  end.
(** The [cfi_encoding] of those that are newtypes. *)
Inductive mangled := M_c | M_l | M_m | M_x | M_y | M_Dn | M_Du | M_Ds | M_Di | M_w.
Definition cfi_encoding (c : c_type) : option mangled :=
  match c with
  | CChar => Some M_c | CLong => Some M_l | CUlong => Some M_m | CLonglong => Some M_x | CUlonglong => Some M_y
  | CNullptr => Some M_Dn | CChar8 => Some M_Du | CChar16 => Some M_Ds | CChar32 => Some M_Di | CWchar => Some M_w
  | _ => None
  end.

(** [impl From<a> for b] of core, for integers and floats (core::convert::num; the standard library documents them as lossless
    and does not depend on the width of usize). *)
Definition core_from (a b : builtin) : bool :=
  match a, b with
  | Fixed i, Fixed j => match sgn i, sgn j with
                        | true, true | false, false => bits i <=? bits j
                        | false, true => bits i <? bits j
                        | true, false => false
                        end
  | Fixed i, Usize => negb (sgn i) && (bits i <=? 16)
  | Fixed i, Isize => if sgn i then bits i <=? 16 else bits i <=? 8
  | Fixed i, F32 => bits i <=? 16
  | Fixed i, F64 => bits i <=? 32
  | F32, F64 => true
  | BoolT, Fixed _ | BoolT, Usize | BoolT, Isize => true
  | Usize, Usize | Isize, Isize | F32, F32 | F64, F64 | BoolT, BoolT => true
  | _, _ => false
  end.

(** nt.rs:225-335 [new_integer!(@__from ..)]: the builtin types a newtype around [i] converts to, and from. *)
Definition to_builtin (i : int) : list builtin :=
  match sgn i, bits i with
  | false, 8 => [Fixed u8; Fixed i16; Fixed u16; Fixed i32; Fixed u32; Fixed i64; Fixed u64; Fixed i128; Fixed u128; Usize; F32; F64]
  | false, 16 => [Fixed u16; Fixed i32; Fixed u32; Fixed i64; Fixed u64; Fixed i128; Fixed u128; Usize; F32; F64]
  | true, 32 => [Fixed i32; Fixed i64; Fixed i128; F64]
  | false, 32 => [Fixed u32; Fixed i64; Fixed u64; Fixed i128; Fixed u128; F64]
  | true, 64 => [Fixed i64; Fixed i128]
  | false, 64 => [Fixed u64; Fixed u128]
  | _, _ => []
  end.
Definition from_builtin (i : int) : list builtin :=
  match sgn i, bits i with
  | false, 8 => [Fixed u8]
  | false, 16 => [Fixed u8; Fixed u16]
  | true, 32 => [Fixed u8; Fixed i8; Fixed u16; Fixed i16; Fixed i32]
  | false, 32 => [Fixed u8; Fixed u16; Fixed u32]
  | true, 64 => [Fixed u8; Fixed i8; Fixed i16; Fixed i32; Fixed i64]
  | false, 64 => [Fixed u8; Fixed u16; Fixed u32; Fixed u64]
  | _, _ => []
  end.
(** [wrapped_to_wrapped!]: ffi.rs:359-364, 467-475, 486-493, 506-513. *)
Definition newtype_from (p : platform) : list (c_type * c_type) :=
  [(CChar, CChar8); (CChar, CChar16); (CChar, CChar32); (CChar8, CChar16); (CChar8, CChar32); (CChar16, CChar32)]
  ++ match p with
     | LLP64 => [(CChar, CLong); (CChar, CUlong); (CUlong, CChar32);
                 (CChar, CWchar); (CChar8, CWchar); (CChar16, CWchar); (CWchar, CChar16); (CWchar, CChar32)]
     | ILP32_windows => [(CChar, CWchar); (CChar8, CWchar); (CChar16, CWchar); (CWchar, CChar16); (CWchar, CChar32)]
     | _ => [(CChar, CWchar); (CChar8, CWchar); (CChar16, CWchar); (CChar32, CWchar); (CWchar, CChar32)]
     end.

(** How a conversion is implemented. *)
Inductive impl := Core (a b : builtin)   (* [x.into()] on the wrapped values: the same number *)
               | Reinterpret.            (* [as], between i8 and u8: ffi.rs:217-229 *)
Definition builtin_eq (a b : builtin) : bool :=
  match a, b with
  | Fixed i, Fixed j => Bool.eqb (sgn i) (sgn j) && (bits i =? bits j)
  | Isize, Isize | Usize, Usize | F32, F32 | F64, F64 | BoolT, BoolT | VoidT, VoidT => true
  | _, _ => false
  end.
Definition c_type_eq : forall a b : c_type, {a = b} + {a <> b}. Proof. decide equality. Defined.
Definition conversion (p : platform) (a b : rust_type) : option impl :=
  match a, b with
  | B x, B y => if core_from x y then Some (Core x y) else None
  | N CChar _, B (Fixed (Int true 8)) => Some Reinterpret
  | B (Fixed (Int true 8)), N CChar _ => Some Reinterpret
  | N _ i, B y => if existsb (builtin_eq y) (to_builtin i) then Some (Core (Fixed i) y) else None
  | B x, N _ j => if existsb (builtin_eq x) (from_builtin j) then Some (Core x (Fixed j)) else None
  | N c i, N d j =>
      if c_type_eq c d then Some (Core (Fixed i) (Fixed i))                               (* reflexive [impl From<T> for T] *)
      else if existsb (fun q => (if c_type_eq (fst q) c then true else false) && (if c_type_eq (snd q) d then true else false)) (newtype_from p)
           then Some (Core (Fixed i) (Fixed j)) else None
  | _, _ => None
  end.
(** The value it makes of an integer. *)
Definition convert (im : impl) (b : rust_type) (v : Z) : Z :=
  match im with
  | Core _ _ => v
  | Reinterpret => match b with N _ _ => v mod 256 | _ => if v <? 128 then v else v - 256 end
  end.

(** * Constants *)

(** ir.rs:599-644, without the [std::] duplicates, void and floats. *)
Inductive primitive := PBool | PChar | PSchar | PUchar | PShort | PInt | PLong | PLonglong | PInt128 | PUshort | PUint | PUlong
                     | PUlonglong | PUint128 | PChar16 | PChar32 | PPtrdiff | PIntptr | PSize | PUintptr
                     | PFixed (i : int).   (* intN_t, uintN_t *)

(** ir.h:277-307 [IntegerConstant::FromAPValue] of an APSInt of [w] bits that stands for [v].
    [APInt::getSignificantBits] is the least number of bits that can hold the number as a signed one, whatever the signedness
    of the APSInt.  [getZExtValue] of more than 64 active bits gives the low ones (and fails an assertion in LLVM if those are
    enabled).  The result: is_negative, wrapped_value; through the proto and back (ir.cc:123-126, ir.rs:865-870) nothing is lost. *)
Definition as_signed (w v : Z) : Z := if v <? 2 ^ (w - 1) then v else v - 2 ^ w.
Definition fits_64 (s : Z) : bool := (- 2 ^ 63 <=? s) && (s <? 2 ^ 63).
Definition from_ap (signed : bool) (w v : Z) : option (bool * Z) :=
  if fits_64 (if signed then v else as_signed w v) then Some (v <? 0, v mod 2 ^ 64) else None.

(** rs.rs:2293-2330 [PrimitiveName::from_primitive]. *)
Inductive prim_name := Native (b : builtin) | Ffi11 (c : c_type).
Definition primitive_name (x : primitive) : prim_name :=
  match x with
  | PBool => Native BoolT | PChar => Ffi11 CChar | PSchar => Ffi11 CSchar | PUchar => Ffi11 CUchar | PShort => Ffi11 CShort
  | PInt => Ffi11 CInt | PLong => Ffi11 CLong | PLonglong => Ffi11 CLonglong | PInt128 => Native (Fixed i128)
  | PUshort => Ffi11 CUshort | PUint => Ffi11 CUint | PUlong => Ffi11 CUlong | PUlonglong => Ffi11 CUlonglong
  | PUint128 => Native (Fixed u128) | PPtrdiff | PIntptr => Native Isize | PSize | PUintptr => Native Usize
  | PChar16 => Native (Fixed u16) | PChar32 => Native (Fixed u32) | PFixed i => Native (Fixed i)
  end.
Definition rust_type_of (p : platform) (x : primitive) : rust_type :=
  match primitive_name x with Native b => B b | Ffi11 c => ffi p c end.

(** cs.rs:462-504 [integer_constant_to_token_stream]: the expression. *)
Inductive expr := EBool (b : bool) | ELit (z : Z) | ECastU8 (e : expr) | ENew (c : c_type) (e : expr).
Definition as_i64 (w : Z) : Z := if w <? 2 ^ 63 then w else w - 2 ^ 64.
Definition token_stream (x : primitive) (k : bool * Z) : expr :=
  let '(is_negative, wrapped) := k in
  match x with
  | PBool => EBool (negb (wrapped =? 0))
  | _ =>
      let value := ELit (if is_negative then as_i64 wrapped else wrapped) in
      let value := match x with PChar => ECastU8 value | _ => value end in
      match primitive_name x with Native _ => value | Ffi11 c => ENew c value end
  end.

(** What rustc makes of the expression where a [t] is expected: the number ([true] is 1); [None] is an error.  A literal has the
    expected type, in [e as u8] too (and there the literal is a u8, so that [-] cannot be applied: E0600); a literal out of range
    is an error (overflowing_literals). *)
Fixpoint rustc (p : platform) (t : rust_type) (e : expr) : option Z :=
  match e with
  | EBool b => match t with B BoolT => Some (if b then 1 else 0) | _ => None end
  | ELit z => match t with
              | B b => match int_of p b with Some i => if in_rangeb i z then Some z else None | None => None end
              | _ => None
              end
  | ECastU8 e => match t with B (Fixed (Int false 8)) => rustc p (B (Fixed u8)) e | _ => None end
  | ENew c e => match t, ffi p c with                                                    (* nt.rs:60, ffi.rs:112-370 *)
                | N d i, N d' _ => if c_type_eq d d' then rustc p (B (Fixed i)) e else None
                | B b, B b' => if builtin_eq b b' then rustc p (B b) e else None
                | _, _ => None
                end
  end.

(** The constant of type [x] with the value [v] in C++: its value in Rust.  [Some None]: reported as unsupported; [None]: an error
    in the generated code. *)
Definition constant (p : platform) (x : primitive) (signed : bool) (w v : Z) : option (option Z) :=
  match from_ap signed w v with
  | None => Some None
  | Some k => match rustc p (rust_type_of p x) (token_stream x k) with Some r => Some (Some r) | None => None end
  end.
