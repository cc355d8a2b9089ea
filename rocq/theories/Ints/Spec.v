(** What C++ says about its integer types, independently of the generator, and what "lossless" means. *)
From Coq Require Import ZArith List Bool.
From Verif Require Import Ints.Model.
Import ListNotations.
Local Open Scope Z_scope.

(** * C++ *)
(** Width of the C++ type that corresponds to an ffi_11 integer type: [sizeof * 8] of clang's targets. *)
Definition cpp_long (p : platform) : Z := match p with LP64 | LP64_long_long => 64 | _ => 32 end.
Definition cpp_wchar (p : platform) : Z := match p with LLP64 | ILP32_windows => 16 | _ => 32 end.
Definition c_bits (p : platform) (c : c_type) : option Z :=
  match c with
  | CVoid | CNullptr | CFloat | CDouble => None
  | CChar | CSchar | CUchar | CChar8 => Some 8
  | CShort | CUshort | CChar16 => Some 16
  | CInt | CUint | CChar32 => Some 32
  | CLong | CUlong => Some (cpp_long p)
  | CLonglong | CUlonglong => Some 64
  | CWchar => Some (cpp_wchar p)
  end.
(** [cs], [ws]: whether char and wchar_t are signed; both depend on the target and on flags. *)
Definition c_signed (cs ws : bool) (c : c_type) : bool :=
  match c with CChar => cs | CWchar => ws | CSchar | CShort | CInt | CLong | CLonglong => true | _ => false end.

(** Which type [intN_t] ([uintN_t]) is. *)
Definition stdint (p : platform) (i : int) : option c_type :=
  match sgn i, bits i with
  | true, 8 => Some CSchar | false, 8 => Some CUchar
  | true, 16 => Some CShort | false, 16 => Some CUshort
  | true, 32 => Some CInt | false, 32 => Some CUint
  | true, 64 => Some (match p with LP64 => CLong | _ => CLonglong end)
  | false, 64 => Some (match p with LP64 => CUlong | _ => CUlonglong end)
  | _, _ => None
  end.

(** Mangling of the type in the Itanium ABI, which is what CFI compares. *)
Definition itanium (c : c_type) : option mangled :=
  match c with
  | CChar => Some M_c | CWchar => Some M_w | CLong => Some M_l | CUlong => Some M_m | CLonglong => Some M_x | CUlonglong => Some M_y
  | CChar8 => Some M_Du | CChar16 => Some M_Ds | CChar32 => Some M_Di | CNullptr => Some M_Dn | _ => None
  end.

(** The number an object of [n] bits stands for. *)
Definition number (signed : bool) (n : Z) (pattern : Z) : Z :=
  if signed && (2 ^ (n - 1) <=? pattern) then pattern - 2 ^ n else pattern.

(** Primitive types of constants: width (as clang's [getIntWidth]) and signedness. *)
Definition cpp_bits (p : platform) (x : primitive) : Z :=
  match x with
  | PBool => 1 | PChar | PSchar | PUchar => 8 | PShort | PUshort | PChar16 => 16 | PInt | PUint | PChar32 => 32
  | PLong | PUlong => cpp_long p | PLonglong | PUlonglong => 64 | PInt128 | PUint128 => 128
  | PPtrdiff | PIntptr | PSize | PUintptr => match p with ILP32 | ILP32_windows => 32 | _ => 64 end
  | PFixed i => bits i
  end.
Definition cpp_signed (cs : bool) (x : primitive) : bool :=
  match x with
  | PChar => cs
  | PSchar | PShort | PInt | PLong | PLonglong | PInt128 | PPtrdiff | PIntptr => true
  | PFixed i => sgn i
  | _ => false
  end.
Definition exists_type (x : primitive) : Prop := match x with PFixed i => In (bits i) [8; 16; 32; 64] | _ => True end.
(** The values of the type. *)
Definition cpp_value (p : platform) (cs : bool) (x : primitive) (v : Z) : Prop :=
  let n := cpp_bits p x in
  if cpp_signed cs x then - 2 ^ (n - 1) <= v < 2 ^ (n - 1) else 0 <= v < 2 ^ n.

(** * Lossless conversions *)
(** The integers a type can hold exactly; all of them, for a float, up to the number of bits of its significand. *)
Definition holds (p : platform) (t : rust_type) (v : Z) : Prop :=
  match t with
  | B (Fixed i) | N _ i => in_range i v
  | B Isize => in_range (Int true (word p)) v
  | B Usize => in_range (Int false (word p)) v
  | B F32 => - 2 ^ 24 <= v <= 2 ^ 24
  | B F64 => - 2 ^ 53 <= v <= 2 ^ 53
  | B BoolT => v = 0 \/ v = 1
  | B VoidT | NullptrT => False
  end.
Definition lossless (p : platform) (a b : rust_type) : Prop := forall v, holds p a v -> holds p b v.

(** A type of Rust or of ffi_11 on this platform. *)
Definition known (p : platform) (t : rust_type) : Prop :=
  (exists c, t = ffi p c) \/ (exists i, t = B (Fixed i) /\ In (bits i) [8; 16; 32; 64; 128]) \/ t = B Isize \/ t = B Usize \/ t = B BoolT.
