(** Specification for the thunks: what the C++ value of a parameter means in Rust, what a call leaves in the parameter, and what
    a returned Rust value is in C++.  Nothing here mentions thunks, pointers or memory. *)
From Coq Require Import List Arith ZArith Bool String Ascii.
From Verif Require Import Thunk.Model.
Import ListNotations.
Local Open Scope list_scope.

(** Whether the C++ type for [t] in a function signature is [std::tuple]: the unit type always, other tuples unless layout
    compatible tuples are switched on. *)
Definition is_std_tuple (cfg : config) (t : ty) : option (list ty) :=
  match t with
  | Tuple [] => Some []
  | Tuple ts => if layout_compat_tuple cfg then None else Some ts
  | _ => None
  end.

Section Values.
Variable cfg : config.
Variables cpp_to_rust rust_to_cpp : nat -> rval -> rval.

(** The Rust value for a C++ value of type [t]: the user's conversion function for a bridged type with conversion functions,
    elementwise for [std::tuple], the same bytes otherwise.  [None]: not a value of the type. *)
Fixpoint to_rust (t : ty) (v : cval) {struct t} : option rval :=
  match t with
  | Tuple ts =>
      match ts, layout_compat_tuple cfg, v with
      | _ :: _, true, VBits r => Some r
      | _ :: _, true, _ => None
      | _, _, VTuple vs =>
          match (fix all (ts : list ty) (vs : list cval) {struct ts} : option (list rval) :=
                   match ts, vs with
                   | [], [] => Some []
                   | e :: ts1, w :: vs1 => match to_rust e w, all ts1 vs1 with Some r, Some rs => Some (r :: rs) | _, _ => None end
                   | _, _ => None
                   end) ts vs with
          | Some rs => Some (RTuple rs)
          | None => None
          end
      | _, _, _ => None
      end
  | Adt a | Newtype a _ =>
      match bridged a, v with
      | Some (Convert _), VBits r | Some Composable, VBits r => Some (cpp_to_rust (tag a) r)
      | _, VBits r => Some r
      | _, _ => None
      end
  | _ => match v with VBits r => Some r | _ => None end
  end.

Fixpoint all_to_rust (ts : list ty) (vs : list cval) : option (list rval) :=
  match ts, vs with
  | [], [] => Some []
  | t :: ts1, v :: vs1 => match to_rust t v, all_to_rust ts1 vs1 with Some r, Some rs => Some (r :: rs) | _, _ => None end
  | _, _ => None
  end.

(** What is left in a parameter object: an object is moved from if Rust takes over something that must be dropped; the
    elements of a [std::tuple] one by one.  Copied instead, and so left as they were: types passed in registers (these include
    bridged C++ pointers), and arrays (of which only the bytes are taken: see C75). *)
Fixpoint leaves (t : ty) (v : cval) {struct t} : cval :=
  match t with
  | Tuple ts =>
      match ts, layout_compat_tuple cfg, v with
      | [], _, _ => v
      | _, true, _ => if existsb needs_drop ts then VMoved else v
      | _, false, VTuple vs =>
          VTuple ((fix all (ts : list ty) (vs : list cval) {struct ts} : list cval :=
                     match ts, vs with e :: ts1, w :: vs1 => leaves e w :: all ts1 vs1 | _, _ => [] end) ts vs)
      | _, false, _ => v
      end
  | Adt a | Newtype a _ =>
      match bridged a with
      | Some (Transmute true) | Some (Convert true) => v
      | Some Composable => VMoved
      | Some _ => if drop a then VMoved else v
      | None => if by_value cfg t then v else if drop a then VMoved else v
      end
  | _ => v
  end.
Fixpoint all_leaves (ts : list ty) (vs : list cval) : list cval :=
  match ts, vs with t :: ts1, v :: vs1 => leaves t v :: all_leaves ts1 vs1 | _, _ => [] end.

(** The C++ value for a returned Rust value; [None]: not a value of the type. *)
Fixpoint to_cpp (t : ty) (r : rval) {struct t} : option cval :=
  match t with
  | Tuple ts =>
      match ts, layout_compat_tuple cfg with
      | _ :: _, true => Some (VBits r)
      | _, _ =>
          match r with
          | RTuple rs =>
              match (fix all (ts : list ty) (rs : list rval) {struct ts} : option (list cval) :=
                       match ts, rs with
                       | [], [] => Some []
                       | e :: ts1, q :: rs1 => match to_cpp e q, all ts1 rs1 with Some v, Some vs => Some (v :: vs) | _, _ => None end
                       | _, _ => None
                       end) ts rs with
              | Some vs => Some (VTuple vs)
              | None => None
              end
          | _ => None
          end
      end
  | Adt a | Newtype a _ =>
      match bridged a with
      | Some (Convert _) | Some Composable => Some (VBits (rust_to_cpp (tag a) r))
      | _ => Some (VBits r)
      end
  | _ => Some (VBits r)
  end.
End Values.

(** Nesting depth of a value. *)
Fixpoint depth (v : cval) : nat :=
  match v with
  | VTuple vs => S ((fix all (vs : list cval) : nat := match vs with [] => 0 | w :: ws => Nat.max (depth w) (all ws) end) vs)
  | _ => 1
  end.
