(** * Specification for Forward: which casts are documented, what a value refers to *)
From Coq Require Import List Strings.String Ascii NArith Bool.
Import ListNotations.
From Verif Require Import Forward.Model.
Local Open Scope N_scope.
Local Open Scope list_scope.

Section Env.
  Variable E : nat -> def.
  Variable unstable : bool.

  (** The Rust type is a binding (forward declaration or definition) of C++ class [s]. *)
  Inductive binds : rty -> string -> Prop :=
  | binds_fwd s d : binds (Incomplete s d) s
  | binds_def d s : d_name (E d) = Some s -> binds (Complete d) s.

  (** Values of the type may be moved although a pinned pointer to them exists. *)
  Inductive movable : rty -> Prop :=
  | mv_complete d : d_unpin (E d) = true -> movable (Complete d)
  | mv_ptr k t : movable (Ptr k t)
  | mv_array t n : movable t -> movable (Array t n)
  | mv_slice t : movable t -> movable (Slice t)
  | mv_vec t : movable (Vec t).

  (** The forms of a C++ [const T&] / [T&] of lifetime [a]. *)
  Inductive shared_form (a : nat) : pkind -> Prop :=
  | sf_ref : shared_form a (KRef a)
  | sf_pin : shared_form a (KPinRef a)
  | sf_cref : unstable = true -> shared_form a (KCRef a).
  Inductive excl_form (a : nat) : pkind -> rty -> Prop :=
  | ef_mut t : movable t -> excl_form a (KRefMut a) t
  | ef_pin t : excl_form a (KPinMut a) t
  | ef_cmut t : unstable = true -> excl_form a (KCMut a) t.

  (** "the same type in C++" as documented in the module comment (lines 105-151,
      461-489, 535-555): same class; pointers of the same constness to the same type;
      shared references in any form with the same lifetime; exclusive ones in any form,
      unpinned only over [Unpin]; arrays of the same length; slices. *)
  Inductive same_cpp : rty -> rty -> Prop :=
  | sc_class t u s : binds t s -> binds u s -> same_cpp t u
  | sc_const t u : same_cpp t u -> same_cpp (Ptr KConst t) (Ptr KConst u)
  | sc_mut t u : same_cpp t u -> same_cpp (Ptr KMut t) (Ptr KMut u)
  | sc_shared a k k' t u :
      shared_form a k -> shared_form a k' -> same_cpp t u -> same_cpp (Ptr k t) (Ptr k' u)
  | sc_excl a k k' t u :
      excl_form a k t -> excl_form a k' u -> same_cpp t u -> same_cpp (Ptr k t) (Ptr k' u)
  | sc_array t u n : same_cpp t u -> same_cpp (Array t n) (Array u n)
  | sc_slice t u : same_cpp t u -> same_cpp (Slice t) (Slice u).

  Definition unsized (t : rty) : Prop := exists e, t = Slice e.

  (** The documented casts of values. *)
  Definition documented_cast (t u : rty) : Prop :=
    (~ unsized t /\ ~ unsized u /\ same_cpp t u) \/
    (exists a t' u', t = Vec (Ptr (KRef a) t') /\ u = Vec (Ptr (KRef a) u') /\ same_cpp t' u').

  (** ** What the bytes at an address refer to *)
  (** Everything reachable by typed reads from a place: which class's object is at
      which address, through which pointers.  Every node carries its own address. *)
  Inductive view :=
  | VObject (class : option string) (at_ : N)
  | VPointer (at_ : N) (target : view)
  | VSequence (at_ : N) (elements : list view)   (* fat pointer, or the Vec's buffer *)
  | VArray (at_ : N) (elements : list view)
  | VNothing (at_ : N).

  Definition indices (n : N) : list N := map N.of_nat (seq 0 (N.to_nat n)).

  (** [mem a] is the machine word at address [a]. *)
  Fixpoint view_at (mem : N -> N) (t : rty) (p : N) : view :=
    match t with
    | Incomplete s _ => VObject (Some s) p
    | Complete d => VObject (d_name (E d)) p
    | Ptr _ u =>
        match u with
        | Slice e =>
            VSequence p (map (fun i => view_at mem e (mem p + i * size_of E e))
                             (indices (mem (p + word))))
        | _ => VPointer p (view_at mem u (mem p))
        end
    | Array e n => VArray p (map (fun i => view_at mem e (p + i * size_of E e)) (indices n))
    | Slice _ => VNothing p
    | Vec e =>
        VSequence p (map (fun i => view_at mem e (mem p + i * size_of E e))
                         (indices (mem (p + word))))
    end.

  (** Array and slice elements are equally far apart in both types. *)
  Fixpoint same_strides (t u : rty) : Prop :=
    match t, u with
    | (Incomplete _ _ | Complete _), (Incomplete _ _ | Complete _) => True
    | Ptr _ t', Ptr _ u' => same_strides t' u'
    | Array t' n, Array u' m =>
        n = m /\
        (n = 0 \/ ((n = 1 \/ size_of E t' = size_of E u') /\ same_strides t' u'))
    | Slice t', Slice u' | Vec t', Vec u' => size_of E t' = size_of E u' /\ same_strides t' u'
    | _, _ => False
    end.

  (** The contract of [unsafe_define!]: definitions of one name have one layout. *)
  Definition definitions_agree : Prop :=
    forall d d' s, d_name (E d) = Some s -> d_name (E d') = Some s ->
      d_size (E d) = d_size (E d') /\ d_unpin (E d) = d_unpin (E d').

  (** No array or slice has (arrays of) forward-declared classes as elements. *)
  Fixpoint bottom_incomplete (t : rty) : bool :=
    match t with
    | Incomplete _ _ => true
    | Array u _ => bottom_incomplete u
    | _ => false
    end.
  Fixpoint no_incomplete_elements (t : rty) : Prop :=
    match t with
    | Incomplete _ _ | Complete _ => True
    | Ptr _ u => no_incomplete_elements u
    | Array u _ => bottom_incomplete u = false /\ no_incomplete_elements u
    | Slice u | Vec u => bottom_incomplete u = false /\ no_incomplete_elements u
    end.

  (** No array type of the maximal length occurs. *)
  Fixpoint no_max_array (t : rty) : Prop :=
    match t with
    | Incomplete _ _ | Complete _ => True
    | Ptr _ u | Vec u | Slice u => no_max_array u
    | Array u n => n < usize_max /\ no_max_array u
    end.

  (** [sub t u]: [u] occurs in [t]. *)
  Inductive occurs : rty -> rty -> Prop :=
  | oc_here t : occurs t t
  | oc_ptr k t u : occurs t u -> occurs (Ptr k t) u
  | oc_array t n u : occurs t u -> occurs (Array t n) u
  | oc_slice t u : occurs t u -> occurs (Slice t) u
  | oc_vec t u : occurs t u -> occurs (Vec t) u.
End Env.

(** ** Symbols *)
(** A component of a C++ qualified name: an identifier with optional template
    arguments. *)
Record component := Comp { c_ident : string; c_args : option (list string) }.

Fixpoint has_space (s : string) : bool :=
  match s with
  | EmptyString => false
  | String c r => Ascii.eqb c " "%char || has_space r
  end.

(** A token as the lexer produces it. *)
Definition token (s : string) : Prop := s <> ""%string /\ has_space s = false.

(** [<] and [>] match up in the token list when it is entered at depth [d]. *)
Fixpoint balanced (d : nat) (l : list string) : Prop :=
  match l with
  | [] => d = O
  | t :: r =>
      if String.eqb t "<" then balanced (S d) r
      else if String.eqb t ">" then (match d with O => False | S d' => balanced d' r end)
      else balanced d r
  end.

Definition plain (s : string) : Prop :=
  token s /\ s <> "::"%string /\ s <> "<"%string /\ s <> ">"%string.

Definition good_component (c : component) : Prop :=
  plain (c_ident c) /\
  match c_args c with
  | None => True
  | Some l => Forall token l /\ balanced 0 l
  end.

(** How a component is spelled. *)
Definition spelled (c : component) : list string :=
  match c_args c with
  | None => [c_ident c]
  | Some l => c_ident c :: "<"%string :: l ++ [">"%string]
  end.

(** A C++ class: enclosing namespaces, enclosing records, own name. *)
Record cpp_class := Class {
  k_namespaces : list string;
  k_records : list component;
  k_name : component }.

Definition good_class (k : cpp_class) : Prop :=
  Forall plain (k_namespaces k) /\ Forall good_component (k_records k) /\
  good_component (k_name k).

(** The class's qualified name. *)
Definition path (k : cpp_class) : list component :=
  map (fun n => Comp n None) (k_namespaces k) ++ k_records k ++ [k_name k].

(** What the generator is given for the class in a target whose
    [LeadingColonsForCppType] flag is [l]. *)
Definition qual_of (l : bool) (k : cpp_class) : qualifier :=
  Qual (k_namespaces k) (map spelled (k_records k)) l.
