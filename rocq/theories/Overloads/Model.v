(** Overload sets and comparison operators.

    Models rs_bindings_from_cc/generate_bindings/generate_function.rs
    (overload_sets, get_binding, operator ==, !=, <), database/db.rs
    (is_ambiguous_function) and lib.rs (generate_item_impl for functions). *)
From Coq Require Import List Bool Arith.
Import ListNotations.

(** The Rust type of a parameter (RsTypeKind), as far as the comparison operators look
    at it: a record by value, a reference to a record, or anything else.
    [generate_function.rs:252-289 type_by_value_or_under_const_ref].
    Simplification: a record is a number; a lifetime is a number; aliases are already
    resolved ([unalias]). *)
Inductive ptype : Set :=
| PVal (r : nat)
| PRef (is_mut : bool) (r : nat) (lt : nat)
| POther (k : nat).

(** The C++ name of a function, as far as the dispatch looks at it
    [generate_function.rs:784-830 api_func_shape_for_operator]; [OFn p] stands for every
    function whose Rust path [p] does not depend on other functions. *)
Inductive opname : Set := OEq | ONe | OLt | OFn (p : nat).

(** One [ir::Func].  [f_ok] is false when a step unrelated to the operator fails
    (rs_type_kinds_for_func, check_by_value, function_signature …:
    [generate_function.rs:1783-1907, 1970-1990]). *)
Record cfunc : Set := mkF {
  f_id : nat;
  f_op : opname;
  f_l : ptype;
  f_r : ptype;
  f_bool : bool;
  f_depr : bool;
  f_ok : bool
}.

(** database/function_types.rs:22-36 [FunctionId]: for trait impls the self type and the
    trait with its parameter, otherwise the path. *)
Inductive fnid : Set := IdEq (l r : nat) | IdOrd (l r : nat) | IdPath (p : nat).

Definition fnid_eqb (a b : fnid) : bool :=
  match a, b with
  | IdEq l r, IdEq l' r' => (l =? l') && (r =? r')
  | IdOrd l r, IdOrd l' r' => (l =? l') && (r =? r')
  | IdPath p, IdPath p' => p =? p'
  | _, _ => false
  end.

Definition ptype_eqb (a b : ptype) : bool :=
  match a, b with
  | PVal r, PVal r' => r =? r'
  | PRef m r l, PRef m' r' l' => Bool.eqb m m' && (r =? r') && (l =? l')
  | POther k, POther k' => k =? k'
  | _, _ => false
  end.

(** generate_function.rs:252-289 [type_by_value_or_under_const_ref]: the record, and
    whether an error was added because the reference is mutable. *)
Definition record_of (t : ptype) : option (nat * bool) :=
  match t with
  | PVal r => Some (r, false)
  | PRef m r _ => Some (r, m)
  | POther _ => None
  end.

(** The result of [generate_function] (generate_function.rs:1945-2750): [Err], [Ok(None)]
    or [Ok(Some(..))] with the id, whether the thunk's result is negated, and whether the
    status is Ok (otherwise the function is emitted with an unsatisfiable where clause). *)
Inductive gen : Set :=
| GErr
| GNone
| GSome (id : fnid) (negate : bool) (status_ok : bool).

(** Shape of operator==: generate_function.rs:324-348.  The result is the key of the
    PartialEq impl and whether the shape added no error. *)
Definition eq_shape (f : cfunc) : option (fnid * bool) :=
  match record_of (f_l f), record_of (f_r f) with
  | Some (l, e1), Some (r, e2) => Some (IdEq l r, negb (e1 || e2))
  | _, _ => None
  end.

Definition is_eq (f : cfunc) : bool := match f_op f with OEq => true | _ => false end.

(** generate_function.rs:1347-1367 [get_binding] for the name operator==: a function of
    that name which [generate_function] accepts, whose parameter types are exactly the
    expected ones and whose shape ([api_func_shape_if_some], 1329-1344) has no errors. *)
Definition binds_eq (l r : ptype) (f : cfunc) : bool :=
  is_eq f && f_ok f &&
  match eq_shape f with
  | Some (_, clean) => ptype_eqb (f_l f) l && ptype_eqb (f_r f) r && clean
  | None => false
  end.

Definition get_eq_binding (F : list cfunc) (l r : ptype) : option cfunc :=
  find (binds_eq l r) F.

(** [generate_function] restricted to this model.
    operator==  : generate_function.rs:324-348;
    operator!=  : generate_function.rs:290-322 (skipped when operator== is bound);
    operator<   : generate_function.rs:546-597, and 2075-2082 (an error on a PartialOrd
                  impl drops the function);
    return type : generate_function.rs:3009-3018 (an error unless bool). *)
Definition generate (F : list cfunc) (f : cfunc) : gen :=
  if negb (f_ok f) then GErr else
  match f_op f with
  | OFn p => GSome (IdPath p) false true
  | OEq =>
      match eq_shape f with
      | Some (k, clean) => GSome k false (clean && f_bool f)
      | None => GErr
      end
  | ONe =>
      match get_eq_binding F (f_l f) (f_r f) with
      | Some _ => GNone
      | None =>
          match eq_shape f with
          | Some (k, clean) => GSome k true (clean && f_bool f)
          | None => GErr
          end
      end
  | OLt =>
      match record_of (f_l f), record_of (f_r f) with
      | Some (l, e1), Some (r, e2) =>
          if negb (l =? r) then GErr
          else
            match get_eq_binding F (f_l f) (f_r f) with
            | None => GErr
            | Some _ =>
                if e1 || e2 || negb (f_bool f) then GErr
                else GSome (IdOrd l r) false true
            end
      | _, _ => GErr
      end
  end.

(** generate_function.rs:3382-3397 [Rank], [rank]. *)
Definition rank (f : cfunc) : nat := if f_depr f then 0 else 1.

(** generate_function.rs:3367-3371 [CandidateFunction]. *)
Record cand : Set := mkC { c_id : nat; c_rank : nat; c_amb : bool }.

(** generate_function.rs:3407: the candidate made from a function. *)
Definition new_cand (f : cfunc) : cand := mkC (f_id f) (rank f) false.

(** generate_function.rs:3409-3416: the update of an entry. *)
Definition merge (v n : cand) : cand :=
  if c_id v =? c_id n then v
  else if c_rank v <? c_rank n then n
  else if c_rank n =? c_rank v then mkC (c_id v) (c_rank v) true
  else v.

(** generate_function.rs:3408 [entry(..).or_insert(new)] followed by the update; a fresh
    entry has the same item id and is left alone. *)
Fixpoint upsert (m : list (fnid * cand)) (k : fnid) (n : cand) : list (fnid * cand) :=
  match m with
  | [] => [(k, n)]
  | (k', v) :: m' =>
      if fnid_eqb k k' then (k', merge v n) :: m' else (k', v) :: upsert m' k n
  end.

(** generate_function.rs:3399-3417: the loop over [ir.functions()]. *)
Definition overload_step (F : list cfunc) (m : list (fnid * cand)) (f : cfunc)
  : list (fnid * cand) :=
  match generate F f with
  | GSome k _ _ => upsert m k (new_cand f)
  | _ => m
  end.

Definition overload_loop (F : list cfunc) : list (fnid * cand) :=
  fold_left (overload_step F) F [].

Fixpoint lookup {A : Type} (k : fnid) (m : list (fnid * A)) : option A :=
  match m with
  | [] => None
  | (k', v) :: m' => if fnid_eqb k k' then Some v else lookup k m'
  end.

(** generate_function.rs:3418-3432: the final map. *)
Definition overload_sets (F : list cfunc) : list (fnid * option nat) :=
  List.map (fun kv => (fst kv, if c_amb (snd kv) then None else Some (c_id (snd kv))))
           (overload_loop F).

(** database/db.rs:292-297 [is_ambiguous_function]. *)
Definition is_ambiguous (F : list cfunc) (k : fnid) (id : nat) : bool :=
  match lookup k (overload_sets F) with
  | None => false
  | Some None => true
  | Some (Some i) => negb (i =? id)
  end.

(** lib.rs:313-331 [generate_item_impl] for a function: what reaches the generated crate. *)
Record item : Set := mkI { i_key : fnid; i_fn : nat; i_neg : bool; i_ok : bool }.

Definition emit (F : list cfunc) (f : cfunc) : option item :=
  match generate F f with
  | GSome k neg ok => if is_ambiguous F k (f_id f) then None else Some (mkI k (f_id f) neg ok)
  | _ => None
  end.

Fixpoint emit_all (F : list cfunc) (l : list cfunc) : list item :=
  match l with
  | [] => []
  | f :: l' =>
      match emit F f with Some i => i :: emit_all F l' | None => emit_all F l' end
  end.

Definition emitted (F : list cfunc) : list item := emit_all F F.

(** The meaning of the generated code.  [sem id a b] is what the C++ function [id] returns.
    generate_function.rs:1589-1603: the thunk's result is negated for a PartialEq made from
    operator!=. *)
Definition thunk_result (sem : nat -> nat -> nat -> bool) (i : item) (a b : nat) : bool :=
  if i_neg i then negb (sem (i_fn i) a b) else sem (i_fn i) a b.

(** The generated [fn eq] and [fn lt]. *)
Definition rs_eq := thunk_result.
Definition rs_lt := thunk_result.

Inductive ordering : Set := Less | Equal | Greater.

(** generate_function.rs:2505-2530: the generated [fn partial_cmp]. *)
Definition rs_partial_cmp (sem : nat -> nat -> nat -> bool) (ie il : item) (a b : nat)
  : option ordering :=
  if rs_eq sem ie a b then Some Equal
  else if rs_lt sem il a b then Some Less
  else if rs_lt sem il b a then Some Greater
  else None.

(** core::cmp: the default methods (Rust standard library, not part of /repo).
    [ne] is [!eq]; [le], [gt], [ge] match on [partial_cmp]. *)
Definition rs_ne (sem : nat -> nat -> nat -> bool) (ie : item) (a b : nat) : bool :=
  negb (rs_eq sem ie a b).
Definition rs_gt (sem : nat -> nat -> nat -> bool) (ie il : item) (a b : nat) : bool :=
  match rs_partial_cmp sem ie il a b with Some Greater => true | _ => false end.
Definition rs_le (sem : nat -> nat -> nat -> bool) (ie il : item) (a b : nat) : bool :=
  match rs_partial_cmp sem ie il a b with Some Less | Some Equal => true | _ => false end.
Definition rs_ge (sem : nat -> nat -> nat -> bool) (ie il : item) (a b : nat) : bool :=
  match rs_partial_cmp sem ie il a b with Some Greater | Some Equal => true | _ => false end.
