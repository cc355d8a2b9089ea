(** Model of [common/memoized.rs]: [query_group!], [memoized!] and
    [MemoizationTable::internal_memoized_call]. *)
From Coq Require Import List Arith Bool.
Import ListNotations.

(** A query function body: it may call further queries through the database, and
    what it does next depends on their answers.  (Simplification: bodies are pure
    apart from the queries they make; inputs of the database are fixed, as the
    documentation at memoized.rs:50-60 demands.) *)
Inductive prog (K V : Type) :=
| Ret (v : V)
| Ask (k : K) (cont : V -> prog K V).
Arguments Ret {K V} v.
Arguments Ask {K V} k cont.

Section Assoc.
  Context {K : Type}.
  Variable eq_dec : forall x y : K, {x = y} + {x <> y}.
  Fixpoint lookup {T} (m : list (K * T)) (k : K) : option T :=
    match m with
    | [] => None
    | (k', v) :: m' => if eq_dec k k' then Some v else lookup m' k
    end.
  Fixpoint update {T} (m : list (K * T)) (k : K) (v : T) : list (K * T) :=
    match m with
    | [] => []
    | (k', v') :: m' => if eq_dec k k' then (k', v) :: m' else (k', v') :: update m' k v
    end.
  Fixpoint remove {T} (m : list (K * T)) (k : K) : list (K * T) :=
    match m with
    | [] => []
    | (k', v') :: m' => if eq_dec k k' then remove m' k else (k', v') :: remove m' k
    end.
End Assoc.

Section Memoized.
  (** [K]: a query function together with its arguments (each function of the
      group has its own table, memoized.rs:212-225; a pair (function, arguments) is
      the key of the union of all those tables).  [V]: the union of return types. *)
  Context {K V : Type}.
  Variable eq_dec : forall x y : K, {x = y} + {x <> y}.
  Variable body : K -> prog K V.
  (** memoized.rs:178, 255: the [break_cycles_with] default; [None] stands for the
      queries that panic instead (memoized.rs:274-276). *)
  Variable cycle_default : K -> option V.

  (** memoized.rs:387-394 [MemoizationTable] (all tables together) and
      memoized.rs:207 [__unwinding_cycles].  [FoundCycle::Yes] is [true]. *)
  Record state := St { memo : list (K * V); active : list (K * bool); unwinding : nat }.

  (** memoized.rs:299-308: a new database. *)
  Definition new_db : state := St [] [] 0.

  Inductive result :=
  | RVal (v : V) (s : state)
  | RCyclePanic (k : K)   (* memoized.rs:275 "Cycle detected" *)
  | RExpectPanic          (* memoized.rs:436-439 expect(..) *)
  | RUnderflow            (* memoized.rs:445 u32 subtraction below zero *)
  | ROutOfFuel.

  Definition rbind (r : result) (f : V -> state -> result) : result :=
    match r with RVal v s => f v s | r => r end.

  (** Running a body: each [Ask] is a call of a database method. *)
  Fixpoint exec (callf : state -> K -> result) (p : prog K V) (s : state) : result :=
    match p with
    | Ret v => RVal v s
    | Ask k cont => rbind (callf s k) (fun v s' => exec callf (cont v) s')
    end.

  (** memoized.rs:413-453 [internal_memoized_call] followed by memoized.rs:255 or
      274-276 (what the generated method does with [None]).  Fuel bounds the depth
      of nested calls. *)
  Fixpoint call (fuel : nat) (s : state) (k : K) : result :=
    match lookup eq_dec (memo s) k with
    | Some v => RVal v s                                               (* 422-424 *)
    | None =>
      match lookup eq_dec (active s) k with
      | Some fc =>                                                     (* 425-433 *)
          let s' := St (memo s) (update eq_dec (active s) k true)
                       (if fc then unwinding s else S (unwinding s)) in
          match cycle_default k with
          | Some d => RVal d s'
          | None => RCyclePanic k
          end
      | None =>
        match fuel with
        | 0 => ROutOfFuel
        | S fuel' =>
          rbind (exec (call fuel') (body k)
                      (St (memo s) ((k, false) :: active s) (unwinding s)))  (* 434-435 *)
            (fun v s1 =>
               match lookup eq_dec (active s1) k with                  (* 436-439 *)
               | None => RExpectPanic
               | Some fc =>
                 match fc, unwinding s1 with                           (* 441-446 *)
                 | true, 0 => RUnderflow
                 | _, _ =>
                   let c := if fc then pred (unwinding s1) else unwinding s1 in
                   RVal v (St (if Nat.eqb c 0 then (k, v) :: memo s1 else memo s1)  (* 447-451 *)
                              (remove eq_dec (active s1) k) c)
                 end
               end)
        end
      end
    end.

  (** A history of top-level calls. *)
  Fixpoint calls (fuel : nat) (s : state) (ks : list K) : option state :=
    match ks with
    | [] => Some s
    | k :: ks' => match call fuel s k with RVal _ s' => calls fuel s' ks' | _ => None end
    end.
End Memoized.
Arguments St {K V} memo active unwinding.
Arguments memo {K V} s.
Arguments active {K V} s.
Arguments unwinding {K V} s.
Arguments new_db {K V}.
Arguments RVal {K V} v s.
Arguments RCyclePanic {K V} k.
Arguments RExpectPanic {K V}.
Arguments RUnderflow {K V}.
Arguments ROutOfFuel {K V}.

(** ** [memoized!] (memoized.rs:322-364): tables on the side, indexed by the
    database's [u8] index.  Simplification: the memoized function is
    non-recursive ([f input args]); a single thread's tables are modelled, and
    databases made by other threads only advance the shared counter. *)
Section SideTables.
  Context {I A R : Type}.
  Variable eq_dec : forall x y : A, {x = y} + {x <> y}.
  Variable f : I -> A -> R.     (* $original_fn(db, args); I = the database's inputs *)

  Record db := Db { db_index : nat; db_input : I }.
  Record world := W {
    dbs : list db;                     (* databases of this thread, oldest first *)
    next : nat;                        (* DB_INDEX, memoized.rs:457 *)
    tables : list (list (A * R)) }.    (* TABLES, memoized.rs:344 *)

  (** Initial world, memoized.rs:344 (one default table) and 457. *)
  Definition world0 : world := W [] 0 [[]].

  Inductive op :=
  | NewDb (i : I)           (* $database_struct::new, memoized.rs:293-317 *)
  | NewDbElsewhere          (* the same on another thread *)
  | CallOn (d : nat) (a : A).

  (** memoized.rs:456-459 [db_index]: [fetch_add] on an [AtomicU8] wraps. *)
  Definition bump (n : nat) : nat := (n + 1) mod 256.

  (** [Vec::resize_with(n, Default::default)] when the vector is shorter. *)
  Definition grow (ts : list (list (A * R))) (n : nat) : list (list (A * R)) :=
    ts ++ repeat [] (n - length ts).

  Fixpoint set_nth (ts : list (list (A * R))) (n : nat) (t : list (A * R)) : list (list (A * R)) :=
    match ts, n with
    | [], _ => []
    | _ :: ts', 0 => t :: ts'
    | t' :: ts', S n' => t' :: set_nth ts' n' t
    end.

  (** memoized.rs:347-362. *)
  Definition step (w : world) (o : op) : world * option R :=
    match o with
    | NewDb i => (W (dbs w ++ [Db (next w) i]) (bump (next w)) (tables w), None)
    | NewDbElsewhere => (W (dbs w) (bump (next w)) (tables w), None)
    | CallOn d a =>
        match nth_error (dbs w) d with
        | None => (w, None)          (* no such database: not a program *)
        | Some x =>
            let ts := grow (tables w) (S (db_index x)) in
            let t := nth (db_index x) ts [] in
            match lookup eq_dec t a with
            | Some r => (W (dbs w) (next w) ts, Some r)
            | None => let r := f (db_input x) a in
                      (W (dbs w) (next w) (set_nth ts (db_index x) ((a, r) :: t)), Some r)
            end
        end
    end.

  Fixpoint run (w : world) (os : list op) : world :=
    match os with
    | [] => w
    | o :: os' => run (fst (step w o)) os'
    end.
End SideTables.
