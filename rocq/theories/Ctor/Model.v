(** Model of /repo/support/ctor.rs: in-place pinned construction.

    What is modelled: the [Ctor] trait's combinators, [FnCtor] /
    [RustMoveCtor] / [UnreachableCtor] / [CtorError], the [ctor!] struct macro
    with its drop guards, [construct], [Box/Rc/Arc::try_emplace], [Slot],
    [emplace!] and [reconstruct], as programs over a memory of objects with a
    log of every construction and destruction.

    Simplifications.  A value is a tree of leaf objects; the content of an
    object is not modelled, only its identity (every constructed leaf gets a
    fresh number).  Values captured by a [Ctor] that is never run are dropped
    by Rust's ordinary ownership rules and are not modelled, nor are
    [ManuallyDropCtor], [ctor!] on unions and the [Assign] traits. *)
From Coq Require Import List Arith Bool.
Import ListNotations.
Local Open Scope nat_scope.
Local Open Scope list_scope.

(** A type: a leaf (any type with a destructor of its own), or a
    [#[recursively_pinned]] struct, which has no [Drop] impl of its own
    (ctor.rs:1218-1226 [DoNotImplDrop]) and so is dropped field by field. *)
Inductive ty := TLeaf | TStruct (ts : list ty).

(** A place: the address of an allocation, then field indices. *)
Notation place := (list nat).

Definition field (p : list nat) (i : nat) : list nat := p ++ [i].

(** Observable events.  [EInit p o]: object [o] is constructed at [p].
    [EDrop p o]: its destructor runs.  [EClobber p o]: the live object [o] is
    overwritten without its destructor having run.  [EDropDead p]: a
    destructor runs on memory that holds no live object. *)
Inductive event :=
| EInit (p : list nat) (o : nat)
| EDrop (p : list nat) (o : nat)
| EClobber (p : list nat) (o : nat)
| EDropDead (p : list nat).

Record st := St {
  mem : list nat -> option nat;   (* which object is live at a leaf place *)
  next : nat;                     (* the next fresh object number *)
  log : list event
}.

Definition place_eqb (p q : list nat) : bool :=
  if list_eq_dec Nat.eq_dec p q then true else false.

Definition upd (m : list nat -> option nat) (p : list nat) (v : option nat)
  : list nat -> option nat :=
  fun q => if place_eqb p q then v else m q.

(** [ptr::write] of one leaf (ctor.rs:899-903, 921-927): never drops what was
    there. *)
Definition init_leaf (p : list nat) (s : st) : st :=
  let l := match mem s p with Some o => log s ++ [EClobber p o] | None => log s end in
  St (upd (mem s) p (Some (next s))) (S (next s)) (l ++ [EInit p (next s)]).

(** Writing the fields of a struct one after the other. *)
Definition init_fields_with (init : ty -> list nat -> st -> st) (p : list nat) :=
  fix go (i : nat) (ts : list ty) (s : st) {struct ts} : st :=
    match ts with
    | [] => s
    | t :: ts => go (S i) ts (init t (field p i) s)
    end.

(** Writing a whole value. *)
Fixpoint init_val (t : ty) (p : list nat) (s : st) {struct t} : st :=
  match t with
  | TLeaf => init_leaf p s
  | TStruct ts =>
      init_fields_with init_val p 0 ts s
  end.

(** How running a destructor ends. *)
Inductive dout := DOk | DPanic | DAbort.

Section DropGlue.
  (** Which objects have a destructor that panics. *)
  Variable dp : nat -> bool.

  (** [ptr::drop_in_place].  [unw]: the thread is already unwinding, so that a
      panic aborts the process.  A panic in one field's destructor does not
      keep the remaining fields from being dropped (Rust's drop glue). *)
  Definition drop_leaf (unw : bool) (p : list nat) (s : st) : dout * st :=
    match mem s p with
    | None => (DOk, St (mem s) (next s) (log s ++ [EDropDead p]))
    | Some o =>
        let s' := St (upd (mem s) p None) (next s) (log s ++ [EDrop p o]) in
        if dp o then (if unw then DAbort else DPanic, s') else (DOk, s')
    end.

  Definition drop_fields_with (drop : bool -> ty -> list nat -> st -> dout * st)
      (p : list nat) (unw : bool) :=
    fix go (i : nat) (ts : list ty) (panicked : bool) (s : st) {struct ts} : dout * st :=
      match ts with
      | [] => (if panicked then DPanic else DOk, s)
      | t :: ts =>
          match drop (unw || panicked) t (field p i) s with
          | (DOk, s') => go (S i) ts panicked s'
          | (DPanic, s') => go (S i) ts true s'
          | (DAbort, s') => (DAbort, s')
          end
      end.

  Fixpoint drop_val (unw : bool) (t : ty) (p : list nat) (s : st) {struct t}
    : dout * st :=
    match t with
    | TLeaf => drop_leaf unw p s
    | TStruct ts =>
        drop_fields_with drop_val p unw 0 ts false s
    end.
End DropGlue.

(** How a closure passed to [ctor_then] ends. *)
Inductive fres := FOk | FErr (e : nat) | FPanic.

(** Programs built with the [Ctor] API; errors are numbers.  A closure that
    computes an error or a fallback constructor may panic instead: [None]. *)
Inductive ctor :=
| CMove (t : ty)                               (* ctor.rs:896-927 *)
| CFn (t : ty) (panics : bool)                 (* 609-635 *)
| CUnreachable (t : ty)                        (* 949-967 *)
| CError (t : ty) (e : nat)                    (* 489-509 *)
| CMakeFallible (c : ctor)                     (* 245-263 *)
| CErrInto (c : ctor) (f : nat -> option nat)  (* 266-292 *)
| CThen (c : ctor) (f : fres)                  (* 295-321 *)
| CMapErr (c : ctor) (f : nat -> option nat)   (* 324-349 *)
| COrElse (c : ctor) (f : nat -> option ctor)  (* 352-384 *)
| CExpect (c : ctor)                           (* 387-409 *)
| CUnwrap (c : ctor)                           (* 412-438 *)
| CUnwrapOrDefault (c : ctor) (d : ctor)       (* 441-471 *)
| CStruct (ts : list ty) (fs : list (nat * ctor)). (* [ctor!], 1500-1575 *)

(** The associated type [Ctor::Output]. *)
Fixpoint out (c : ctor) : ty :=
  match c with
  | CMove t => t | CFn t _ => t | CUnreachable t => t | CError t _ => t
  | CMakeFallible c => out c | CErrInto c _ => out c | CThen c _ => out c
  | CMapErr c _ => out c | COrElse c _ => out c | CExpect c => out c
  | CUnwrap c => out c | CUnwrapOrDefault c _ => out c
  | CStruct ts _ => TStruct ts
  end.

(** How a call to [Ctor::ctor] ends; [OAbort]: the process is gone. *)
Inductive outcome := OOk | OErr (e : nat) | OPanic | OAbort.

Section Run.
  Variable dp : nat -> bool.

  (** ctor.rs:1227-1237 [UnsafeDropGuard], 1551: unwinding drops the nested
      tuple [(((DropGuard, f0), f1), ..)], i.e. the guarded fields in the order
      in which they were initialised. *)
  Fixpoint unwind (guards : list (ty * list nat)) (s : st) : outcome * st :=
    match guards with
    | [] => (OPanic, s)
    | (t, p) :: gs =>
        match drop_val dp true t p s with
        | (DAbort, s') => (OAbort, s')
        | (_, s') => unwind gs s'
        end
    end.

  (** ctor.rs:1543-1556: [init_field] for each named field in the order
      written, keeping a guard per initialised field; [init_field] (1247-1260)
      unwraps the [Result<(), Infallible>]. *)
  Definition run_fields_with (run : ctor -> list nat -> st -> outcome * st) (p : list nat) :=
    fix go (fs : list (nat * ctor)) (guards : list (ty * list nat)) (s : st) {struct fs}
      : outcome * st :=
      match fs with
      | [] => (OOk, s)                 (* mem::forget(drop_guard) *)
      | (i, c) :: fs =>
          match run c (field p i) s with
          | (OOk, s') => go fs (guards ++ [(out c, field p i)]) s'
          | (OErr _, s') | (OPanic, s') => unwind guards s'
          | (OAbort, s') => (OAbort, s')
          end
      end.

  (** [Ctor::ctor(self, dest)]. *)
  Fixpoint run (c : ctor) (p : list nat) (s : st) {struct c} : outcome * st :=
    match c with
    | CMove t => (OOk, init_val t p s)
    (* FnCtor: the closure's safety contract is that it initialises its
       argument unless it panics (ctor.rs:613-618) *)
    | CFn t panics => if panics then (OPanic, s) else (OOk, init_val t p s)
    | CUnreachable _ => (OPanic, s)
    | CError _ e => (OErr e, s)
    | CMakeFallible c => run c p s          (* Err is impossible: [match e {}] *)
    | CErrInto c f | CMapErr c f =>
        match run c p s with
        | (OErr e, s') => match f e with Some e' => (OErr e', s') | None => (OPanic, s') end
        | r => r
        end
    | CThen c f =>
        match run c p s with
        | (OOk, s') => match f with
                       | FOk => (OOk, s')
                       | FErr e => (OErr e, s')
                       | FPanic => (OPanic, s')
                       end
        | r => r
        end
    | COrElse c f =>
        match run c p s with
        | (OErr e, s') => match f e with Some o => run o p s' | None => (OPanic, s') end
        | r => r
        end
    | CExpect c | CUnwrap c =>
        match run c p s with
        | (OErr e, s') => (OPanic, s')
        | r => r
        end
    | CUnwrapOrDefault c d =>
        match run c p s with
        | (OErr e, s') => run d p s'
        | r => r
        end
    | CStruct ts fs =>
        run_fields_with run p fs [] s
    end.

  (** * Owners of the destination *)

  (** ctor.rs:539-574 [Box/Rc/Arc::try_emplace] (the three bodies are alike)
      and 514-525 [construct]: the value is constructed in a fresh
      [MaybeUninit], whose own destructor does nothing; the result owns the
      value only if the constructor returned [Ok]. *)
  Definition try_emplace (c : ctor) (p : list nat) (s : st) : outcome * st :=
    match run c p s with
    | (OOk, s') => (OOk, s')
    | (OErr e, s') => (OErr e, s')
    | r => r
    end.

  (** Dropping such an owner. *)
  Definition drop_owner (t : ty) (p : list nat) (s : st) : outcome * st :=
    match drop_val dp false t p s with
    | (DOk, s') => (OOk, s') | (DPanic, s') => (OPanic, s') | (DAbort, s') => (OAbort, s')
    end.

  (** ctor.rs:1630-1640 [reconstruct] with 1645-1675 [abort_on_unwind]. *)
  Definition reconstruct (c : ctor) (p : list nat) (s : st) : outcome * st :=
    match drop_val dp false (out c) p s with
    | (DPanic, s') => (OPanic, s')
    | (DAbort, s') => (OAbort, s')
    | (DOk, s') =>
        match run c p s' with
        | (OOk, s'') => (OOk, s'')
        | (_, s'') => (OAbort, s'')        (* the Bomb *)
        end
    end.

  (** * Slot: ctor.rs:1083-1210 *)

  (** [clear], 1109-1117: the flag is reset only after [drop_in_place]
      returned. *)
  Definition clear (t : ty) (p : list nat) (f : bool) (s : st) : outcome * bool * st :=
    if f then
      match drop_val dp false t p s with
      | (DOk, s') => (OOk, false, s')
      | (DPanic, s') => (OPanic, true, s')
      | (DAbort, s') => (OAbort, true, s')
      end
    else (OOk, false, s).

  (** [try_replace] / [replace], 1119-1151. *)
  Definition try_replace (t : ty) (p : list nat) (c : ctor) (f : bool) (s : st)
    : outcome * bool * st :=
    match clear t p f s with
    | (OOk, f', s') =>
        match run c p s' with
        | (OOk, s'') => (OOk, true, s'')
        | (o, s'') => (o, f', s'')
        end
    | r => r
    end.

  (** [as_opt] / [as_opt_mut], 1153-1167. *)
  Definition as_opt (f : bool) : bool := f.

  (** [try_unsafe_construct] / [unsafe_construct] (1190-1207), as used once on
      a fresh slot by [emplace!] and [try_emplace!] (1011-1041). *)
  Definition unsafe_construct (c : ctor) (p : list nat) (f : bool) (s : st)
    : outcome * bool * st :=
    match run c p s with
    | (OOk, s') => (OOk, true, s')
    | (o, s') => (o, f, s')
    end.

  (** Operations a program performs on one slot. *)
  Inductive slot_op := SClear | SReplace (c : ctor).

  Definition slot_step (t : ty) (p : list nat) (op : slot_op) (f : bool) (s : st)
    : outcome * bool * st :=
    match op with
    | SClear => clear t p f s
    | SReplace c => try_replace t p c f s
    end.

  (** A history of calls.  A panic that leaves a call may be caught and the
      slot used again; an abort ends everything. *)
  Fixpoint slot_run (t : ty) (p : list nat) (ops : list slot_op) (f : bool) (s : st)
    : outcome * bool * st :=
    match ops with
    | [] => (OOk, f, s)
    | op :: ops =>
        match slot_step t p op f s with
        | (OAbort, f', s') => (OAbort, f', s')
        | (_, f', s') => slot_run t p ops f' s'
        end
    end.

  (** [Drop for Slot], 1088-1092. *)
  Definition slot_drop (t : ty) (p : list nat) (f : bool) (s : st) : outcome * bool * st :=
    clear t p f s.
End Run.
