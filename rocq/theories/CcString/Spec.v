(** * Specification for CcString: strings as values *)
From Coq Require Import List Arith Bool.
Import ListNotations.
From Verif Require Import CcString.Model.

(** In the specification a variable holds its bytes; a moved-from C++ string holds
    something we know nothing about. *)
Inductive sval := Known (b : bytes) | Unspecified.

Record sworld := SWorld {
  srs : nat -> option bytes;
  scc : nat -> option sval;
  swire : nat -> option bytes }.

Definition sstart : sworld := SWorld (fun _ => None) (fun _ => None) (fun _ => None).

Definition put {A : Type} (f : nat -> option A) (n : nat) (x : A) : nat -> option A :=
  fun m => if Nat.eqb m n then Some x else f m.
Definition take {A : Type} (f : nat -> option A) (n : nat) : nat -> option A :=
  fun m => if Nat.eqb m n then None else f m.

(** An output we may rely on; [Any] for a read of a moved-from string. *)
Inductive soutput := SNothing | SBytes (b : bytes) | SBool (P : Prop) | SAny.

(** Value semantics: copying copies, moving moves, every variable is initialised once and
    used before it is dropped or moved (what the compilers check). *)
Inductive sstep : sworld -> op -> sworld -> soutput -> Prop :=
| s_from w v b : srs w v = None ->
    sstep w (RFrom v b) (SWorld (put (srs w) v b) (scc w) (swire w)) SNothing
| s_clone w v u b : srs w v = Some b -> srs w u = None ->
    sstep w (RClone v u) (SWorld (put (srs w) u b) (scc w) (swire w)) SNothing
| s_move w v u b : srs w v = Some b -> srs w u = None ->
    sstep w (RMove v u) (SWorld (put (take (srs w) v) u b) (scc w) (swire w)) SNothing
| s_drop w v b : srs w v = Some b ->
    sstep w (RDrop v) (SWorld (take (srs w) v) (scc w) (swire w)) SNothing
| s_bytes w v b : srs w v = Some b -> sstep w (RBytes v) w (SBytes b)
| s_eq w v u b b' : srs w v = Some b -> srs w u = Some b' -> sstep w (REq v u) w (SBool (b = b'))
| s_write w v b b' : srs w v = Some b' ->
    sstep w (RWrite v b) (SWorld (put (srs w) v b) (scc w) (swire w)) SNothing
| s_rencode w v s b : srs w v = Some b -> swire w s = None ->
    sstep w (REncode v s) (SWorld (take (srs w) v) (scc w) (put (swire w) s b)) SNothing
| s_rdecode w v s b : swire w s = Some b -> srs w v = None ->
    sstep w (RDecode s v) (SWorld (put (srs w) v b) (scc w) (take (swire w) s)) SNothing
| s_cencode w c s b : scc w c = Some (Known b) -> swire w s = None ->
    sstep w (CEncode c s) (SWorld (srs w) (take (scc w) c) (put (swire w) s b)) SNothing
| s_cdecode w c s b : swire w s = Some b -> scc w c = None ->
    sstep w (CDecode s c) (SWorld (srs w) (put (scc w) c (Known b)) (take (swire w) s)) SNothing
| s_return w v c b : srs w v = Some b -> scc w c = None ->
    sstep w (RReturn v c) (SWorld (take (srs w) v) (put (scc w) c (Known b)) (swire w)) SNothing
| s_pass w c v b : scc w c = Some (Known b) -> srs w v = None ->
    sstep w (CPass c v) (SWorld (put (srs w) v b) (put (scc w) c Unspecified) (swire w)) SNothing
| s_cnew w c b : scc w c = None ->
    sstep w (CNew c b) (SWorld (srs w) (put (scc w) c (Known b)) (swire w)) SNothing
| s_ccopy w c d b : scc w c = Some (Known b) -> scc w d = None ->
    sstep w (CCopy c d) (SWorld (srs w) (put (scc w) d (Known b)) (swire w)) SNothing
| s_cmove w c d b : scc w c = Some (Known b) -> scc w d = None ->
    sstep w (CMove c d)
      (SWorld (srs w) (put (put (scc w) d (Known b)) c Unspecified) (swire w)) SNothing
| s_cdestroy w c x : scc w c = Some x ->
    sstep w (CDestroy c) (SWorld (srs w) (take (scc w) c) (swire w)) SNothing
| s_cbytes w c b : scc w c = Some (Known b) -> sstep w (CBytes c) w (SBytes b)
| s_cany w c : scc w c = Some Unspecified -> sstep w (CBytes c) w SAny
| s_cwrite w c b x : scc w c = Some x ->
    sstep w (CWrite c b) (SWorld (srs w) (put (scc w) c (Known b)) (swire w)) SNothing.

Inductive srun : sworld -> list op -> sworld -> list soutput -> Prop :=
| sr_nil w : srun w [] w []
| sr_cons w o w1 x l w2 xs :
    sstep w o w1 x -> srun w1 l w2 xs -> srun w (o :: l) w2 (x :: xs).

(** The output of the code is as specified. *)
Definition agrees (o : output) (s : soutput) : Prop :=
  match s with
  | SNothing => o = Nothing
  | SBytes b => o = Bytes b
  | SBool P => exists c, o = Bool c /\ (c = true <-> P)
  | SAny => exists b, o = Bytes b
  end.

(** Who owns the heap string at an address: a Rust variable or an encoded buffer. *)
Inductive owner := ByRust (v : nat) | ByWire (s : nat).
Definition owns (w : world) (x : owner) (a : addr) : Prop :=
  match x with ByRust v => rs w v = Some a | ByWire s => wire w s = Some a end.

(** Every live heap string has exactly one owner and owners own live strings. *)
Definition owned_once (w : world) : Prop :=
  (forall x a, owns w x a -> heap w a <> None) /\
  (forall a, heap w a <> None -> exists x, owns w x a) /\
  (forall x y a, owns w x a -> owns w y a -> x = y).

(** ** unique_ptr *)
(** destroyed once, then freed once with size and alignment of [T] *)
Definition ended_once (size align : nat) (l : list uevent) (a : addr) : Prop :=
  exists l1 l2 l3,
    l = l1 ++ Destroyed a :: l2 ++ Freed a size align :: l3 /\
    ~ In (Destroyed a) (l1 ++ l2 ++ l3) /\
    (forall s l', ~ In (Freed a s l') (l1 ++ l2 ++ l3)).
Definition untouched (l : list uevent) (a : addr) : Prop :=
  ~ In (Destroyed a) l /\ forall s l', ~ In (Freed a s l') l.

(** Someone holds the object: a [unique_ptr] or an owning raw pointer. *)
Inductive uowner := ByPtr (p : nat) | ByRaw (r : nat).
Definition uowns (w : uworld) (x : uowner) (a : addr) : Prop :=
  match x with
  | ByPtr p => ptrs w p = Some (Some a)
  | ByRaw r => raws w r = Some (Some a)
  end.

(** What the compilers and the contract of [unsafe fn new] guarantee: variables are
    initialised once and used while initialised.  (Nothing about the heap.)
    No destructor panics in these programs. *)
Inductive utyped : (nat -> bool) -> (nat -> bool) -> list uop -> Prop :=
| ut_nil P R : utyped P R []
| ut_new P R r l : R r = false -> utyped P (fun m => Nat.eqb m r || R m) l ->
    utyped P R (UNewObject r :: l)
| ut_null P R r l : R r = false -> utyped P (fun m => Nat.eqb m r || R m) l ->
    utyped P R (UNull r :: l)
| ut_adopt P R r p l : R r = true -> P p = false ->
    utyped (fun m => Nat.eqb m p || P m) (fun m => negb (Nat.eqb m r) && R m) l ->
    utyped P R (UAdopt r p :: l)
| ut_release P R p r l : P p = true -> R r = false ->
    utyped P (fun m => Nat.eqb m r || R m) l -> utyped P R (URelease p r :: l)
| ut_move P R p q l : P p = true -> P q = false ->
    utyped (fun m => Nat.eqb m q || (negb (Nat.eqb m p) && P m)) R l ->
    utyped P R (UMove p q :: l)
| ut_get P R p l : P p = true -> utyped P R l -> utyped P R (UGet p :: l)
| ut_use P R p l : P p = true -> utyped P R l -> utyped P R (UUse p :: l)
| ut_drop P R p l : P p = true -> utyped (fun m => negb (Nat.eqb m p) && P m) R l ->
    utyped P R (UDrop p :: l).

(** How many objects the program makes. *)
Fixpoint objects_made (l : list uop) : nat :=
  match l with
  | [] => 0
  | UNewObject _ :: r => S (objects_made r)
  | _ :: r => objects_made r
  end.

(** ** string_view *)
(** A view C++ can make: a null pointer comes with size 0 only. *)
Definition valid_view (data size : nat) : Prop := data = 0 -> size = 0.
