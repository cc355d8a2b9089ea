(** Model of [common/interner.rs]. *)
From Coq Require Import List Arith Bool.
From Coq Require Import Strings.Byte.
Import ListNotations.

(** Memory as bytes at addresses; an interned object is its object representation. *)
Definition memory := nat -> byte.
Definition store (m : memory) (a : nat) (bs : list byte) : memory :=
  fun x => if (a <=? x) && (x <? a + length bs) then nth (x - a) bs x00 else m x.
Definition load (m : memory) (a n : nat) : list byte := map (fun i => m (a + i)) (seq 0 n).

(** interner.rs:14: [Interned(&T)], a reference: address and size in bytes of the referent
    (for [str] and slices the length is part of the fat pointer). *)
Record handle := Handle { ptr : nat; len : nat }.

(** interner.rs:27-30 [inner] / 44-49 [deref]: reads the bytes behind the reference. *)
Definition deref (m : memory) (h : handle) : list byte := load m (ptr h) (len h).

(** interner.rs:51-55 [eq], 65-69 [cmp], 71-78 [hash]: all three see only the thin pointer. *)
Definition handle_eq (a b : handle) : bool := ptr a =? ptr b.
Definition handle_cmp (a b : handle) : comparison := ptr a ?= ptr b.
Definition handle_hash {H} (hash_ptr : nat -> H) (a : handle) : H := hash_ptr (ptr a).

(** The arena ([bumpalo::Bump], not in /repo) as the list of regions it has handed out. *)
Record state := St {
  mem : memory;
  regions : list handle;       (* every allocation made from the arena so far *)
  entries : list handle        (* interner.rs:83: [HashSet<&T>] *)
}.
Definition new (m : memory) : state := St m [] [].  (* interner.rs:88-90 *)

Section Interner.
  (** [PartialEq] of the interned type, on object representations. *)
  Variable eqT : list byte -> list byte -> bool.

  (** interner.rs:99-107 [intern], 112-120 [intern_slice], 125-133 [intern_str]: the three
      differ only in how the bytes are copied.  [fresh] is the address the arena returns
      if it is asked; the lookup compares through the stored references. *)
  Definition intern (s : state) (v : list byte) (fresh : nat) : state * handle :=
    match find (fun h => eqT (deref (mem s) h) v) (entries s) with
    | Some h => (s, h)
    | None =>
        let h := Handle fresh (length v) in
        (St (store (mem s) fresh v) (h :: regions s) (h :: entries s), h)
    end.

  (** Everything that can happen to the process: calls of the interner, other users of the
      same arena, and writes to memory not owned by the interner. *)
  Inductive event :=
  | Intern (v : list byte) (fresh : nat)
  | OtherAlloc (n : nat) (fresh : nat)
  | OtherWrite (a : nat) (b : byte).
  Definition exec (s : state) (e : event) : state * list (list byte * handle) :=
    match e with
    | Intern v fresh => let '(s', h) := intern s v fresh in (s', [(v, h)])
    | OtherAlloc n fresh => (St (mem s) (Handle fresh n :: regions s) (entries s), [])
    | OtherWrite a b => (St (store (mem s) a [b]) (regions s) (entries s), [])
    end.
  (** A history: the final state and the log of (value, handle) pairs returned. *)
  Fixpoint run (s : state) (es : list event) : state * list (list byte * handle) :=
    match es with
    | [] => (s, [])
    | e :: es' => let '(s1, l1) := exec s e in let '(s2, l2) := run s1 es' in (s2, l1 ++ l2)
    end.
End Interner.
