(** support/internal/memswap.h at the level of bytes. *)
From Coq Require Import List Arith ZArith Bool Lia.
Import ListNotations.

Definition memory := nat -> N.

Fixpoint read (m : memory) (p n : nat) : list N :=
  match n with O => [] | S k => m p :: read m (S p) k end.
Fixpoint write (m : memory) (p : nat) (l : list N) : memory :=
  match l with [] => m | b :: r => write (fun q => if q =? p then b else m q) (S p) r end.

(** [std::memcpy]: undefined if the ranges overlap. *)
Definition overlap (p q n : nat) : bool := negb ((n =? 0) || (p + n <=? q) || (q + n <=? p)).
Definition memcpy (m : memory) (dst src n : nat) : option memory :=
  if overlap dst src n then None else Some (write m dst (read m src n)).

(** memswap.h:20-31 [MemSwap(a, b)] for objects of size [n] at addresses [a] and [b]; [tmp] is a local array, so copying to and
    from it cannot overlap. *)
Definition mem_swap (m : memory) (a b n : nat) : option memory :=
  if a =? b then Some m
  else
    let tmp := read m a n in                       (* memcpy(tmp, &a, sizeof(T)) *)
    match memcpy m a b n with                      (* memcpy(&a, &b, sizeof(T)) *)
    | Some m1 => Some (write m1 b tmp)             (* memcpy(&b, tmp, sizeof(T)) *)
    | None => None
    end.

Lemma read_length m p n : length (read m p n) = n.
Proof. revert p; induction n; intros; cbn; auto. Qed.

Lemma write_read l : forall m p k,
  write m p l k = if (p <=? k) && (k <? p + length l) then nth (k - p) l 0%N else m k.
Proof.
  induction l as [|b l IH]; intros m p k; cbn [write length].
  - destruct (Nat.leb_spec p k), (Nat.ltb_spec k (p + 0)); cbn [andb]; auto; lia.
  - rewrite IH. destruct (Nat.leb_spec (S p) k); cbn [andb].
    + destruct (Nat.ltb_spec k (S p + length l)); destruct (Nat.ltb_spec k (p + S (length l))); try lia;
      (destruct (Nat.leb_spec p k); [|lia]); cbn [andb].
      * replace (k - p) with (S (k - S p)) by lia. reflexivity.
      * destruct (Nat.eqb_spec k p); [lia|auto].
    + destruct (Nat.eqb_spec k p) as [->|N].
      * rewrite Nat.leb_refl. destruct (Nat.ltb_spec p (p + S (length l))); [|lia]. cbn [andb]. now rewrite Nat.sub_diag.
      * destruct (Nat.leb_spec p k); [lia|]. cbn [andb]. reflexivity.
Qed.

Lemma nth_read n : forall m p k, k < n -> nth k (read m p n) 0%N = m (p + k).
Proof.
  induction n as [|n IH]; intros m p k L; [lia|]. cbn [read]. destruct k as [|k]; cbn [nth].
  - now rewrite Nat.add_0_r.
  - rewrite IH by lia. f_equal; lia.
Qed.
