(** Specification: lossy UTF-8 decoding as Unicode defines it. *)
From Coq Require Import List NArith Bool Arith Lia.
From Verif.Lossy Require Import Model.
Import ListNotations.
Local Open Scope N_scope.
Local Open Scope list_scope.

(** Unicode 15, table 3-7: well-formed UTF-8 byte sequences. *)
Definition rng (lo hi b : N) : Prop := lo <= b <= hi.
Inductive wf : bytes -> Prop :=
| wf_1 a : rng 0 0x7F a -> wf [a]
| wf_2 a b : rng 0xC2 0xDF a -> rng 0x80 0xBF b -> wf [a; b]
| wf_E0 b c : rng 0xA0 0xBF b -> rng 0x80 0xBF c -> wf [0xE0; b; c]
| wf_E1 a b c : rng 0xE1 0xEC a -> rng 0x80 0xBF b -> rng 0x80 0xBF c -> wf [a; b; c]
| wf_ED b c : rng 0x80 0x9F b -> rng 0x80 0xBF c -> wf [0xED; b; c]
| wf_EE a b c : rng 0xEE 0xEF a -> rng 0x80 0xBF b -> rng 0x80 0xBF c -> wf [a; b; c]
| wf_F0 b c d : rng 0x90 0xBF b -> rng 0x80 0xBF c -> rng 0x80 0xBF d -> wf [0xF0; b; c; d]
| wf_F1 a b c d : rng 0xF1 0xF3 a -> rng 0x80 0xBF b -> rng 0x80 0xBF c -> rng 0x80 0xBF d -> wf [a; b; c; d]
| wf_F4 b c d : rng 0x80 0x8F b -> rng 0x80 0xBF c -> rng 0x80 0xBF d -> wf [0xF4; b; c; d].
(** An initial part of a well-formed sequence; a proper one if something is missing. *)
Definition initial (p : bytes) : Prop := exists q, wf (p ++ q).
Definition proper_initial (p : bytes) : Prop := p <> [] /\ exists q, q <> [] /\ wf (p ++ q).
(** Unicode 15, D93b: the maximal subpart of an ill-formed sequence. *)
Definition maximal_subpart (p s : bytes) : Prop :=
  p <> [] /\ (exists r, s = p ++ r) /\ (initial p \/ List.length p = 1%nat) /\
  forall p', (exists r, s = p' ++ r) -> initial p' -> (List.length p' <= List.length p)%nat.
(** The standard lossy decoding: characters are kept, each maximal subpart of an ill-formed
    sequence is replaced by U+FFFD. *)
Inductive lossy : bytes -> bytes -> Prop :=
| lossy_nil : lossy [] []
| lossy_char c s o : wf c -> lossy s o -> lossy (c ++ s) (c ++ o)
| lossy_bad p r o : (forall c r', p ++ r = c ++ r' -> ~ wf c) -> maximal_subpart p (p ++ r) ->
    lossy r o -> lossy (p ++ r) (REPL ++ o).
(** The bytes delivered by a call. *)
Definition delivered (o : op) : bytes :=
  match o with Slice d => d | Byte b => [b] | Fill n b => repeat b n | Flush => [] end.
(** The bytes of a sequence of calls, cut at its flushes. *)
Fixpoint segments (cur : bytes) (ops : list op) : list bytes :=
  match ops with
  | [] => [cur]
  | Flush :: ops' => cur :: segments [] ops'
  | o :: ops' => segments (cur ++ delivered o) ops'
  end.

(** Any sink, observed: the text it accepted so far, and whether some write failed. *)
Record seen {W} := Seen { sink : W; accepted : bytes; failed : bool }.
Arguments seen : clear implicits.
Arguments Seen {W}.
Definition observe {W} (wr : W -> bytes -> W * bool) (s : seen W) (t : bytes) : seen W * bool :=
  let (w', ok) := wr (sink s) t in
  (Seen w' (if ok then accepted s ++ t else accepted s) (failed s || negb ok), ok).
