(** Model of support/rs_std/lossy_formatter.rs and of support/cc_std_impl/lossy_utf8.rs
    ([LossyUtf8Display]).  Bytes are numbers; text is given by its UTF-8 bytes, a [char] by the bytes
    of its encoding.  [<[u8]>::utf8_chunks] and [str::from_utf8] are standard-library functions,
    not in /repo: they are modelled after their documented behaviour (and source in core::str). *)
From Coq Require Import List NArith Bool Arith Lia.
Import ListNotations.
Local Open Scope N_scope.
Local Open Scope list_scope.

Definition byte := N.
Definition bytes := list byte.
Definition between (lo hi b : N) : bool := (lo <=? b) && (b <=? hi).
(** What may follow a lead byte: range of the next byte and number of continuation bytes after it. *)
Definition lead (b : byte) : option (N * N * nat) :=
  if between 0xC2 0xDF b then Some (0x80, 0xBF, 0%nat)
  else if b =? 0xE0 then Some (0xA0, 0xBF, 1%nat)
  else if between 0xE1 0xEC b then Some (0x80, 0xBF, 1%nat)
  else if b =? 0xED then Some (0x80, 0x9F, 1%nat)
  else if between 0xEE 0xEF b then Some (0x80, 0xBF, 1%nat)
  else if b =? 0xF0 then Some (0x90, 0xBF, 2%nat)
  else if between 0xF1 0xF3 b then Some (0x80, 0xBF, 2%nat)
  else if b =? 0xF4 then Some (0x80, 0x8F, 2%nat)
  else None.
(** The first character of a byte string: a whole one, or the bytes of a broken one that are
    followed by a byte that does not continue it, or one cut off by the end of the string. *)
Inductive first := Done (c rest : bytes) | Broken (p rest : bytes) | Cut (p : bytes).
Fixpoint walk (lo hi : N) (k : nat) (acc s : bytes) {struct s} : first :=
  match s with
  | [] => Cut acc
  | c :: s' =>
      if between lo hi c then
        match k with
        | O => Done (acc ++ [c]) s'
        | S k' => walk 0x80 0xBF k' (acc ++ [c]) s'
        end
      else Broken acc s
  end.
Definition first_char (s : bytes) : first :=
  match s with
  | [] => Cut []
  | b :: s' =>
      if b <? 128 then Done [b] s'
      else match lead b with
           | None => Broken [b] s'
           | Some (lo, hi, k) => walk lo hi k [b] s'
           end
  end.
(** [Utf8Chunks::next]: the valid bytes, the invalid bytes after them, the rest. *)
Fixpoint next_chunk (n : nat) (s : bytes) : bytes * bytes * bytes :=
  match n with
  | O => ([], [], s)
  | S n' =>
      match s with
      | [] => ([], [], [])
      | _ :: _ =>
          match first_char s with
          | Done c r => let '(v, i, r') := next_chunk n' r in (c ++ v, i, r')
          | Broken p r => ([], p, r)
          | Cut p => ([], p, [])
          end
      end
  end.
Fixpoint chunks_n (n : nat) (s : bytes) : list (bytes * bytes) :=
  match n with
  | O => []
  | S n' =>
      match s with
      | [] => []
      | _ :: _ => let '(v, i, r) := next_chunk (S (List.length s)) s in (v, i) :: chunks_n n' r
      end
  end.
Definition utf8_chunks (s : bytes) : list (bytes * bytes) := chunks_n (S (List.length s)) s.
(** [str::from_utf8]: [None] is [Ok], [Some e] an error with [error_len().is_some() = e]. *)
Fixpoint from_utf8_n (n : nat) (s : bytes) : option bool :=
  match n with
  | O => None
  | S n' =>
      match s with
      | [] => None
      | _ :: _ =>
          match first_char s with
          | Done _ r => from_utf8_n n' r
          | Broken _ _ => Some true
          | Cut _ => Some false
          end
      end
  end.
Definition from_utf8 (s : bytes) : option bool := from_utf8_n (S (List.length s)) s.
(** [char::REPLACEMENT_CHARACTER], U+FFFD. *)
Definition REPL : bytes := [0xEF; 0xBF; 0xBD].

(** support/rs_std/lossy_formatter.rs:553-581 [IncompleteUtf8]: the first [len] bytes of the buffer;
    :646-656 [copy_from_slice] fails for more than three bytes. *)
Definition copy_from_slice (data : bytes) : option bytes :=
  if (List.length data <=? 3)%nat then Some data else None.
(** support/rs_std/lossy_formatter.rs:559-580 [PushState]. *)
Inductive push_state :=
| PIncomplete | PValid (c : bytes) | PInvalid | PInvalidThenValid (c : bytes) | PInvalidThenInvalid.
(** [chars().next()] of valid text. *)
Definition first_of (v : bytes) : option bytes :=
  match v with [] => None | _ :: _ => match first_char v with Done c _ => Some c | _ => None end end.
(** support/rs_std/lossy_formatter.rs:587-644 [push]; [None] is a panic ([expect], [assert!]). *)
Definition push (inc : bytes) (data : byte) : option (push_state * bytes) :=
  match utf8_chunks (inc ++ [data]) with
  | [] => None
  | (v1, i1) :: more =>
      match from_utf8 i1 with
      | None =>
          match more with
          | [] => match first_of v1 with Some c => Some (PValid c, []) | None => None end
          | _ :: _ => None
          end
      | Some e1 =>
          match more with
          | [] =>
              if e1 then Some (PInvalid, [])
              else match copy_from_slice i1 with Some inc' => Some (PIncomplete, inc') | None => None end
          | (v2, i2) :: more2 =>
              match more2 with
              | _ :: _ => None
              | [] =>
                  match from_utf8 i2 with
                  | None => match first_of v2 with Some c => Some (PInvalidThenValid c, []) | None => None end
                  | Some true => Some (PInvalidThenInvalid, [])
                  | Some false =>
                      match copy_from_slice i2 with Some inc' => Some (PInvalid, inc') | None => None end
                  end
              end
          end
      end
  end.

Section Sink.
  (** The [Formatter]: any state and any behaviour of its writes; [false] is an error. *)
  Variable W : Type.
  Variable wr : W -> bytes -> W * bool.

  (** support/rs_std/lossy_formatter.rs:99-116 [write_byte]. *)
  Definition write_two (w : W) (a b : bytes) : W * bool :=
    let (w1, ok) := wr w a in if ok then wr w1 b else (w1, false).
  Definition write_byte (inc : bytes) (w : W) (data : byte) : option (bytes * W * bool) :=
    match push inc data with
    | None => None
    | Some (p, inc') =>
        let '(w', ok) :=
          match p with
          | PIncomplete => (w, true)
          | PValid c => wr w c
          | PInvalid => wr w REPL
          | PInvalidThenValid c => write_two w REPL c
          | PInvalidThenInvalid => write_two w REPL REPL
          end in
        Some (inc', w', ok)
    end.
  (** support/rs_std/lossy_formatter.rs:50-59: bytes are fed one at a time while the buffer is not
      empty.  Returns the buffer, the sink, the progress, and the rest ([None] after an error). *)
  Fixpoint feed (inc : bytes) (w : W) (progressed : nat) (data : bytes)
    : option (bytes * W * nat * option bytes) :=
    match inc, data with
    | [], _ => Some (inc, w, progressed, Some data)
    | _ :: _, [] => Some (inc, w, progressed, Some [])
    | _ :: _, first :: rest =>
        match write_byte inc w first with
        | None => None
        | Some (inc', w', false) => Some (inc', w', progressed, None)
        | Some (inc', w', true) => feed inc' w' (S progressed) rest
        end
    end.
  (** support/rs_std/lossy_formatter.rs:61-87 [write_chunks]. *)
  Fixpoint write_chunks (inc : bytes) (w : W) (progressed : nat) (chs : list (bytes * bytes))
    : option (bytes * W * nat) :=
    match chs with
    | [] => Some (inc, w, progressed)
    | (v, i) :: chs' =>
        let (w1, ok) := wr w v in
        if negb ok then Some (inc, w1, progressed)
        else
          let p1 := (progressed + List.length v)%nat in
          match from_utf8 i with
          | None => match i with [] => write_chunks inc w1 p1 chs' | _ :: _ => None end
          | Some has_unexpected_byte =>
              let has_next_chunk := match chs' with [] => false | _ :: _ => true end in
              if has_next_chunk || has_unexpected_byte then
                let (w2, ok2) := wr w1 REPL in
                if negb ok2 then Some (inc, w2, p1)
                else write_chunks inc w2 (p1 + List.length i) chs'
              else
                match copy_from_slice i with
                | None => None
                | Some inc' => write_chunks inc' w1 (p1 + List.length i) chs'
                end
          end
    end.
  (** support/rs_std/lossy_formatter.rs:48-90 [write_slice]. *)
  Definition write_slice (inc : bytes) (w : W) (data : bytes) : option (bytes * W * nat) :=
    match feed inc w 0 data with
    | None => None
    | Some (inc', w', progressed, None) => Some (inc', w', progressed)
    | Some (inc', w', progressed, Some rest) => write_chunks inc' w' progressed (utf8_chunks rest)
    end.
  (** support/rs_std/lossy_formatter.rs:124-150 [write_fill]: [take_while(..).count()] stops at the
      first error. *)
  Fixpoint fill_bytes (inc : bytes) (w : W) (done count : nat) (data : byte) : option (bytes * W * nat) :=
    match count with
    | O => Some (inc, w, done)
    | S count' =>
        match write_byte inc w data with
        | None => None
        | Some (inc', w', true) => fill_bytes inc' w' (S done) count' data
        | Some (inc', w', false) => Some (inc', w', done)
        end
    end.
  Fixpoint fill_ascii (w : W) (done count : nat) (data : byte) : W * nat :=
    match count with
    | O => (w, done)
    | S count' =>
        let (w', ok) := wr w [data] in
        if ok then fill_ascii w' (S done) count' data else (w', done)
    end.
  Definition write_fill (inc : bytes) (w : W) (count : nat) (data : byte) : option (bytes * W * nat) :=
    if negb (data <? 128) then fill_bytes inc w 0 count data
    else match count with
         | O => Some (inc, w, 0%nat)
         | S _ =>
             match inc with
             | [] => let (w', n) := fill_ascii w 0 count data in Some ([], w', n)
             | _ :: _ =>
                 let (w1, ok) := wr w REPL in
                 if negb ok then Some ([], w1, 0%nat)
                 else let (w', n) := fill_ascii w1 0 count data in Some ([], w', n)
             end
         end.
  (** support/rs_std/lossy_formatter.rs:160-166 [flush]. *)
  Definition flush (inc : bytes) (w : W) : bytes * W * bool :=
    match inc with
    | [] => (inc, w, true)
    | _ :: _ => let (w', ok) := wr w REPL in ([], w', ok)
    end.

  (** Any sequence of calls; the answers are collected as how much was asked and how much the call
      says was done (success of [write_byte] and [flush] counts as 1). *)
  Inductive op := Slice (data : bytes) | Byte (data : byte) | Fill (count : nat) (data : byte) | Flush.
  Definition answer := (nat * nat)%type.
  Definition one (ok : bool) : nat := if ok then 1%nat else 0%nat.
  Definition step (inc : bytes) (w : W) (o : op) : option (bytes * W * answer) :=
    match o with
    | Slice d => match write_slice inc w d with Some (i, w', n) => Some (i, w', (List.length d, n)) | None => None end
    | Byte b => match write_byte inc w b with Some (i, w', ok) => Some (i, w', (1%nat, one ok)) | None => None end
    | Fill c b => match write_fill inc w c b with Some (i, w', n) => Some (i, w', (c, n)) | None => None end
    | Flush => let '(i, w', ok) := flush inc w in Some (i, w', (1%nat, one ok))
    end.
  Fixpoint run (inc : bytes) (w : W) (ops : list op) : option (bytes * W * list answer) :=
    match ops with
    | [] => Some (inc, w, [])
    | o :: ops' =>
        match step inc w o with
        | None => None
        | Some (inc1, w1, a) =>
            match run inc1 w1 ops' with
            | None => None
            | Some (inc2, w2, l) => Some (inc2, w2, a :: l)
            end
        end
    end.

  (** support/cc_std_impl/lossy_utf8.rs:13-22 [LossyUtf8Display::fmt]. *)
  Fixpoint display_chunks (w : W) (chs : list (bytes * bytes)) : W * bool :=
    match chs with
    | [] => (w, true)
    | (v, i) :: chs' =>
        let (w1, ok) := wr w v in
        if negb ok then (w1, false)
        else match i with
             | [] => display_chunks w1 chs'
             | _ :: _ => let (w2, ok2) := wr w1 REPL in if negb ok2 then (w2, false) else display_chunks w2 chs'
             end
    end.
  Definition lossy_display (w : W) (s : bytes) : W * bool := display_chunks w (utf8_chunks s).
End Sink.
(** The sink that never fails and keeps what is written. *)
Definition keep (w : bytes) (t : bytes) : bytes * bool := (w ++ t, true).
