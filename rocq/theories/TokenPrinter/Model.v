(** Model of common/token_stream_printer.rs (the printer and its provenance records) and of the
    quoting in common/code_gen_utils.rs:711-728.  rustfmt and clang-format are not modelled. *)
From Coq Require Import List NArith Bool Arith Lia.
From Coq Require Import Strings.String.
From Verif.Common Require Import Str Replace.
Import ListNotations.
Local Open Scope N_scope.
Local Open Scope list_scope.

Inductive spacing := Alone | Joint.
Inductive delimiter := Parenthesis | Bracket | Brace | NoDelim.
(** proc_macro2 token streams: a sequence of token trees, written as a list whose [TGroup]
    cells hold another sequence.  Identifiers and literals are given by their [Display] text. *)
Inductive ts :=
| TNil
| TIdent (id : str) (rest : ts)
| TPunct (c : char) (sp : spacing) (rest : ts)
| TLit (text : str) (rest : ts)
| TGroup (d : delimiter) (inner rest : ts).
(** A single token tree (without its successors); the contents of groups never matter for spacing. *)
Inductive tok := KIdent (id : str) | KPunct (c : char) (sp : spacing) | KLit | KGroup.
(** [Peekable::peek]. *)
Definition peek (t : ts) : option tok :=
  match t with
  | TNil => None
  | TIdent id _ => Some (KIdent id)
  | TPunct c sp _ => Some (KPunct c sp)
  | TLit _ _ => Some KLit
  | TGroup _ _ _ => Some KGroup
  end.

Definition NEWLINE := lit "__NEWLINE__".
Definition SPACE := lit "__SPACE__".
Definition HASH := lit "__HASH_TOKEN__".
Definition CAPTURE_TAG := lit "__CAPTURE_TAG__".
Definition CAPTURE_BEGIN := lit "__CAPTURE_BEGIN__".
Definition CAPTURE_END := lit "__CAPTURE_END__".
Definition COMMENT := lit "__COMMENT__".
Definition LITERALLY := lit "__LITERALLY__".

(** common/token_stream_printer.rs:521-527 [is_ident_or_literal]. *)
Definition is_ident_or_literal (t : tok) : bool :=
  match t with
  | KIdent id => negb (str_eqb id NEWLINE) && negb (str_eqb id SPACE)
  | KLit => true
  | _ => false
  end.
(** common/token_stream_printer.rs:492-500 [get_colon]: the spacing of a colon. *)
Definition get_colon (t : tok) : option spacing :=
  match t with
  | KPunct c sp => if c =? ch ":" then Some sp else None
  | _ => None
  end.
(** common/token_stream_printer.rs:479-519 [tokens_require_whitespace]. *)
Definition tokens_require_whitespace (prev : option tok) (current next : tok) : bool :=
  if is_ident_or_literal current && is_ident_or_literal next then true
  else match get_colon current with
       | None => false
       | Some Joint => false
       | Some Alone =>
           match match prev with Some p => get_colon p | None => None end with
           | Some Joint => match get_colon next with Some _ => true | None => false end
           | _ => true
           end
       end.

(** Double quote and backslash. *)
Definition dquote : char := 34.
Definition bslash : char := 92.
Definition nl : str := [10].
(** common/token_stream_printer.rs:207-210 [clean_literal]. *)
Definition clean_literal (text : str) : str :=
  str_replace [bslash; dquote] [dquote] (trim_c dquote text).
(** common/token_stream_printer.rs:295-302: the text written for [__COMMENT__]. *)
Definition comment_text (text : str) : str :=
  lit "// " ++
  str_replace [bslash; ch "n"] (nl ++ lit "// ")
    (str_replace [bslash; dquote] [dquote] (trim_c dquote text)) ++ nl.
(** common/token_stream_printer.rs:312-319: the text written for [__LITERALLY__]. *)
Definition literally_text (text : str) : str :=
  str_replace [bslash; bslash] [bslash]
    (str_replace [bslash; dquote] [dquote] (trim_c dquote text)) ++ nl.
(** common/token_stream_printer.rs:325-330. *)
Definition delimiters (d : delimiter) : str * str :=
  match d with
  | Parenthesis => (lit "(", lit ")")
  | Bracket => (lit "[", lit "]")
  | Brace => (lit "{ ", lit " }")
  | NoDelim => ([], [])
  end.

(** common/token_stream_printer.rs:155-168 [GeneratedOffsetsWithProvenance].  Offsets are counted in
    characters instead of bytes; every recorded offset is the length of the text written so far,
    so slicing there never splits a character. *)
Record gen := Gen {
  search_start : nat; dest_start : nat; dest_end : nat;
  o_path : str; o_start : str; o_end : str }.
(** common/token_stream_printer.rs:220-246 [TokenOutputState] with its [new]; [cur_len] is
    the length of the string written (385-389, 392-397).  Writing to a [String] does not fail. *)
Record st := St {
  out : str; last_begin : option nat; index : nat; entry : gen; pmap : list (nat * gen) }.
Definition st_new : st := St [] None 0 (Gen 0 0 0 [] [] []) [].
Definition emit (s : st) (text : str) : st :=
  St (out s ++ text) (last_begin s) (index s) (entry s) (pmap s).
(** [HashMap::insert]: a later record for the same key replaces the earlier one. *)
Definition map_insert {A} (k : nat) (v : A) (m : list (nat * A)) : list (nat * A) :=
  (k, v) :: filter (fun p => negb (Nat.eqb (fst p) k)) m.
Fixpoint map_get {A} (k : nat) (m : list (nat * A)) : option A :=
  match m with
  | [] => None
  | (k', v) :: m' => if Nat.eqb k' k then Some v else map_get k m'
  end.
(** common/token_stream_printer.rs:257-275. *)
Definition capture_tag (s : st) (a b c : str) : st :=
  let e := entry s in
  St (out s) (last_begin s) (S (index s))
     (Gen (List.length (out s)) (dest_start e) (dest_end e)
          (clean_literal a) (clean_literal b) (clean_literal c)) (pmap s).
(** common/token_stream_printer.rs:276-278. *)
Definition capture_begin (s : st) : st :=
  St (out s) (Some (List.length (out s))) (index s) (entry s) (pmap s).
(** common/token_stream_printer.rs:279-292. *)
Definition capture_end (s : st) : st :=
  match last_begin s with
  | Some b =>
      let e := entry s in
      St (out s) (last_begin s) (index s) e
         (map_insert (index s)
            (Gen (search_start e) b (List.length (out s)) (o_path e) (o_start e) (o_end e)) (pmap s))
  | None => s
  end.
(** common/token_stream_printer.rs:335-346: an ordinary token and the space after it. *)
Definition ordinary (s : st) (prev : option tok) (t : tok) (text : str) (rest : ts) : st :=
  let s' := emit s text in
  match peek rest with
  | Some next => if tokens_require_whitespace prev t next then emit s' (lit " ") else s'
  | None => s'
  end.
(** common/token_stream_printer.rs:249-351 [write_stream]; [None] is an error. *)
Fixpoint write_stream (s : st) (prev : option tok) (t : ts) : option st :=
  match t with
  | TNil => Some s
  | TIdent id rest =>
      let this := KIdent id in
      if str_eqb id NEWLINE then write_stream (emit s nl) (Some this) rest
      else if str_eqb id SPACE then write_stream (emit s (lit " ")) (Some this) rest
      else if str_eqb id HASH then write_stream (emit s (lit "#")) (Some this) rest
      else if str_eqb id CAPTURE_TAG then
        match rest with
        | TLit a (TLit b (TLit c rest')) => write_stream (capture_tag s a b c) (Some this) rest'
        | _ => None
        end
      else if str_eqb id CAPTURE_BEGIN then write_stream (capture_begin s) (Some this) rest
      else if str_eqb id CAPTURE_END then write_stream (capture_end s) (Some this) rest
      else if str_eqb id COMMENT then
        match rest with
        | TLit a rest' => write_stream (emit s (comment_text a)) (Some this) rest'
        | _ => None
        end
      else if str_eqb id LITERALLY then
        match rest with
        | TLit a rest' => write_stream (emit s (literally_text a)) (Some this) rest'
        | _ => None
        end
      else write_stream (ordinary s prev this id rest) (Some this) rest
  | TPunct c sp rest =>
      let this := KPunct c sp in
      write_stream (ordinary s prev this [c] rest) (Some this) rest
  | TLit text rest => write_stream (ordinary s prev KLit text rest) (Some KLit) rest
  | TGroup d inner rest =>
      let (o, c) := delimiters d in
      match write_stream (emit s o) None inner with
      | Some s' => write_stream (emit s' c) (Some KGroup) rest
      | None => None
      end
  end.
(** common/token_stream_printer.rs:385-389 [tokens_to_string]. *)
Definition tokens_to_string (t : ts) : option str := option_map out (write_stream st_new None t).

(** common/token_stream_printer.rs:173-184 [SubstringWithProvenance]. *)
Record sub := Sub { s_text : str; s_index : nat; s_path : str; s_start : str; s_end : str }.

Section Provenance.
  (** Unicode white space ([char::is_whitespace]). *)
  Variable ws : char -> bool.
  (** [str::trim]. *)
  Fixpoint trim_start_ws (s : str) : str :=
    match s with c :: s' => if ws c then trim_start_ws s' else s | [] => [] end.
  Definition trim_ws (s : str) : str := rev (trim_start_ws (rev (trim_start_ws s))).
  (** [Iterator::position]. *)
  Fixpoint position {A} (f : A -> bool) (l : list A) : option nat :=
    match l with
    | [] => None
    | x :: l' => if f x then Some O else option_map S (position f l')
    end.
  Definition slice (a b : nat) (s : str) : str := firstn (b - a) (skipn a s).
  (** common/token_stream_printer.rs:400-428, one record; [Some None] skips it and [None] is
      the panic of [unwrap]. *)
  Definition resolve (result : str) (v : gen) : option (option sub) :=
    if (dest_end v <=? dest_start v)%nat || (dest_start v <? search_start v)%nat then Some None
    else
      let tok := trim_ws (slice (dest_start v) (dest_end v) result) in
      let adj_start := (dest_start v - search_start v)%nat in
      let adj_end := (dest_end v - search_start v)%nat in
      match position (fun ix => (adj_start <=? ix)%nat && (ix <? adj_end)%nat)
                     (match_indices tok (skipn (search_start v) result)) with
      | Some i => Some (Some (Sub tok i (o_path v) (o_start v) (o_end v)))
      | None => None
      end.
  Fixpoint resolve_all (result : str) (m : list (nat * gen)) : option (list (nat * sub)) :=
    match m with
    | [] => Some []
    | (k, v) :: m' =>
        match resolve result v, resolve_all result m' with
        | Some (Some x), Some l => Some ((k, x) :: l)
        | Some None, Some l => Some l
        | _, _ => None
        end
    end.
  (** common/token_stream_printer.rs:392-431 [tokens_to_string_with_provenance]: [None] is an
      [Err], [Some None] a panic. *)
  Definition tokens_to_string_with_provenance (t : ts) : option (option (str * list (nat * sub))) :=
    match write_stream st_new None t with
    | None => None
    | Some s => Some (match resolve_all (out s) (pmap s) with
                      | Some l => Some (out s, l)
                      | None => None
                      end)
    end.
End Provenance.

(** common/token_stream_printer.rs:189-200 [FormattedOffsetsWithProvenance]. *)
Record fmt_off := FmtOff { fo_start : nat; fo_end : nat; fo_path : str; fo_ostart : str; fo_oend : str }.
(** common/token_stream_printer.rs:438-472 [fix_provenance_map_postformatting]; the map is
    keyed by distinct tags, so the order of insertion is irrelevant. *)
Fixpoint fix_loop (content : str) (offs : list nat) (tag : nat) (m : list (nat * sub)) : list (nat * fmt_off) :=
  match offs with
  | [] => []
  | o :: offs' =>
      let more := fix_loop content offs' (S tag) m in
      match map_get (S tag) m with
      | None => more
      | Some v =>
          match s_text v with
          | [] => more
          | _ :: _ =>
              match nth_error (match_indices (s_text v) (skipn o content)) (s_index v) with
              | Some f => (S tag, FmtOff (f + o) (f + o + List.length (s_text v)) (s_path v) (s_start v) (s_end v)) :: more
              | None => more
              end
          end
      end
  end.
Definition fix_provenance_map_postformatting (content pattern : str) (m : list (nat * sub)) : list (nat * fmt_off) :=
  fix_loop content (match_indices pattern content) 0 m.

(** common/code_gen_utils.rs:723-724: the literal made for a C++ name that is not Rust tokens. *)
Definition quote_name (name : str) : str :=
  [dquote] ++ str_replace [dquote] [bslash; dquote] (str_replace [bslash] [bslash; bslash] name) ++ [dquote].
Definition literally_tokens (name : str) (rest : ts) : ts := TIdent LITERALLY (TLit (quote_name name) rest).
