(** Model of /repo/support/extract_cpp_from_rust: finding the embedded C++
    macro blocks in a Rust file, the header written from them, the names of the
    thunks and the two-pass formatter.

    Characters are Unicode code points; a source text is a list of characters,
    offsets count UTF-8 bytes, columns count characters, as in the code.

    The Rust lexer ([ra_ap_rustc_lexer]) is not modelled: the model starts from
    the token list it returns (kind and text of each token, in order, the texts
    concatenating to the source).  [rustfmt] and [clang-format] are parameters. *)
From Coq Require Import List NArith Arith Bool Ascii String.
Import ListNotations.
Local Open Scope string_scope.
Local Open Scope nat_scope.
Local Open Scope list_scope.

Notation text := (list N).

(** Literals of the program, as code points. *)
Definition T (s : string) : text :=
  List.map (fun c => N_of_ascii c) (list_ascii_of_string s).

Definition newline : N := 10%N.
Definition space : N := 32%N.

(** UTF-8 length of a character and of a text ([str::len]). *)
Definition len8 (c : N) : nat :=
  if (c <? 128)%N then 1 else if (c <? 2048)%N then 2
  else if (c <? 65536)%N then 3 else 4.
Fixpoint bytes (t : text) : nat :=
  match t with [] => 0 | c :: r => len8 c + bytes r end.

(** [&s[..n]] and [&s[n..]] at byte offset [n]; the code panics when [n] is not
    a character boundary, the model rounds down/up (never reached, see
    [InlineCpp/Proofs.v]). *)
Fixpoint btake (n : nat) (t : text) : text :=
  match t with
  | [] => []
  | c :: r => if len8 c <=? n then c :: btake (n - len8 c) r else []
  end.
Fixpoint bdrop (n : nat) (t : text) : text :=
  match t with
  | [] => []
  | c :: r => if len8 c <=? n then bdrop (n - len8 c) r else t
  end.
(** [&s[a..b]] *)
Definition slice (s : text) (a b : nat) : text := bdrop a (btake b s).

(** The token kinds the code looks at; every other kind of the lexer is
    [OtherTok] (literals, other punctuation, lifetimes, raw identifiers, unknown
    characters...).  Comments are named because the properties mention them. *)
Inductive tkind :=
| Whitespace | Comment | Ident | Colon | Bang
| OpenBrace | CloseBrace | OpenParen | CloseParen | OpenBracket | CloseBracket
| OtherTok.

Definition tkind_eqb (a b : tkind) : bool :=
  match a, b with
  | Whitespace, Whitespace | Comment, Comment | Ident, Ident | Colon, Colon
  | Bang, Bang | OpenBrace, OpenBrace | CloseBrace, CloseBrace
  | OpenParen, OpenParen | CloseParen, CloseParen
  | OpenBracket, OpenBracket | CloseBracket, CloseBracket
  | OtherTok, OtherTok => true
  | _, _ => false
  end.

(** A token of the lexer: its kind and its text. *)
Record tok := Tok { tk : tkind; tx : text }.

(** parse_inline_cpp_macros.rs:11-26 [MacroKind] *)
Inductive mkind := InlineCpp | GlobalCpp | DoNotSubmitCppDecl.

(** parse_inline_cpp_macros.rs:29-48 [ParsedMacro] *)
Record pmacro := PMacro {
  m_kind : mkind;
  m_start : nat; m_line : nat; m_col : nat;
  m_body_start : nat; m_body_end : nat;
  m_body_line : nat; m_body_col : nat;
  m_body : text
}.

(** parse_inline_cpp_macros.rs:50-63 [SpannedToken].  The code keeps offsets and
    slices the source for the text; the model keeps the text itself (the lexer's
    lengths partition the source). *)
Record stok := St { s_kind : tkind; s_text : text; s_start : nat; s_len : nat;
                    s_line : nat; s_col : nat }.

(** parse_inline_cpp_macros.rs:87-94: the loop over the characters of a token. *)
Fixpoint adv (p : nat * nat) (t : text) : nat * nat :=
  match t with
  | [] => p
  | c :: r => adv (if (c =? newline)%N then (fst p + 1, 1) else (fst p, snd p + 1)) r
  end.

(** parse_inline_cpp_macros.rs:74-108 [MacroParser::new] *)
Fixpoint spans (offset : nat) (p : nat * nat) (ts : list tok) : list stok :=
  match ts with
  | [] => []
  | t :: r =>
      St (tk t) (tx t) offset (bytes (tx t)) (fst p) (snd p)
      :: spans (offset + bytes (tx t)) (adv p (tx t)) r
  end.

Fixpoint text_eqb (a b : text) : bool :=
  match a, b with
  | [], [] => true
  | x :: a', y :: b' => (x =? y)%N && text_eqb a' b'
  | _, _ => false
  end.

(** parse_inline_cpp_macros.rs:168-179: the three names. *)
Definition macro_of (t : text) : option mkind :=
  if text_eqb t (T "inline_cpp") then Some InlineCpp
  else if text_eqb t (T "global_cpp") then Some GlobalCpp
  else if text_eqb t (T "DO_NOT_SUBMIT_CPP_DECL") then Some DoNotSubmitCppDecl
  else None.

(** parse_inline_cpp_macros.rs:120-126 [eat_whitespace] (and :189-192), returning
    the number of tokens skipped and the tokens left. *)
Fixpoint eat_ws (ts : list stok) : nat * list stok :=
  match ts with
  | t :: r => if tkind_eqb (s_kind t) Whitespace
              then let '(n, r') := eat_ws r in (S n, r') else (0, ts)
  | [] => (0, [])
  end.

(** parse_inline_cpp_macros.rs:128-138 [try_eat_path_separator_at] *)
Definition eat_sep (ts : list stok) : nat * list stok :=
  match ts with
  | a :: b :: r => if tkind_eqb (s_kind a) Colon && tkind_eqb (s_kind b) Colon
                   then (2, r) else (0, ts)
  | _ => (0, ts)
  end.

(** parse_inline_cpp_macros.rs:159-184: the loop over the segments; [n] tokens
    consumed so far. *)
Fixpoint path_loop (n : nat) (ts : list stok) : option (mkind * nat * list stok) :=
  match ts with
  | [] => None
  | t :: r =>
      if tkind_eqb (s_kind t) Ident then
        match macro_of (s_text t) with
        | Some k => Some (k, n + 1, r)
        | None =>
            match r with
            | a :: b :: r' => if tkind_eqb (s_kind a) Colon && tkind_eqb (s_kind b) Colon
                              then path_loop (n + 3) r' else None
            | _ => None
            end
        end
      else None
  end.

(** parse_inline_cpp_macros.rs:152-201 [check_macro_path] *)
Definition check_macro_path (ts : list stok) : option (mkind * nat) :=
  let '(n0, ts0) := eat_sep ts in
  match path_loop n0 ts0 with
  | None => None
  | Some (k, n, r) =>
      let '(w, r') := eat_ws r in
      match r' with
      | b :: _ => if tkind_eqb (s_kind b) Bang then Some (k, n + w + 1) else None
      | [] => None
      end
  end.

(** parse_inline_cpp_macros.rs:235-262: the loop that looks for the closing
    brace; returns its start offset and the tokens after it. *)
Fixpoint close_brace (depth : nat) (ts : list stok) : option (nat * list stok) :=
  match ts with
  | [] => None
  | t :: r =>
      if tkind_eqb (s_kind t) OpenBrace then close_brace (depth + 1) r
      else if tkind_eqb (s_kind t) CloseBrace then
        if depth - 1 =? 0 then Some (s_start t, r) else close_brace (depth - 1) r
      else close_brace depth r
  end.

(** The result of the parser: the macros, or the line of the unclosed macro (the
    text of the error message is not modelled). *)
Inductive presult := POk (ms : list pmacro) | PErr (line : nat).

Definition pcons (m : pmacro) (r : presult) : presult :=
  match r with POk ms => POk (m :: ms) | e => e end.

(** parse_inline_cpp_macros.rs:204-281 [next_macro] called by
    [parse_inline_cpp_macros] (:284-295) until it returns none: the two loops are
    one recursion over the tokens left; [fuel] bounds the iterations (each one
    consumes a token). *)
Fixpoint scan (fuel : nat) (src : text) (ts : list stok) : presult :=
  match fuel with
  | O => POk []
  | S fuel' =>
      match ts with
      | [] => POk []
      | t :: r =>
          match check_macro_path ts with
          | None => scan fuel' src r
          | Some (k, n) =>
              let '(_, after) := eat_ws (skipn n ts) in
              match after with
              | [] => scan fuel' src []
              | o :: body =>
                  if tkind_eqb (s_kind o) OpenBrace then
                    let bs := s_start o + s_len o in
                    let '(bl, bc) := match body with
                                     | t' :: _ => (s_line t', s_col t')
                                     | [] => (s_line o, s_col o + s_len o)
                                     end in
                    match close_brace 1 body with
                    | Some (be, rest) =>
                        pcons (PMacro k (s_start t) (s_line t) (s_col t) bs be bl bc
                                      (slice src bs be))
                              (scan fuel' src rest)
                    | None => PErr (s_line t)
                    end
                  else scan fuel' src after
              end
          end
      end
  end.

(** The text the tokens make up. *)
Definition texts (ts : list tok) : text := List.concat (List.map tx ts).

(** parse_inline_cpp_macros.rs:284-295 [parse_inline_cpp_macros] *)
Definition parse (ts : list tok) : presult :=
  scan (S (List.length ts)) (texts ts) (spans 0 (1, 1) ts).

(** ** Thunk names: inline_cpp_utils.rs *)

(** UTF-8 encoding of a character ([str::as_bytes]). *)
Definition utf8 (c : N) : list N :=
  if (c <? 128)%N then [c]
  else if (c <? 2048)%N then [192 + c / 64; 128 + c mod 64]%N
  else if (c <? 65536)%N then
    [224 + c / 4096; 128 + (c / 64) mod 64; 128 + c mod 64]%N
  else [240 + c / 262144; 128 + (c / 4096) mod 64; 128 + (c / 64) mod 64; 128 + c mod 64]%N.
Definition as_bytes (t : text) : list N := List.concat (List.map utf8 t).

(** inline_cpp_utils.rs:5-23 [Fnv1aHasher] *)
Definition fnv_basis : N := 14695981039346656037%N.   (* 0xcbf29ce484222325 *)
Definition fnv_prime : N := 1099511628211%N.          (* 0x100000001b3 *)
Definition two64 : N := 18446744073709551616%N.
Definition fnv_byte (h b : N) : N := (N.lxor h b * fnv_prime mod two64)%N.
Definition fnv_write (h : N) (bs : list N) : N := fold_left fnv_byte bs h.

(** [usize::to_ne_bytes] on a 64-bit little-endian machine. *)
Fixpoint le_bytes (k : nat) (n : N) : list N :=
  match k with O => [] | S k' => (n mod 256)%N :: le_bytes k' (n / 256)%N end.

Definition thunk_hash (target file : text) (line col : N) : N :=
  fnv_write (fnv_write (fnv_write (fnv_write fnv_basis (as_bytes target)) (as_bytes file))
                       (le_bytes 8 line)) (le_bytes 8 col).

(** [Path::file_name]: the components are the pieces between slashes without the
    empty ones and the dots; none when there is no component or it is [..]. *)
Fixpoint split_on (sep : N) (t : text) : list text :=
  match t with
  | [] => [[]]
  | c :: r => if (c =? sep)%N then [] :: split_on sep r
              else match split_on sep r with
                   | p :: ps => (c :: p) :: ps
                   | [] => [[c]]
                   end
  end.
Definition file_name (path : text) : option text :=
  match rev (filter (fun p => negb (text_eqb p [] || text_eqb p (T "."))) (split_on 47%N path)) with
  | [] => None
  | p :: _ => if text_eqb p (T "..") then None else Some p
  end.

Definition escape_char (c : N) : N :=
  if (c =? 46)%N || (c =? 45)%N then 95%N else c.

(** [{:016x}] *)
Definition hex_digit (d : N) : N := if (d <? 10)%N then (48 + d)%N else (87 + d)%N.
Fixpoint hex (k : nat) (h : N) : text :=
  match k with O => [] | S k' => hex k' (h / 16)%N ++ [hex_digit (h mod 16)%N] end.

(** inline_cpp_utils.rs:25-40 [compute_thunk_name] *)
Definition compute_thunk_name (target file : text) (line col : N) : text :=
  let base := match file_name file with Some f => f | None => T "source" end in
  T "inline_cpp_thunk_" ++ List.map escape_char base ++ T "_"
    ++ hex 16 (thunk_hash target file line col).

(** ** The header: extract_cpp_from_rust.rs *)

(** Decimal digits of a number ([{}] of a [usize]). *)
Fixpoint dec_fuel (fuel : nat) (n : nat) (acc : text) : text :=
  match fuel with
  | O => acc
  | S f => let acc' := N.of_nat (48 + n mod 10) :: acc in
           if n / 10 =? 0 then acc' else dec_fuel f (n / 10) acc'
  end.
Definition dec (n : nat) : text := dec_fuel (S n) n [].

Definition padding (m : pmacro) : text := repeat space (m_body_col m - 1).

(** [#line {} "{}"\n{}{}\n] *)
Definition line_chunk (file : text) (m : pmacro) : text :=
  T "#line " ++ dec (m_body_line m) ++ T " """ ++ file ++ T """" ++ [newline]
    ++ padding m ++ m_body m ++ [newline].

(** extract_cpp_from_rust.rs:54-75 [extract_global_cpp] (without the lint) *)
Fixpoint extract_global_cpp (ms : list pmacro) (file : text) : text :=
  match ms with
  | [] => []
  | m :: r => match m_kind m with
              | InlineCpp => extract_global_cpp r file
              | _ => line_chunk file m ++ extract_global_cpp r file
              end
  end.

(** *** Signature check: extract_cpp_from_rust.rs:82-153 *)

(** Unicode White_Space ([char::is_whitespace], used by [trim]). *)
Definition is_ws (c : N) : bool :=
  ((9 <=? c) && (c <=? 13) || (c =? 32) || (c =? 133) || (c =? 160) || (c =? 5760)
   || (8192 <=? c) && (c <=? 8202) || (c =? 8232) || (c =? 8233) || (c =? 8239)
   || (c =? 8287) || (c =? 12288))%N.

Fixpoint trim_start (t : text) : text :=
  match t with [] => [] | c :: r => if is_ws c then trim_start r else t end.
Definition trim_end (t : text) : text := rev (trim_start (rev t)).
Definition trim (t : text) : text := trim_end (trim_start t).

Fixpoint starts_with (p t : text) : bool :=
  match p, t with
  | [], _ => true
  | x :: p', y :: t' => (x =? y)%N && starts_with p' t'
  | _ :: _, [] => false
  end.

Inductive verr := EmptyBlock | NoParams | MismatchedParens | NoBrace
| NoContents | MismatchedBraces | NoReturnType.

Fixpoint drop_ws_toks (ts : list tok) : list tok :=
  match ts with
  | t :: r => if tkind_eqb (tk t) Whitespace then drop_ws_toks r else ts
  | [] => []
  end.

(** extract_cpp_from_rust.rs:106-126: the search for the closing parenthesis,
    from the first parenthesis on; returns the tokens after it.  The depth is a
    signed number in the code; it never goes below zero, since the search stops
    there. *)
Fixpoint close_paren (depth : nat) (ts : list tok) : option (list tok) :=
  match ts with
  | [] => None
  | t :: r =>
      if tkind_eqb (tk t) OpenParen then close_paren (depth + 1) r
      else if tkind_eqb (tk t) CloseParen then
        if depth - 1 =? 0 then Some r else close_paren (depth - 1) r
      else close_paren depth r
  end.

(** extract_cpp_from_rust.rs:128-137: the tokens before the first open brace. *)
Fixpoint upto_brace (ts : list tok) : option (list tok) :=
  match ts with
  | [] => None
  | t :: r => if tkind_eqb (tk t) OpenBrace then Some []
              else option_map (cons t) (upto_brace r)
  end.

(** extract_cpp_from_rust.rs:82-153 [validate_inline_cpp_syntax]; [ts] are the
    tokens of the body text. *)
Definition validate (ts : list tok) : option verr :=
  match drop_ws_toks ts with
  | [] => Some EmptyBlock
  | f :: _ =>
      if negb (tkind_eqb (tk f) OpenParen) then Some NoParams
      else match close_paren 0 (drop_ws_toks ts) with
           | None => Some MismatchedParens
           | Some rest =>
               match upto_brace rest with
               | None => Some NoBrace
               | Some ret =>
                   match drop_ws_toks (rev ts) with
                   | [] => Some NoContents
                   | l :: _ =>
                       if negb (tkind_eqb (tk l) CloseBrace) then Some MismatchedBraces
                       else
                         let r := trim (texts ret) in
                         if text_eqb r [] || negb (starts_with (T "->") r)
                         then Some NoReturnType else None
                   end
               end
           end
  end.

Section Lexer.
(** The lexer, for the second lexing of a body. *)
Variable lex : text -> list tok.

(** extract_cpp_from_rust.rs:155-183 [extract_inline_cpp] *)
Fixpoint extract_inline_cpp (ms : list pmacro) (file target : text) : text + verr :=
  match ms with
  | [] => inl []
  | m :: r =>
      match m_kind m with
      | InlineCpp =>
          match validate (lex (m_body m)) with
          | Some e => inr e
          | None =>
              match extract_inline_cpp r file target with
              | inr e => inr e
              | inl out =>
                  inl (T "inline auto "
                         ++ compute_thunk_name target file (N.of_nat (m_line m)) (N.of_nat (m_col m))
                         ++ [newline] ++ line_chunk file m ++ [newline] ++ out)
              end
          end
      | _ => extract_inline_cpp r file target
      end
  end.

(** extract_cpp_from_rust.rs:185-214: the loop over the source files; [None]
    when the tool exits with an error (an unclosed block or a bad signature). *)
Fixpoint snippets (srcs : list (text * list tok)) (target : text) : option text :=
  match srcs with
  | [] => Some []
  | (file, ts) :: r =>
      match parse ts with
      | PErr _ => None
      | POk ms =>
          match extract_inline_cpp ms file target with
          | inr _ => None
          | inl inl_out =>
              option_map (fun rest => extract_global_cpp ms file ++ inl_out ++ rest)
                         (snippets r target)
          end
      end
  end.
End Lexer.

(** extract_cpp_from_rust.rs:226-231 *)
Definition guard_name : text := T "CRUBIT_EXTRACTED_GLOBAL_CPP_H_".
Definition header (content : text) : text :=
  T "#ifndef " ++ guard_name ++ [newline] ++ T "#define " ++ guard_name ++ [newline; newline]
    ++ content ++ [newline] ++ T "#endif  // " ++ guard_name ++ [newline].

(** ** The formatter: rust_with_cpp_fmt.rs *)

Section Formatter.
(** clang-format: the text it prints for an input and a column limit; [None]
    when the process cannot be run or fails. *)
Variable cf : text -> nat -> option text.

Definition wrap1 : text := T "inline auto __crubit_fmt_wrapper".
Definition wrap2 : text := T "void __crubit_fmt_wrapper()".

(** [s.find(p)], returning the text after the first occurrence. *)
Fixpoint find_after (p s : text) : option text :=
  if starts_with p s then Some (skipn (List.length p) s)
  else match s with [] => None | _ :: r => find_after p r end.

Fixpoint drop_nl (t : text) : text :=
  match t with [] => [] | c :: r => if (c =? newline)%N then drop_nl r else t end.
(** [trim_matches('\n')] *)
Definition trim_nl (t : text) : text := rev (drop_nl (rev (drop_nl t))).

(** rust_with_cpp_fmt.rs:126-168 [run_clang_format] *)
Definition run_clang_format (body : text) (k : mkind) (limit : nat) : option text :=
  let trimmed := trim body in
  let '(input, wrapper) :=
    match k with
    | InlineCpp => if starts_with (T "(") trimmed
                   then (wrap1 ++ T " " ++ trimmed, Some wrap1)
                   else (wrap2 ++ T " " ++ trimmed, Some wrap2)
    | _ => (trimmed, None)
    end in
  match cf input limit with
  | None => None
  | Some formatted =>
      match wrapper with
      | Some p => match find_after p formatted with
                  | Some rest => Some (trim_nl (trim_start rest))
                  | None => Some (trim_nl formatted)
                  end
      | None => Some (trim_nl formatted)
      end
  end.

(** [str::lines]: split at newlines, one carriage return before a newline
    dropped, no last empty line. *)
Fixpoint strip_cr (l : text) : text :=
  match l with
  | [] => []
  | [c] => if (c =? 13)%N then [] else [c]
  | c :: r => c :: strip_cr r
  end.
Fixpoint lines_from (cur t : text) : list text :=
  match t with
  | [] => match cur with [] => [] | _ => [cur] end
  | c :: r => if (c =? newline)%N then strip_cr cur :: lines_from [] r
              else lines_from (cur ++ [c]) r
  end.
Definition lines (t : text) : list text := lines_from [] t.

(** The text after the last newline ([rfind('\n')]), and the number of spaces it
    begins with. *)
Fixpoint last_line (t : text) : text :=
  match t with
  | [] => []
  | c :: r => if existsb (fun d => (d =? newline)%N) t then last_line r else t
  end.
Fixpoint leading_spaces (t : text) : nat :=
  match t with c :: r => if (c =? space)%N then S (leading_spaces r) else 0 | [] => 0 end.

Definition indent_line (n : nat) (l : text) : text :=
  match trim l with
  | [] => [newline]
  | _ => repeat space n ++ l ++ [newline]
  end.

(** rust_with_cpp_fmt.rs:196-199 *)
Definition base_indent (src : text) (m : pmacro) : nat :=
  leading_spaces (last_line (btake (m_start m) src)).

(** rust_with_cpp_fmt.rs:201-230: the replacement text of one macro. *)
Definition replacement (src : text) (m : pmacro) : text :=
  let base := base_indent src m in
  let limit := Nat.max (80 - (base + 4)) 20 in
  let formatted := match run_clang_format (m_body m) (m_kind m) limit with
                   | Some f => f
                   | None => trim (m_body m)
                   end in
  let body := List.concat (List.map (indent_line (base + 4)) (lines formatted)) in
  match body with
  | [] => T "{}"
  | _ => T "{" ++ [newline] ++ body ++ repeat space base ++ T "}"
  end.

(** [s[..n].rfind('{')]: the byte offset of the last open brace. *)
Fixpoint rfind_brace (off : nat) (t : text) : option nat :=
  match t with
  | [] => None
  | c :: r => match rfind_brace (off + len8 c) r with
              | Some p => Some p
              | None => if (c =? 123)%N then Some off else None
              end
  end.

(** [String::replace_range] *)
Definition replace_range (s : text) (a b : nat) (r : text) : text :=
  btake a s ++ r ++ bdrop b s.

(** rust_with_cpp_fmt.rs:193-243: the replacements, applied from the last to the
    first. *)
Fixpoint replacements (src : text) (ms : list pmacro) : option (list (nat * nat * text)) :=
  match ms with
  | [] => Some []
  | m :: r =>
      match rfind_brace 0 (btake (m_body_start m) src) with
      | None => None
      | Some p => option_map (cons (p, m_body_end m + 1, replacement src m))
                             (replacements src r)
      end
  end.

Definition apply_all (src : text) (rs : list (nat * nat * text)) : text :=
  fold_left (fun s '(a, b, r) => replace_range s a b r) (rev rs) src.

(** rust_with_cpp_fmt.rs:171-246 [format_rust_source], from the output of rustfmt
    (as a token list) on; [None] when it returns an error. *)
Definition format (ts : list tok) : option text :=
  match parse ts with
  | PErr _ => None
  | POk [] => Some (texts ts)
  | POk ms => option_map (apply_all (texts ts)) (replacements (texts ts) ms)
  end.
End Formatter.

(** ** The macro without a build: inline_cpp_macro.rs:43-75 *)

(** The token trees of the macro input: a group with its delimiter, or a single
    token, of which only the comma matters. *)
Inductive delim := Paren | Brace | Bracket | NoDelim.
Inductive tree := Group (d : delim) (ts : list tree) | Comma | Leaf (t : text).

(** inline_cpp_macro.rs:46-68: the arity of the placeholder closure. *)
Definition param_count (input : list tree) : nat :=
  match input with
  | Group Paren stream :: _ =>
      match stream with
      | [] => 0
      | _ => List.length (filter (fun t => match t with Comma => true | _ => false end) stream) + 1
      end
  | _ => 1
  end.
