(** Vocabulary for the properties of the extraction of C++ from Rust files,
    independent of the functions of the model.  Only the data types (tokens,
    token kinds, macro kinds, the reported macro record) are shared. *)
From Coq Require Import List NArith Arith Bool Ascii String Sorted.
From Verif Require Import InlineCpp.Model.
Import ListNotations.
Local Open Scope string_scope.
Local Open Scope nat_scope.
Local Open Scope list_scope.

(** ** Texts *)

(** Number of bytes of a character in UTF-8. *)
Definition char_bytes (c : N) : nat :=
  if (65536 <=? c)%N then 4 else if (2048 <=? c)%N then 3 else if (128 <=? c)%N then 2 else 1.
Definition size (t : text) : nat := list_sum (List.map char_bytes t).

(** The source text of tokens. *)
Definition src (ts : list tok) : text := flat_map tx ts.

(** The position (line, column), both from 1, of the character that follows
    [pre]: one line per newline, and the columns count characters. *)
Definition At (pre : text) (line col : nat) : Prop :=
  exists a b, pre = a ++ b /\ ~ In 10%N b
    /\ (a = [] \/ exists a', a = a' ++ [10%N])
    /\ line = 1 + count_occ N.eq_dec pre 10%N /\ col = 1 + List.length b.

(** ** Tokens: what the lexer guarantees, that the theorems need *)
Definition tok_ok (t : tok) : Prop :=
  tx t <> []
  /\ (tk t = OpenBrace -> tx t = [123%N]) /\ (tk t = CloseBrace -> tx t = [125%N]).

Definition is_space (t : tok) : Prop := tk t = Whitespace.

(** ** Macro invocations *)
Definition macro_named (k : mkind) (t : text) : Prop :=
  match k with
  | InlineCpp => t = T "inline_cpp"
  | GlobalCpp => t = T "global_cpp"
  | DoNotSubmitCppDecl => t = T "DO_NOT_SUBMIT_CPP_DECL"
  end.

(** The identifier that names the macro. *)
Definition NameTok (k : mkind) (t : tok) : Prop := tk t = Ident /\ macro_named k (tx t).

(** [seg::seg::name], no token in between. *)
Inductive Segments (k : mkind) : list tok -> Prop :=
| seg_name t : NameTok k t -> Segments k [t]
| seg_more t a b r :
    tk t = Ident -> (forall k', ~ macro_named k' (tx t)) ->
    tk a = Colon -> tk b = Colon -> Segments k r -> Segments k (t :: a :: b :: r).

(** ... with an optional leading [::]. *)
Inductive MacroPath (k : mkind) : list tok -> Prop :=
| path_rel p : Segments k p -> MacroPath k p
| path_abs a b p : tk a = Colon -> tk b = Colon -> Segments k p -> MacroPath k (a :: b :: p).

(** Balanced braces. *)
Inductive Balanced : list tok -> Prop :=
| bal_nil : Balanced []
| bal_tok t l : tk t <> OpenBrace -> tk t <> CloseBrace -> Balanced l -> Balanced (t :: l)
| bal_group o a c b : tk o = OpenBrace -> Balanced a -> tk c = CloseBrace -> Balanced b ->
    Balanced (o :: a ++ c :: b).

(** [name ! {] with only white space in between. *)
Definition Call (k : mkind) (name : tok) (w1 : list tok) (bang : tok) (w2 : list tok) (o : tok) :=
  NameTok k name /\ Forall is_space w1 /\ tk bang = Bang /\ Forall is_space w2 /\ tk o = OpenBrace.

(** [m] describes a macro invocation with braces that is written in [ts]: path,
    [!], a balanced body between braces, at exactly the offsets, lines, columns
    and with exactly the body text that [m] says; the path is the longest one
    that ends there. *)
Definition Describes (ts : list tok) (m : pmacro) : Prop :=
  exists before path w1 bang w2 o body c after,
    ts = before ++ path ++ w1 ++ bang :: w2 ++ o :: body ++ c :: after
    /\ MacroPath (m_kind m) path
    /\ (forall b' x, before = b' ++ x -> x <> [] -> ~ MacroPath (m_kind m) (x ++ path))
    /\ Forall is_space w1 /\ tk bang = Bang /\ Forall is_space w2
    /\ tk o = OpenBrace /\ Balanced body /\ tk c = CloseBrace
    /\ m_start m = size (src before)
    /\ At (src before) (m_line m) (m_col m)
    /\ m_body_start m = size (src (before ++ path ++ w1 ++ bang :: w2 ++ [o]))
    /\ At (src (before ++ path ++ w1 ++ bang :: w2 ++ [o])) (m_body_line m) (m_body_col m)
    /\ m_body_end m = m_body_start m + size (src body)
    /\ m_body m = src body.

(** One macro ends (with its closing brace) before the next begins. *)
Definition Before (m1 m2 : pmacro) : Prop := m_body_end m1 + 1 <= m_start m2.

(** The call whose name follows [pre] is reported as [m], or is inside the body
    of [m]. *)
Definition Covered (k : mkind) (pre upto_brace : list tok) (m : pmacro) : Prop :=
  (m_kind m = k /\ m_body_start m = size (src (pre ++ upto_brace)))
  \/ (m_body_start m <= size (src pre) /\ size (src pre) < m_body_end m).

(** An invocation whose open brace is never closed, at line [line]. *)
Definition Unclosed (ts : list tok) (line : nat) : Prop :=
  exists k before path w1 bang w2 o rest col,
    ts = before ++ path ++ w1 ++ bang :: w2 ++ o :: rest
    /\ MacroPath k path /\ Forall is_space w1 /\ tk bang = Bang /\ Forall is_space w2
    /\ tk o = OpenBrace /\ At (src before) line col
    /\ ~ exists body c after, rest = body ++ c :: after /\ Balanced body /\ tk c = CloseBrace.

(** What Rust accepts as a macro invocation: white space and comments between any
    two tokens, and any of the three delimiters. *)
Definition trivia (t : tok) : Prop := tk t = Whitespace \/ tk t = Comment.
Inductive RustPath (k : mkind) : list tok -> Prop :=
| rp_name t : NameTok k t -> RustPath k [t]
| rp_more t s1 a b s2 r :
    tk t = Ident -> Forall trivia s1 -> tk a = Colon -> tk b = Colon -> Forall trivia s2 ->
    RustPath k r -> RustPath k (t :: s1 ++ a :: b :: s2 ++ r).
Definition delims (o c : tkind) : Prop :=
  (o = OpenBrace /\ c = CloseBrace) \/ (o = OpenParen /\ c = CloseParen)
  \/ (o = OpenBracket /\ c = CloseBracket).
Definition is_delim (t : tok) : Prop :=
  match tk t with
  | OpenBrace | CloseBrace | OpenParen | CloseParen | OpenBracket | CloseBracket => True
  | _ => False
  end.
(** An invocation whose body has no delimiter in it (enough for the
    counterexamples). *)
Definition RustCall (k : mkind) (ts : list tok) (body : list tok) : Prop :=
  exists path s1 bang s2 o c,
    ts = path ++ s1 ++ bang :: s2 ++ o :: body ++ [c]
    /\ RustPath k path /\ Forall trivia s1 /\ tk bang = Bang /\ Forall trivia s2
    /\ delims (tk o) (tk c) /\ (forall t, In t body -> ~ is_delim t).

(** ** The presumed position of C++ text after a [#line] directive *)

(** The text that follows [#line n "file"] starts at line [n], column 1; the
    character after [pre] is then at: *)
Definition PresumedAt (n : nat) (pre : text) (line col : nat) : Prop :=
  exists l, At pre l col /\ line = n + (l - 1).

(** ** Occurrences *)
Definition Infix (x t : text) : Prop := exists a b, t = a ++ x ++ b.

(** ** Signatures *)
Inductive ParBal : list tok -> Prop :=
| pb_nil : ParBal []
| pb_tok t l : tk t <> OpenParen -> tk t <> CloseParen -> ParBal l -> ParBal (t :: l)
| pb_group o a c b : tk o = OpenParen -> ParBal a -> tk c = CloseParen -> ParBal b ->
    ParBal (o :: a ++ c :: b).

(** White space characters (Unicode White_Space). *)
Definition White (c : N) : Prop :=
  (9 <= c <= 13)%N \/ (8192 <= c <= 8202)%N
  \/ In c [32; 133; 160; 5760; 8232; 8233; 8239; 8287; 12288]%N.

(** [( ... ) -> ... { ... }] with white space around, where the text between the
    parameters and the first brace starts with [->]. *)
Definition Signature (ts : list tok) : Prop :=
  exists w0 op params cp ret ob body cb w1,
    ts = w0 ++ op :: params ++ cp :: ret ++ ob :: body ++ cb :: w1
    /\ Forall is_space w0 /\ tk op = OpenParen /\ ParBal params /\ tk cp = CloseParen
    /\ (forall t, In t ret -> tk t <> OpenBrace) /\ tk ob = OpenBrace
    /\ tk cb = CloseBrace /\ Forall is_space w1
    /\ exists ws rest, src ret = ws ++ T "->" ++ rest /\ Forall White ws.

(** ** Formatting *)

(** The text without white space. *)
Definition solid (t u : text) : Prop :=
  u = filter (fun c => negb (existsb (N.eqb c)
        ([9; 10; 11; 12; 13; 32; 133; 160; 5760] ++ List.map (fun i => 8192 + N.of_nat i)%N (seq 0 11)
          ++ [8232; 8233; 8239; 8287; 12288])%N)) t.
(** Equal up to white space. *)
Definition SameCode (t u : text) : Prop := exists s, solid t s /\ solid u s.

(** [t'] is [t] with the block of each macro, braces included, replaced, and the
    rest left as it is. *)
Inductive Spliced : list (text * text) -> text -> text -> Prop :=
| splice_nil g : Spliced [] g g
| splice_cons g body repl bs t t' : Spliced bs t t' ->
    Spliced ((body, repl) :: bs) (g ++ [123%N] ++ body ++ [125%N] ++ t) (g ++ repl ++ t').

(** ** Identifiers *)
Definition ident_char (c : N) : Prop :=
  (48 <= c <= 57)%N \/ (65 <= c <= 90)%N \/ (97 <= c <= 122)%N \/ c = 95%N.
Definition Identifier (t : text) : Prop :=
  t <> [] /\ Forall ident_char t /\ (forall c r, t = c :: r -> ~ (48 <= c <= 57)%N).
(** The usual file names. *)
Definition plain_file_char (c : N) : Prop := ident_char c \/ c = 46%N \/ c = 45%N.

(** ** Including headers: what a translation unit sees of a header with an include
    guard, when several headers are included one after the other. *)
Inductive Sees : list text -> list (text * text) -> text -> Prop :=
| sees_nil defs : Sees defs [] []
| sees_new defs g content r out : ~ In g defs -> Sees (g :: defs) r out ->
    Sees defs ((g, content) :: r) (content ++ out)
| sees_skip defs g content r out : In g defs -> Sees defs r out ->
    Sees defs ((g, content) :: r) out.

(** A header file with an include guard and its content. *)
Definition GuardedHeader (file guard content : text) : Prop :=
  exists tail, file = T "#ifndef " ++ guard ++ [10%N] ++ T "#define " ++ guard ++ [10%N; 10%N]
    ++ content ++ [10%N] ++ T "#endif" ++ tail.

(** ** Parameters of an inline signature, as token trees: the parameters, each a
    non-empty sequence of trees, separated by commas. *)
Fixpoint commas (ps : list (list tree)) : list tree :=
  match ps with
  | [] => []
  | [p] => p
  | p :: r => p ++ Comma :: commas r
  end.

(** ** What is written for each macro *)
(** [t] is the decimal numeral of [n]. *)
Definition Numeral (n : nat) (t : text) : Prop :=
  t <> [] /\ Forall (fun c => (48 <= c <= 57)%N) t
  /\ fold_left (fun a c => 10 * a + N.to_nat (c - 48)) t 0 = n.
(** A [#line] directive, spaces, the body and a newline. *)
Definition LineChunk (file : text) (line : nat) (pad : nat) (body t : text) : Prop :=
  exists num, Numeral line num
    /\ t = T "#line " ++ num ++ T " """ ++ file ++ T """" ++ [10%N]
           ++ repeat 32%N pad ++ body ++ [10%N].
(** The text written for the macro [m] of [file]; [name] gives the name of the
    function for an inline block. *)
Definition Piece (file : text) (name : pmacro -> text) (m : pmacro) (t : text) : Prop :=
  match m_kind m with
  | InlineCpp => exists u, LineChunk file (m_body_line m) (m_body_col m - 1) (m_body m) u
                   /\ t = T "inline auto " ++ name m ++ [10%N] ++ u ++ [10%N]
  | _ => LineChunk file (m_body_line m) (m_body_col m - 1) (m_body m) t
  end.

(** ** The formatters *)
Definition WhitespaceOnly (cf : text -> nat -> option text) : Prop :=
  forall i n o, cf i n = Some o -> SameCode i o.
(** The synthetic heads put before an inline block. *)
Definition head_of (h : text) : Prop :=
  h = T "inline auto __crubit_fmt_wrapper" \/ h = T "void __crubit_fmt_wrapper()".
Definition KeepsHead (cf : text -> nat -> option text) : Prop :=
  forall h r n o, head_of h -> cf (h ++ r) n = Some o -> exists r', o = h ++ r'.

(** A block: braces around lines that are blank, or indented by [n + 4] spaces. *)
Inductive Lines (n : nat) : text -> Prop :=
| ln_nil : Lines n []
| ln_blank t : Lines n t -> Lines n (10%N :: t)
| ln_line l t : ~ In 10%N l -> Lines n t -> Lines n (repeat 32%N (n + 4) ++ l ++ 10%N :: t).
Definition Block (n : nat) (t : text) : Prop :=
  t = [123; 125]%N
  \/ exists ls, Lines n ls /\ t = [123; 10]%N ++ ls ++ repeat 32%N n ++ [125%N].
(** The spaces at the beginning of the line on which the text [pre] ends. *)
Definition Indent (pre : text) (n : nat) : Prop :=
  exists a l, pre = a ++ repeat 32%N n ++ l /\ (a = [] \/ exists a', a = a' ++ [10%N])
    /\ ~ In 10%N l /\ (forall l', l <> 32%N :: l').

(** ** The header of a library *)
Definition is_inline (m : pmacro) : bool := match m_kind m with InlineCpp => true | _ => false end.
(** The text for one file: the pieces of its global blocks, then those of its
    inline blocks, each block once, in the order of the file. *)
Definition FileBlock (file : text) (name : pmacro -> text) (ms : list pmacro) (t : text) : Prop :=
  exists gl il, t = List.concat gl ++ List.concat il
    /\ Forall2 (Piece file name) (filter (fun m => negb (is_inline m)) ms) gl
    /\ Forall2 (Piece file name) (filter is_inline ms) il.

(** A signature followed by exactly one body. *)
Definition OneFunction (ts : list tok) : Prop :=
  exists w0 op params cp ret ob body cb w1,
    ts = w0 ++ op :: params ++ cp :: ret ++ ob :: body ++ cb :: w1
    /\ Forall is_space w0 /\ tk op = OpenParen /\ ParBal params /\ tk cp = CloseParen
    /\ (forall t, In t ret -> tk t <> OpenBrace) /\ tk ob = OpenBrace
    /\ Balanced body /\ tk cb = CloseBrace /\ Forall is_space w1.
(** The same, with comments allowed before it, as C++ does. *)
Definition CommentedFunction (ts : list tok) : Prop :=
  exists c f, ts = c ++ f /\ Forall trivia c /\ OneFunction f /\ Signature f.
