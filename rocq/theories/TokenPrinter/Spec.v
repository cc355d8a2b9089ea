(** Specification vocabulary for printed token streams. *)
From Coq Require Import List NArith Bool Arith Lia.
From Coq Require Import Strings.String.
From Verif.Common Require Import Str.
From Verif.TokenPrinter Require Import Model.
Import ListNotations.
Local Open Scope N_scope.
Local Open Scope list_scope.

Definition colon : char := 58.
Definition placeholders : list str :=
  [NEWLINE; SPACE; HASH; CAPTURE_TAG; CAPTURE_BEGIN; CAPTURE_END; COMMENT; LITERALLY].
Definition placeholder (id : str) : bool := existsb (str_eqb id) placeholders.

(** The words (ordinary identifiers, and literals that are not arguments of a placeholder)
    of a stream, in order, at all nesting levels. *)
Fixpoint words (t : ts) : list str :=
  match t with
  | TNil => []
  | TIdent id rest =>
      if str_eqb id CAPTURE_TAG then
        match rest with TLit _ (TLit _ (TLit _ rest')) => words rest' | _ => words rest end
      else if str_eqb id COMMENT || str_eqb id LITERALLY then
        match rest with TLit _ rest' => words rest' | _ => words rest end
      else if placeholder id then words rest
      else id :: words rest
  | TPunct _ _ rest => words rest
  | TLit text rest => text :: words rest
  | TGroup _ inner rest => words inner ++ words rest
  end.
(** The colons of a stream: 2 for a path separator (a joint colon and the colon after it), 1 for
    any other colon. *)
Fixpoint colons (t : ts) : list nat :=
  match t with
  | TNil => []
  | TIdent _ rest => colons rest
  | TPunct c sp rest =>
      if c =? colon then
        match sp, rest with
        | Joint, TPunct c2 _ rest2 => if c2 =? colon then 2%nat :: colons rest2 else 1%nat :: colons rest
        | _, _ => 1%nat :: colons rest
        end
      else colons rest
  | TLit _ rest => colons rest
  | TGroup _ inner rest => colons inner ++ colons rest
  end.

(** Printed text cut into pieces. *)
Inductive chunk := Word (s : str) | Colons (n : nat) | Gap (s : str).
Definition text_of (c : chunk) : str :=
  match c with Word s => s | Colons n => repeat colon n | Gap s => s end.
Definition texts_of (cs : list chunk) : str := flat_map text_of cs.
Definition words_of (cs : list chunk) : list str :=
  flat_map (fun c => match c with Word s => [s] | _ => [] end) cs.
Definition colons_of (cs : list chunk) : list nat :=
  flat_map (fun c => match c with Colons n => [n] | _ => [] end) cs.
(** What may stand between words: white space, one punctuation character other than a colon,
    a hash, a delimiter, or text that ends its line. *)
Definition gap_ok (c : chunk) : Prop :=
  match c with
  | Gap s => s = lit " " \/ s = nl \/ (exists p, s = [p] /\ p <> colon) \/
             In s [lit "("; lit ")"; lit "["; lit "]"; lit "{ "; lit " }"] \/ exists l, s = l ++ nl
  | Colons n => n = 1%nat \/ n = 2%nat
  | Word _ => True
  end.
(** No two words and no two colons touch. *)
Inductive class := CWord | CColon | COther.
Definition class_of (c : chunk) : class :=
  match c with Word _ => CWord | Colons _ => CColon | Gap _ => COther end.
Definition may_touch (a b : class) : Prop :=
  match a, b with CWord, CWord => False | CColon, CColon => False | _, _ => True end.
Fixpoint separated (last : class) (cs : list chunk) : Prop :=
  match cs with
  | [] => True
  | c :: cs' => may_touch last (class_of c) /\ separated (class_of c) cs'
  end.

Definition head_colon (t : ts) : bool := match t with TPunct c _ _ => c =? colon | _ => false end.
(** Streams as [quote!] and the Rust lexer make them: groups have delimiters, a joint colon before a
    colon is the first half of [::], and no capture placeholder stands between [::] and [:]. *)
Fixpoint tidy (after_colon : bool) (t : ts) : bool :=
  match t with
  | TNil => true
  | TIdent id rest =>
      if str_eqb id CAPTURE_BEGIN || str_eqb id CAPTURE_END then tidy after_colon rest
      else if str_eqb id CAPTURE_TAG then
        match rest with TLit _ (TLit _ (TLit _ rest')) => tidy after_colon rest' | _ => true end
      else tidy false rest
  | TPunct c sp rest =>
      if c =? colon then
        negb after_colon &&
        match sp, rest with
        | Alone, _ => tidy false rest
        | Joint, TPunct c2 sp2 rest2 =>
            if c2 =? colon
            then match sp2 with Alone => tidy (negb (head_colon rest2)) rest2 | Joint => false end
            else tidy true rest
        | Joint, _ => tidy true rest
        end
      else tidy false rest
  | TLit _ rest => tidy false rest
  | TGroup d inner rest =>
      match d with NoDelim => false | _ => tidy false inner && tidy false rest end
  end.

(** What happens while printing, as far as captures are concerned. *)
Inductive event := Text (s : str) | Tag (a b c : str) | Begin | End.
Definition printed (es : list event) : str :=
  flat_map (fun e => match e with Text s => s | _ => [] end) es.
Definition is_tag (e : event) : bool := match e with Tag _ _ _ => true | _ => false end.
Definition ntags (es : list event) : nat := List.length (filter is_tag es).
(** The capture placeholders of a stream, in order. *)
Fixpoint marks (t : ts) : list event :=
  match t with
  | TNil => []
  | TIdent id rest =>
      if str_eqb id CAPTURE_TAG then
        match rest with TLit a (TLit b (TLit c rest')) => Tag a b c :: marks rest' | _ => marks rest end
      else if str_eqb id CAPTURE_BEGIN then Begin :: marks rest
      else if str_eqb id CAPTURE_END then End :: marks rest
      else marks rest
  | TPunct _ _ rest | TLit _ rest => marks rest
  | TGroup _ inner rest => marks inner ++ marks rest
  end.
Definition marks_of (es : list event) : list event :=
  filter (fun e => match e with Text _ => false | _ => true end) es.
(** The last tag of a history: its literals, and what was printed before it ([tag 0] if none). *)
Definition last_tag (es : list event) (p a b c : str) : Prop :=
  (ntags es = 0%nat /\ p = [] /\ a = [] /\ b = [] /\ c = []) \/
  exists u v, es = u ++ Tag a b c :: v /\ ntags v = 0%nat /\ p = printed u.
(** [captures es k before body p a b c]: while the [k]-th tag was the latest one (its literals are
    [a b c], and [p] was printed before it), the last capture printed [body] after [before]. *)
Definition captures (es : list event) (k : nat) (before body p a b c : str) : Prop :=
  exists pre post,
    es = pre ++ End :: post /\ k = ntags pre /\ last_tag pre p a b c /\
    (exists u v, pre = u ++ Begin :: v /\ ~ In Begin v /\ before = printed u /\ body = printed v) /\
    (* every later [End] comes after another tag *)
    (forall u v, post = u ++ End :: v -> ntags u <> 0%nat).

(** The captured text without surrounding white space, and where it stands. *)
Definition stands_at (ws : char -> bool) (before body lead tok trail : str) : Prop :=
  body = lead ++ tok ++ trail /\ forallb ws lead = true /\ forallb ws trail = true /\
  (tok = [] \/ exists c s d r, tok = c :: s /\ tok = r ++ [d] /\ ws c = false /\ ws d = false).
(** The token can be told apart from what is printed before it: no occurrence straddles its start. *)
Definition clean_start (tok x : str) : Prop := x = [] \/ exists y c, x = y ++ [c] /\ ~ In c tok.
