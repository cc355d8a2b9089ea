(** Model of how lifetimes get names and how functions get lifetimes
    (lifetime_annotations/lifetime_symbol_table.{h,cc}, lifetime_annotations.cc,
    type_lifetimes.cc:87-121, 310-440, 485-558, 884-893, function_lifetimes.cc:106-193,
    246-287).  The trees of lifetimes are those of [FnLifetimes/Model.v]. *)
From Coq Require Import List NArith ZArith Ascii String Bool.
From Verif.Lifetimes Require Import Model.
From Verif.FnLifetimes Require Import Model.
Import ListNotations.
Local Open Scope N_scope.
Local Open Scope list_scope.

Notation text := (list ascii).
Definition T (s : string) : text := list_ascii_of_string s.
Definition text_eqb (a b : text) : bool := if list_eq_dec ascii_dec a b then true else false.

(** * Names *)
(** lifetime_symbol_table.h:66-69.  The two maps as lists of entries ([StringMap],
    [DenseMap]; the newest entry of a key counts). *)
Record table := Table { n2l : list (text * lifetime); l2n : list (lifetime * text); next : N }.
Definition empty_table : table := Table [] [] 0.
Fixpoint find_name (n : text) (m : list (text * lifetime)) : option lifetime :=
  match m with [] => None | (k, v) :: m' => if text_eqb n k then Some v else find_name n m' end.
Fixpoint find_lifetime (l : lifetime) (m : list (lifetime * text)) : option text :=
  match m with [] => None | (k, v) :: m' => if Z.eqb l k then Some v else find_lifetime l m' end.
Definition erase_lifetime (l : lifetime) (m : list (lifetime * text)) : list (lifetime * text) :=
  filter (fun p => negb (Z.eqb l (fst p))) m.
Fixpoint set_name (n : text) (l : lifetime) (m : list (text * lifetime)) : list (text * lifetime) :=
  match m with [] => [] | (k, v) :: m' => if text_eqb n k then (k, l) :: m' else (k, v) :: set_name n l m' end.
Definition static_name : text := T "static".

(** lifetime_symbol_table.cc:19-30 [LookupName] *)
Definition lookup_name (t : table) (n : text) : option lifetime :=
  if text_eqb n static_name then Some Static else find_name n (n2l t).
(** lifetime_symbol_table.cc:48-59 [LookupLifetime] *)
Definition lookup_lifetime (t : table) (l : lifetime) : option text :=
  if Z.eqb l Static then Some static_name else find_lifetime l (l2n t).

(** lifetime_symbol_table.cc:61-77 [NameFromIndex].  The two loops; the integers are
    unbounded ([int] in the code).  The fuel of the first suffices ([Proofs.v]). *)
Fixpoint shift (fuel : nat) (index : N) (num_chars : nat) (num_combinations : N) : N * nat :=
  match fuel with
  | O => (index, num_chars)
  | S fuel' => if num_combinations <=? index
               then shift fuel' (index - num_combinations) (S num_chars) (num_combinations * 26)
               else (index, num_chars)
  end.
Definition letter (i : N) : ascii := ascii_of_N (97 + i).
Fixpoint letters (num_chars : nat) (index : N) (name : text) : text :=
  match num_chars with
  | O => name
  | S k => letters k (index / 26) (letter (index mod 26) :: name)
  end.
Definition name_from_index (index : N) : text :=
  let (i, k) := shift (S (N.to_nat (N.log2 index))) index 1 26 in letters k i [].

(** lifetime_symbol_table.cc:92-100: the loop that looks for a free name.  It needs no
    more steps than there are names ([Proofs.v]). *)
Fixpoint free_index (fuel : nat) (i : N) (m : list (text * lifetime)) : N :=
  match fuel with
  | O => i
  | S fuel' => match find_name (name_from_index i) m with
               | Some _ => free_index fuel' (i + 1) m
               | None => i
               end
  end.
(** lifetime_symbol_table.cc:79-101 [LookupLifetimeAndMaybeDeclare] *)
Definition name_for (l : lifetime) (t : table) : text * table :=
  if Z.eqb l Static then (static_name, t)
  else match find_lifetime l (l2n t) with
       | Some n => (n, t)
       | None => let i := free_index (List.length (n2l t)) (next t) (n2l t) in
                 let n := name_from_index i in
                 (n, Table ((n, l) :: n2l t) ((l, n) :: l2n t) (i + 1))
       end.
(** lifetime_symbol_table.cc:32-46 [LookupNameAndMaybeDeclare]; the counter is
    [Lifetime::next_variable_id_] (lifetime.cc:28, 34). *)
Definition lifetime_for (n : text) (t : table) (counter : Z) : lifetime * table * Z :=
  if text_eqb n static_name then (Static, t, counter)
  else match find_name n (n2l t) with
       | Some l => (l, t, counter)
       | None => (counter, Table ((n, counter) :: n2l t) ((counter, n) :: l2n t) (next t), (counter + 1)%Z)
       end.
(** lifetime_symbol_table.cc:103-109 [Add]; [None] is the fatal error. *)
Definition add_name (n : text) (l : lifetime) (t : table) : option table :=
  match find_name n (n2l t) with
  | Some _ => None
  | None => Some (Table ((n, l) :: n2l t) ((l, n) :: l2n t) (next t))
  end.
(** lifetime_symbol_table.cc:111-119 [Rebind] *)
Definition rebind (n : text) (l : lifetime) (t : table) : option table :=
  match find_name n (n2l t) with
  | None => None
  | Some old => Some (Table (set_name n l (n2l t)) ((l, n) :: erase_lifetime old (l2n t)) (next t))
  end.

(** * Types as written *)
(** A C++ type with its attributes: for each type the argument lists of its
    [annotate_type("lifetime", ...)] attributes, in source order (type_lifetimes.cc:62-96).
    The [bool] before it is the const qualifier.  A class has its lifetime parameters (with
    the flag of [FnLifetimes]) and its template arguments ([TNone]: not a type).  Without
    source locations (typedefs, packs) there are no attributes. *)
Notation attrs := (list (list text)).
Inductive ty :=
| TPlain (q : bool) (an : attrs)
| TPtr (q : bool) (an : attrs) (t : ty)
| TRec (q : bool) (params : list bool) (ta : tys) (an : attrs)
| TFun (an : attrs) (f : fty)
with oty := TNone | TSome (t : ty)
with tys := TNil | TCons (o : oty) (r : tys)
with fty := FT (ps : tys) (r : ty).

(** A function: for a non-static method the type of the object and the attributes of
    [this]. *)
Record decl := Decl { d_this : option ty; d_this_an : attrs; d_params : tys; d_return : ty; d_dtor : bool }.

(** lifetime_error.h [LifetimeError::Type] *)
Inductive error := ElisionNotEnabled | CannotElideOutputLifetimes | Other.
Inductive result (A : Type) := Ok (a : A) | Err (e : error).
Arguments Ok {A}. Arguments Err {A}.

(** type_lifetimes.cc:98-121 [GetAttributeLifetimes] *)
Definition attribute_lifetimes (an : attrs) : result (list text) :=
  match an with [] => Ok [] | [ns] => Ok ns | _ => Err Other end.

Section Create.
  (** [LifetimeFactory] with its captured state. *)
  Context {S : Type} (factory : option text -> S -> result (lifetime * S)).

  (** type_lifetimes.cc:354-366: the loop over the lifetime parameters. *)
  Fixpoint create_lps (params : list bool) (names : list text) (st : S) : result (list (bool * lifetime) * S) :=
    match params with
    | [] => Ok ([], st)
    | b :: params' =>
        match factory (match names with n :: _ => Some n | [] => None end) st with
        | Err e => Err e
        | Ok (l, st1) => match create_lps params' (List.tl names) st1 with
                         | Err e => Err e
                         | Ok (r, st2) => Ok ((b, l) :: r, st2)
                         end
        end
    end.

  Definition is_fun (t : ty) : bool := match t with TFun _ _ => true | _ => false end.
  Definition bad_arity (params : list bool) (names : list text) : bool :=
    match params, names with
    | [], _ | _, [] => false
    | _, _ => negb (Nat.eqb (List.length names) (List.length params))
    end.

  (** type_lifetimes.cc:310-440 [ValueLifetimes::Create]; function types:
      function_lifetimes.cc:106-193 with [FunctionLifetimeFactorySingleCallback]
      (function_lifetimes.h:57-82), whose attributes have been stripped already. *)
  Fixpoint create_v (t : ty) (st : S) {struct t} : result (vl * S) :=
    match t with
    | TPlain q an =>
        match attribute_lifetimes an with
        | Err e => Err e
        | Ok [] => Ok (VPlain q, st)
        | Ok (_ :: _) => Err Other
        end
    | TPtr q an t' =>
        match attribute_lifetimes an with
        | Err e => Err e
        | Ok names =>
            if is_fun t' && negb (Nat.eqb (List.length names) 0) then Err Other
            else match create_v t' st with
                 | Err e => Err e
                 | Ok (v, st1) =>
                     if is_fun t' then Ok (VPtr q Static v, st1)
                     else if Nat.ltb 1 (List.length names) then Err Other
                     else match factory (match names with n :: _ => Some n | [] => None end) st1 with
                          | Err e => Err e
                          | Ok (l, st2) => Ok (VPtr q l v, st2)
                          end
                 end
        end
    | TRec q params ta an =>
        match attribute_lifetimes an with
        | Err e => Err e
        | Ok names =>
            if bad_arity params names then Err Other
            else match create_lps params names st with
                 | Err e => Err e
                 | Ok (lps, st1) =>
                     match create_args ta st1 with
                     | Err e => Err e
                     | Ok (a, st2) =>
                         match params, names with
                         | [], _ :: _ => Err Other
                         | _, _ => Ok (VRec q a lps, st2)
                         end
                     end
                 end
        end
    | TFun an f =>
        match attribute_lifetimes an with
        | Err e => Err e
        | Ok _ => match create_f f st with
                  | Err e => Err e
                  | Ok (g, st1) => Ok (VFun g, st1)
                  end
        end
    end
  with create_o (o : oty) (st : S) {struct o} : result (ovl * S) :=
    match o with
    | TNone => Ok (ONone, st)
    | TSome t => match create_v t st with Err e => Err e | Ok (v, st1) => Ok (OSome v, st1) end
    end
  with create_args (a : tys) (st : S) {struct a} : result (args * S) :=
    match a with
    | TNil => Ok (ANil, st)
    | TCons o r => match create_o o st with
                   | Err e => Err e
                   | Ok (v, st1) => match create_args r st1 with
                                    | Err e => Err e
                                    | Ok (vs, st2) => Ok (ACons v vs, st2)
                                    end
                   end
    end
  with create_f (f : fty) (st : S) {struct f} : result (fl * S) :=
    match f with
    | FT ps r => match create_args ps st with
                 | Err e => Err e
                 | Ok (a, st1) => match create_v r st1 with
                                  | Err e => Err e
                                  | Ok (v, st2) => Ok (FL a v ONone, st2)
                                  end
                 end
    end.

  (** function_lifetimes.cc:112-149 and lifetime_annotations.cc:203-229
      [CreateThisLifetimes] (with the single callback the name is dropped, see
      [named]). *)
  Definition create_this (named : bool) (d : decl) (st : S) : result (ovl * S) :=
    match attribute_lifetimes (d_this_an d) with
    | Err e => Err e
    | Ok names =>
        match d_this d with
        | None => match names with [] => Ok (ONone, st) | _ => Err Other end
        | Some t =>
            if Nat.ltb 1 (List.length names) then Err Other
            else match create_v t st with
                 | Err e => Err e
                 | Ok (v, st1) =>
                     match factory (if named then match names with n :: _ => Some n | [] => None end else None) st1 with
                     | Err e => Err e
                     | Ok (l, st2) => Ok (OSome (VPtr false l v), st2)
                     end
                 end
        end
    end.
End Create.

(** function_lifetimes.cc:106-193 [FunctionLifetimes::Create]: [this], the parameters,
    the result. *)
Definition create_decl {S} (fac : option text -> S -> result (lifetime * S)) (named : bool)
  (ret : ovl -> args -> option text -> S -> result (lifetime * S)) (d : decl) (st : S) : result (fl * S) :=
  match create_this fac named d st with
  | Err e => Err e
  | Ok (th, st1) =>
      match create_args fac (d_params d) st1 with
      | Err e => Err e
      | Ok (ps, st2) =>
          match create_v (ret th ps) (d_return d) st2 with
          | Err e => Err e
          | Ok (r, st3) => Ok (FL ps r th, st3)
          end
      end
  end.

(** * Lifetimes from the attributes of the types, with elision *)
Record state := State { tab : table; counter : Z }.
Definition from_name (n : text) (st : state) : result (lifetime * state) :=
  match lifetime_for n (tab st) (counter st) with (l, t, c) => Ok (l, State t c) end.
(** lifetime_annotations.cc:174-201 [ParamLifetimeFactory] *)
Definition param_factory (elision dtor : bool) (n : option text) (st : state) : result (lifetime * state) :=
  match n with
  | Some n => from_name n st
  | None => if negb elision && negb dtor then Err ElisionNotEnabled
            else let l := counter st in
                 Ok (l, State (snd (name_for l (tab st))) (counter st + 1)%Z)
  end.
(** lifetime_annotations.cc:238-262 [GetSingleInputLifetime] *)
Definition to_traverse (o : ovl) : list lifetime :=
  match o with
  | ONone => []
  | OSome (VPtr _ _ (VFun f)) => map fst (trav_v Covariant (VFun f))
  | OSome v => map fst (trav_v Covariant v)
  end.
Fixpoint input_lifetimes (ps : args) : list lifetime :=
  match ps with ANil => [] | ACons o r => to_traverse o ++ input_lifetimes r end.
Definition single_input (th : ovl) (ps : args) : option lifetime :=
  match th with
  | OSome (VPtr _ l _) => Some l
  | _ => match nodup Z.eq_dec (input_lifetimes ps) with [l] => Some l | _ => None end
  end.
(** lifetime_annotations.cc:272-317 [CreateReturnLifetimes] *)
Definition return_factory (elision : bool) (th : ovl) (ps : args) (n : option text) (st : state) : result (lifetime * state) :=
  match n with
  | Some n => from_name n st
  | None => if negb elision then Err ElisionNotEnabled
            else match single_input th ps with
                 | Some l => Ok (l, st)
                 | None => Err CannotElideOutputLifetimes
                 end
  end.
(** lifetime_annotations.cc:132-322 [GetLifetimeAnnotationsInternal] without a
    [lifetimes] attribute. *)
Definition annotations (elision : bool) (d : decl) (st : state) : result (fl * state) :=
  create_decl (param_factory elision (d_dtor d)) true (return_factory elision) d st.

(** * Lifetimes from a string *)
(** Clang's raw lexer on the characters that matter: identifiers and numbers, blanks,
    and punctuation by maximal munch; any other character is a token. *)
Definition alnum (c : ascii) : bool :=
  let n := N_of_ascii c in
  ((48 <=? n) && (n <=? 57)) || ((65 <=? n) && (n <=? 90)) || ((97 <=? n) && (n <=? 122)) || (n =? 95).
Definition blank (c : ascii) : bool := Ascii.eqb c " ".
Definition pair_tok (a b : ascii) : bool :=
  (Ascii.eqb a "-" && Ascii.eqb b ">") || (Ascii.eqb a "<" && Ascii.eqb b "<") ||
  (Ascii.eqb a ">" && Ascii.eqb b ">") || (Ascii.eqb a ":" && Ascii.eqb b ":").
(** [word]: the word being read, reversed. *)
Definition flush (word : text) : list text := match word with [] => [] | _ => [rev word] end.
Fixpoint lex (word : text) (s : text) : list text :=
  match s with
  | [] => flush word
  | c :: r =>
      if alnum c then lex (c :: word) r
      else flush word ++
           (if blank c then lex [] r
            else match r with
                 | c' :: r' => if pair_tok c c' then [c; c'] :: lex [] r' else [c] :: lex [] r
                 | [] => [[c]]
                 end)
  end.
(** lifetime_annotations.cc:69-77 [next_lifetime]: the tokens that are skipped. *)
Definition separator (t : text) : bool :=
  existsb (text_eqb t) [T "("; T ")"; T ","; T "->"; T ":"; T "["; T "]"; T ">"; T "<"].
(** The callback of lifetime_annotations.cc:79-90 on the tokens left. *)
Record pstate := PState { toks : list text; ptab : table; pcounter : Z }.
Fixpoint skip (ts : list text) : option (text * list text) :=
  match ts with [] => None | t :: r => if separator t then skip r else Some (t, r) end.
Definition string_factory (_ : option text) (st : pstate) : result (lifetime * pstate) :=
  match skip (toks st) with
  | None => Err Other
  | Some (n, r) => match lifetime_for n (ptab st) (pcounter st) with (l, t, c) => Ok (l, PState r t c) end
  end.
(** lifetime_annotations.cc:48-100 [ParseLifetimeAnnotations] *)
Definition parse (d : decl) (s : text) (st : state) : result (fl * state) :=
  match create_decl string_factory false (fun _ _ => string_factory) d (PState (lex [] s) (tab st) (counter st)) with
  | Err e => Err e
  | Ok (f, ps) => match skip (toks ps) with
                  | Some _ => Err Other
                  | None => Ok (f, State (ptab ps) (pcounter ps))
                  end
  end.

(** * Printing *)
Fixpoint join_text (sep : text) (l : list text) : text :=
  match l with [] => [] | [s] => s | s :: r => s ++ sep ++ join_text sep r end.
(** function_lifetimes.cc:252-260 [maybe_add_parentheses] *)
Definition has_delim (s : text) : bool :=
  existsb (fun c => Ascii.eqb c "," || Ascii.eqb c "(" || Ascii.eqb c ")") s.
Definition wrapped (s : text) : bool :=
  Nat.leb 2 (List.length s) &&
  match s with c :: _ => Ascii.eqb c "(" | [] => false end && Ascii.eqb (last s " "%char) ")".
Definition parens (s : text) : text :=
  if (has_delim s || match s with [] => true | _ => false end) && negb (wrapped s)
  then T "(" ++ s ++ T ")" else s.
Definition nonempty (l : list text) : list text := filter (fun s => match s with [] => false | _ => true end) l.

Section Print.
  Variable fmt : lifetime -> text.
  (** type_lifetimes.cc:485-558 [ValueLifetimes::DebugString] (template arguments of one
      depth), :884-893 [ObjectLifetimes::DebugString], function_lifetimes.cc:246-287
      [FunctionLifetimes::DebugString]. *)
  Definition print_rec (tmpl lps : list text) : text :=
    match tmpl, lps with
    | [], [] => []
    | [], [l] => l
    | [], _ => T "[" ++ join_text (T ", ") lps ++ T "]"
    | [s], [] => s
    | _, [] => T "<" ++ join_text (T ", ") tmpl ++ T ">"
    | _, _ => T "<" ++ join_text (T ", ") tmpl ++ T ">" ++ T " [" ++ join_text (T ", ") lps ++ T "]"
    end.
  Definition has_lifetimes (v : vl) : bool := has_v (fun _ => true) v.
  Fixpoint print_v (v : vl) : text :=
    match v with
    | VPlain _ => []
    | VPtr _ _ (VFun f) => match print_f f with [] => [] | s => T "(" ++ s ++ T ")" end
    | VPtr _ l v' => match print_v v' with [] => fmt l | s => s ++ T ", " ++ fmt l end
    | VFun f => match print_f f with [] => [] | s => T "(" ++ s ++ T ")" end
    | VRec _ a lps => print_rec (nonempty (print_targs a)) (map (fun p => fmt (snd p)) lps)
    end
  with print_o (o : ovl) : text := match o with ONone => [] | OSome v => print_v v end
  with print_targs (a : args) : list text :=
    match a with ANil => [] | ACons o r => print_o o :: print_targs r end
  with print_f (f : fl) : text :=
    match f with
    | FL ps r th =>
        let params := map parens (print_targs ps) in
        let this := match th with ONone => [] | OSome v => parens (print_v v) ++ T ":" end in
        let sp := match this, params with _ :: _, _ :: _ => T " " | _, _ => [] end in
        let r0 := this ++ sp ++ join_text (T ", ") params in
        if has_lifetimes r
        then r0 ++ (match r0 with [] => [] | _ => T " " end) ++ T "-> " ++ parens (print_v r)
        else r0
    end.
End Print.
