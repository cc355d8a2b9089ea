(** Model of [common/dyn_format.rs]. *)
From Coq Require Import List NArith Bool Arith.
From Coq Require Import Strings.String.
From Verif.Common Require Import Str.
Import ListNotations.
Local Open Scope N_scope.
Local Open Scope list_scope.

Definition open_brace := ch "{".
Definition close_brace := ch "}".

(** dyn_format.rs:19-24 *)
Inductive fragment := FStr (s : str) | FVar (i : nat).

(** dyn_format.rs:39-45: append to the last fragment if it is a string. *)
Fixpoint push_str (fs : list fragment) (s : str) : list fragment :=
  match fs with
  | [] => [FStr s]
  | [FStr last] => [FStr (last ++ s)]
  | f :: fs' => f :: push_str fs' s
  end.

(** [s.find(&['{', '}'])]: text before the first brace, the brace, and the rest. *)
Fixpoint find_brace (s : str) : option (str * char * str) :=
  match s with
  | [] => None
  | c :: s' =>
      if (c =? open_brace) || (c =? close_brace) then Some ([], c, s')
      else match find_brace s' with Some (p, b, r) => Some (c :: p, b, r) | None => None end
  end.
Fixpoint position (names : list str) (n : str) : option nat :=
  match names with
  | [] => None
  | x :: names' => if str_eqb x n then Some O else option_map S (position names' n)
  end.

Section Trim.
  (** [char::is_whitespace] (Unicode table, not in /repo). *)
  Variable is_ws : char -> bool.
  Fixpoint trim_start (s : str) : str :=
    match s with c :: s' => if is_ws c then trim_start s' else s | [] => [] end.
  Definition trim (s : str) : str := rev (trim_start (rev (trim_start s))).

  (** dyn_format.rs:47-76, the loop; [None] is any of the three errors (or no fuel). *)
  Fixpoint parse_loop (fuel : nat) (names : list str) (fs : list fragment) (s : str) : option (list fragment) :=
    match fuel with
    | O => None
    | S fuel =>
        match find_brace s with
        | None => Some (match s with [] => fs | _ => push_str fs s end)
        | Some (pre, b, rest) =>
            match rest with
            | b' :: rest' =>
                if b =? b' then parse_loop fuel names (push_str fs (pre ++ [b])) rest'
                else if b =? close_brace then None
                else match split_once close_brace rest with
                     | None => None
                     | Some (name, rest'') =>
                         match position names (trim name) with
                         | None => None
                         | Some i => parse_loop fuel names (push_str fs pre ++ [FVar i]) rest''
                         end
                     end
            | [] => None   (* unmatched closing or opening brace at the end *)
            end
        end
    end.
  (** dyn_format.rs:31-77.  Every iteration consumes at least one character. *)
  Definition parse_with_metavars (format_string : str) (names : list str) : option (list fragment) :=
    parse_loop (S (List.length format_string)) names [] format_string.
End Trim.

(** dyn_format.rs:91-102; [None] is an out-of-bounds panic. *)
Fixpoint format (fs : list fragment) (args : list str) : option str :=
  match fs with
  | [] => Some []
  | FStr s :: fs' => option_map (app s) (format fs' args)
  | FVar i :: fs' => match nth_error args i with
                     | Some a => option_map (app a) (format fs' args)
                     | None => None
                     end
  end.
