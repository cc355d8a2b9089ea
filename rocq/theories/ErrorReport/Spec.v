(** Specification vocabulary for error reports. *)
From Coq Require Import List NArith Bool Arith Lia.
From Coq Require Import Strings.String.
From Verif.Common Require Import Str.
From Verif.ErrorReport Require Import Model.
Import ListNotations.
Local Open Scope N_scope.
Local Open Scope list_scope.

(** Errors as the users of the library build them: [anyhow!(...)], [ErrorList::from(...)], a foreign
    error, and [.context(...)] on any of these. *)
Inductive uerr :=
| UFmt (fmt message : str)
| UList (es : list uerr)
| UOther (message : str)
| UContext (c : str) (e : uerr).
Fixpoint build (u : uerr) : err :=
  match u with
  | UFmt f m => Formatted (fnew f m)
  | UList es => ErrList (map build es)
  | UOther m => Other m None
  | UContext c u' => context c (build u')
  end.
(** The error inside all contexts. *)
Fixpoint innermost (u : uerr) : uerr :=
  match u with UContext _ u' => innermost u' | _ => u end.
(** The text on top: the outermost context, or the error's own message. *)
Definition top (u : uerr) : str := display (build u).

(** The single errors an error stands for, left to right: (format string, message). *)
Fixpoint parts (u : uerr) : list (str * str) :=
  match u with
  | UFmt f m => [(f, m)]
  | UList es => flat_map parts es
  | UOther m => [(lit "{}", m)]
  | UContext c u' =>
      match innermost u' with
      | UOther _ => [(lit "{}", c)]
      | _ => parts u'
      end
  end.

(** Well-nested use of the reporter, at the level of the user. *)
Inductive uop :=
| UReport (e : uerr)
| UCategory (c : N)
| UScope (i : item) (body : list uop).
Fixpoint lower (o : uop) : op :=
  match o with
  | UReport e => OReport (build e)
  | UCategory c => OCategory c
  | UScope i body => OScope i (map lower body)
  end.

(** What happens, with the innermost open item at that time. *)
Inductive happening :=
| HEnter (i : item)
| HError (at_item : item) (fmt message : str)
| HCategory (at_item : item) (c : N).
Fixpoint happenings (open : item) (o : uop) : list happening :=
  match o with
  | UReport e => map (fun p => HError open (fst p) (snd p)) (parts e)
  | UCategory c => [HCategory open c]
  | UScope i body => HEnter i :: flat_map (happenings i) body
  end.
Definition history (p : list uop) : list happening := flat_map (happenings default_item) p.

Definition concerns (h : happening) : item :=
  match h with HEnter i => i | HError i _ _ => i | HCategory i _ => i end.
Definition at_id (id : N) (h : happening) : bool := i_id (concerns h) =? id.

(** The items whose identifiers occur agree on the name for each identifier; the
    anonymous item (identifier 0, empty name) counts only if something happens outside all scopes. *)
Definition names_agree (hs : list happening) : Prop :=
  forall a b, In a hs -> In b hs -> i_id (concerns a) = i_id (concerns b) ->
              i_name (concerns a) = i_name (concerns b).

Definition errors_at (id : N) (hs : list happening) : list (str * str) :=
  flat_map (fun h => match h with
                     | HError i f m => if i_id i =? id then [(f, m)] else []
                     | _ => [] end) hs.
Definition categories_at (id : N) (hs : list happening) : list N :=
  flat_map (fun h => match h with
                     | HCategory i c => if i_id i =? id then [c] else []
                     | _ => [] end) hs.

(** What is recorded for a single error: the format string, and the message with unstable details
    hidden, left out when it says no more than the format string. *)
Definition recorded (hide : str -> str) (p : str * str) : ferr :=
  let (f, m) := p in
  if str_eqb m f then FErr f []
  else if str_eqb (hide m) f then FErr f []
  else FErr f (hide m).
Fixpoint sorted_keys (m : list (N * entry)) : Prop :=
  match m with
  | [] => True
  | (k, _) :: m' => Forall (fun p => k < fst p) m' /\ sorted_keys m'
  end.
(** The entry an item must have after a history. *)
Definition expected (hide : str -> str) (l : language) (hs : list happening) (id : N) : option entry :=
  match List.find (at_id id) hs with
  | None => None
  | Some h =>
      let i := concerns h in
      Some (Entry (Some l) (i_name i) (map (recorded hide) (errors_at id hs))
                  (fold_right N.lor 0 (categories_at id hs)) (i_uniq i) (i_target i))
  end.
