(** Model of common/error_report.rs and of the error values of common/arc_anyhow.rs. *)
From Coq Require Import List NArith Bool Arith Lia.
From Coq Require Import Strings.String.
From Verif.Common Require Import Str.
Import ListNotations.
Local Open Scope N_scope.
Local Open Scope list_scope.

(** common/error_report.rs:51-61 [FormattedError]. *)
Record ferr := FErr { f_fmt : str; f_full : str }.
(** common/error_report.rs:64-69 [FormattedError::new]. *)
Definition fnew (fmt full : str) : ferr :=
  FErr fmt (if str_eqb full fmt then [] else full).
(** common/error_report.rs:81-88 [FormattedError::new_dynamic] (the boxed value). *)
Definition fnew_dynamic (s : str) : ferr := fnew s [].
(** common/error_report.rs:99-107 [Display for FormattedError]. *)
Definition fdisplay (e : ferr) : str :=
  match f_full e with [] => f_fmt e | _ :: _ => f_full e end.

(** The error objects behind an [anyhow::Error] / [arc_anyhow::Error]: a [FormattedError]
    (error_report.rs:53), an [ErrorList] (error_report.rs:33), any other [std::error::Error] with
    its message and optional source, the private wrapper [StdError] of arc_anyhow.rs:136, and
    anyhow's context wrapper.  [Arc] sharing and pointer identity are not modelled. *)
Inductive err :=
| Formatted (e : ferr)
| ErrList (es : list err)
| Other (msg : str) (src : option err)
| Std (e : err)
| Ctx (c : str) (e : err).

(** The [source()] chain below an error: arc_anyhow.rs:150-154 ([StdError::source] is the
    source of the wrapped error); anyhow's context wrapper has the wrapped error as source;
    [FormattedError] and [ErrorList] have none (error_report.rs:49, 109). *)
Fixpoint sources (e : err) : list err :=
  match e with
  | Formatted _ | ErrList _ | Other _ None => []
  | Other _ (Some s) => s :: sources s
  | Std i => sources i
  | Ctx _ i => i :: sources i
  end.
(** [anyhow::Error::root_cause]: the last element of the chain. *)
Definition anyhow_root_cause (e : err) : err := last (sources e) e.
(** arc_anyhow.rs:62-71 [Error::root_cause]. *)
Definition root_cause (e : err) : err :=
  match anyhow_root_cause e with
  | Std i => anyhow_root_cause i
  | r => r
  end.
(** arc_anyhow.rs:54-57 [into_anyhow] followed by arc_anyhow.rs:120-127 [From]. *)
Definition round_trip (e : err) : err := Std e.
(** arc_anyhow.rs:73-78 [Error::context]. *)
Definition context (c : str) (e : err) : err := Ctx c (Std e).

(** Messages: the [Display] text of an error, and those of its sources.  Display: arc_anyhow.rs:102,
    138 delegate; error_report.rs:22-28, 43-47: an [ErrorList] joins the ["{:#}"] texts of its
    errors with newlines; anyhow's ["{:#}"] joins the chain with [": "]. *)
Fixpoint join (sep : str) (l : list str) : str :=
  match l with
  | [] => []
  | [x] => x
  | x :: l' => x ++ sep ++ join sep l'
  end.
Definition newline : str := [10].
Fixpoint msgs (e : err) : str * list str :=
  match e with
  | Formatted f => (fdisplay f, [])
  | ErrList es =>
      (join newline (map (fun e' => let (d, ds) := msgs e' in join (lit ": ") (d :: ds)) es), [])
  | Other m None => (m, [])
  | Other m (Some s) => let (d, ds) := msgs s in (m, d :: ds)
  | Std i => msgs i
  | Ctx c i => let (d, ds) := msgs i in (c, d :: ds)
  end.
Definition display (e : err) : str := fst (msgs e).

(** Size, used as a recursion bound below. *)
Fixpoint size (e : err) : nat :=
  match e with
  | Formatted _ | Other _ None => 1
  | ErrList es => S (list_sum (map size es))
  | Other _ (Some s) => S (size s)
  | Std i => S (size i)
  | Ctx _ i => S (size i)
  end.

(** common/error_report.rs:228-239 [ItemName]. *)
Record item := Item {
  i_name : str; i_id : N; i_uniq : option str; i_target : option str }.
Definition item_eq_dec (a b : item) : {a = b} + {a <> b}.
Proof. repeat decide equality. Defined.
(** common/error_report.rs:349-356 [DEFAULT_ITEM]. *)
Definition default_item : item := Item [] 0 None None.

(** common/error_report.rs:241-245. *)
Inductive language := Cpp | Rust.

(** common/error_report.rs:451-473 [ErrorReportEntry]. *)
Record entry := Entry {
  e_lang : option language; e_name : str; e_errors : list ferr;
  e_category : N; e_uniq : option str; e_target : option str }.
(** The entry inserted when nothing is known about the item (error_report.rs:382-385, 439-442). *)
Definition blank (l : language) : entry := Entry (Some l) [] [] 0 None None.

(** [BTreeMap<u64, _>] as a list sorted by key; [alter] is the entry API. *)
Definition bmap := list (N * entry).
Fixpoint find (k : N) (m : bmap) : option entry :=
  match m with
  | [] => None
  | (k', v) :: m' => if k =? k' then Some v else find k m'
  end.
Fixpoint put (k : N) (v : entry) (m : bmap) : bmap :=
  match m with
  | [] => [(k, v)]
  | (k', v') :: m' =>
      if k =? k' then (k, v) :: m'
      else if k <? k' then (k, v) :: (k', v') :: m'
      else (k', v') :: put k v m'
  end.

(** common/error_report.rs:290-300 [ErrorReport].  The two [RefCell]s are never borrowed across
    a call, so borrowing is not modelled. *)
Record state := State { language_of : language; map_of : bmap; cur : option item }.
(** common/error_report.rs:318-320 [ErrorReport::new]. *)
Definition new (l : language) : state := State l [] None.
(** common/error_report.rs:344-346 [current_item]. *)
Definition current_item (s : state) : item :=
  match cur s with Some i => i | None => default_item end.
Definition set_map (s : state) (m : bmap) : state := State (language_of s) m (cur s).

(** [map.entry(current_item().id).or_insert_with(blank)] followed by an update
    (error_report.rs:379-387 and 436-443). *)
Definition with_entry (s : state) (f : entry -> entry) : state :=
  let k := i_id (current_item s) in
  let e := match find k (map_of s) with Some e => e | None => blank (language_of s) end in
  set_map s (put k (f e) (map_of s)).
Definition push_error (r : ferr) (e : entry) : entry :=
  Entry (e_lang e) (e_name e) (e_errors e ++ [r]) (e_category e) (e_uniq e) (e_target e).
Definition or_category (c : N) (e : entry) : entry :=
  Entry (e_lang e) (e_name e) (e_errors e) (N.lor (e_category e) c) (e_uniq e) (e_target e).

Section Hide.
  (** [hide_unstable_details] is applied to every message; see Hide.v for its model. *)
  Variable hide : str -> str.

  (** common/error_report.rs:359-389 [ErrorReport::report].  The recursion goes through
      [root_cause], so it is given the size of the error as a bound; [report_bound] in
      Proofs.v shows that every larger bound gives the same result. *)
  Fixpoint report_n (n : nat) (s : state) (e : err) : state :=
    match n with
    | O => s
    | S n' =>
        match root_cause e with
        | Formatted f => with_entry s (push_error (fnew (f_fmt f) (hide (f_full f))))
        | ErrList es => fold_left (report_n n') es s
        | _ => with_entry s (push_error (fnew (lit "{}") (hide (display e))))
        end
    end.
  Definition report (s : state) (e : err) : state := report_n (size e) s e.

  (** common/error_report.rs:435-444 [add_category]. *)
  Definition add_category (s : state) (c : N) : state := with_entry s (or_category c).

  (** common/error_report.rs:391-415 [enter_item]; [None] is a panic. *)
  Definition enter_item (s : state) (i : item) : option (state * option item) :=
    match find (i_id i) (map_of s) with
    | None =>
        let e := Entry (Some (language_of s)) (i_name i) [] 0 (i_uniq i) (i_target i) in
        Some (State (language_of s) (put (i_id i) e (map_of s)) (Some i), cur s)
    | Some e =>
        if str_eqb (e_name e) (i_name i)
        then Some (State (language_of s) (map_of s) (Some i), cur s)
        else None
    end.
  (** common/error_report.rs:426-433 [exit_item]; [None] is a panic. *)
  Definition exit_item (s : state) (i : item) (replace_with : option item) : option state :=
    match cur s with
    | Some j => if item_eq_dec j i then Some (State (language_of s) (map_of s) replace_with) else None
    | None => None
    end.
  (** common/error_report.rs:417-424 [assert_in_item]; [false] is a panic. *)
  Definition assert_in_item (s : state) (i : item) : bool :=
    if item_eq_dec (current_item s) i then true else false.

  (** Programs using the reporter: reports, categories, assertions, and item scopes
      ([ItemScope::new] at entry, its [Drop] at exit: error_report.rs:253-264). *)
  Inductive op :=
  | OReport (e : err)
  | OCategory (c : N)
  | OAssert (i : item)
  | OScope (i : item) (body : list op).
  Fixpoint run_op (s : state) (o : op) : option state :=
    match o with
    | OReport e => Some (report s e)
    | OCategory c => Some (add_category s c)
    | OAssert i => if assert_in_item s i then Some s else None
    | OScope i body =>
        match enter_item s i with
        | None => None
        | Some (s1, old) =>
            match (fix run (s : state) (l : list op) : option state :=
                     match l with
                     | [] => Some s
                     | o :: l' => match run_op s o with Some s' => run s' l' | None => None end
                     end) s1 body with
            | None => None
            | Some s2 => exit_item s2 i old
            end
        end
    end.
  Fixpoint run (s : state) (l : list op) : option state :=
    match l with
    | [] => Some s
    | o :: l' => match run_op s o with Some s' => run s' l' | None => None end
    end.
End Hide.

(** common/error_report.rs:339-342 [to_json_string]: the entries, in map order. *)
Definition entries (s : state) : list entry := map snd (map_of s).

(** common/error_report.rs:490-511 [FatalErrors]: [report], [take_string]; and [drop]
    (513-520), where [false] is a panic. *)
Definition fatal_report (buf msg : str) : str := buf ++ newline ++ msg ++ newline.
Definition fatal_take (buf : str) : str * str := (buf, []).
Definition fatal_drop (buf : str) : bool := match buf with [] => true | _ :: _ => false end.
Inductive fop := FReport (msg : str) | FTake.
Fixpoint frun (buf : str) (l : list fop) : str * list str :=
  match l with
  | [] => (buf, [])
  | FReport m :: l' => frun (fatal_report buf m) l'
  | FTake :: l' => let (out, buf') := fatal_take buf in
                   let (b, outs) := frun buf' l' in (b, out :: outs)
  end.
