(** Generation and printing of C++ namespaces as Rust modules.

    A C++ namespace may be reopened any number of times; Crubit imports every
    block separately, merges the blocks under the id of the first
    ("canonical") one, and prints one [pub mod] for all of them.

    Files modelled:
    - rs_bindings_from_cc/ir.rs:163-196 (ItemsIterator), :229-292 (make_ir, the
      part that numbers the blocks), :4397-4415 (is_last_reopened_namespace);
    - rs_bindings_from_cc/generate_bindings/lib.rs:258-282
      (generate_namespace), :285-308 (generate_item), :407-408 (the last-minute
      has_bindings check), :479-481 and :581-584 (the top level);
    - rs_bindings_from_cc/generate_bindings/database/code_snippet.rs:64-77
      (ApiSnippets::append), :506-516 and :777-836 (generated_items_to_tokens),
      :973-1012 (GeneratedItem::merge);
    - rs_bindings_from_cc/generate_bindings/has_bindings.rs:67-88 (an item has
      no bindings if its enclosing item has none). *)
From Coq Require Import ZArith List Bool String.
Import ListNotations.
Local Open Scope Z_scope.
Local Open Scope list_scope.

(** What one item that is not a namespace is printed as: some Rust item, a
    comment, or the comment that replaces an item without bindings
    (generate_comment.rs:123-195, whose libcxx and carcinize variants are left
    out).  Texts are abstract numbers. *)
Inductive entry := EItem (text : Z) | EComment (text : Z) | EUnsupported (id : Z).

(** The nested IR (ir.rs: Item).  Every item that is not a namespace is a
    [Leaf]; its own generation is not modelled here: [out] is its entry, or
    [None] if nothing is recorded for it (say a function that needs no item).
    [target] is its owning target, if it has one.
    [b_attr_ok = false]: the block carries an attribute unknown to Crubit, and its
    target lacks the experimental feature (code_snippet.rs:172-178). *)
Record block := {
  b_id : Z; b_canon : Z; b_target : Z; b_name : Z;
  b_inline : bool; b_attr_ok : bool; b_depr : option string }.

Inductive item :=
| Leaf (id : Z) (target : option Z) (out : option entry)
| Ns (b : block) (children : list item).

Definition item_id (i : item) : Z :=
  match i with Leaf id _ _ => id | Ns b _ => b_id b end.

(** code_snippet.rs: GeneratedItem; everything but namespaces is [GLeaf]. *)
Inductive gitem :=
| GLeaf (e : entry)
| GNonCanonical
| GCanonical (items : list Z) (depr : option string).

(** ApiSnippets::generated_items, a HashMap: an association list with at most
    one entry per key; its order stands for the iteration order of the map. *)
Notation snippets := (list (Z * gitem)).

(** [Panic]: an [unreachable!], [panic!], [expect] or [assert_eq!] fails, and
    Crubit aborts without output.  [Diverge]: out of fuel. *)
Inductive res (A : Type) := Ok (a : A) | Panic | Diverge.
Arguments Ok {A} a.
Arguments Panic {A}.
Arguments Diverge {A}.

Definition bind {A B} (r : res A) (f : A -> res B) : res B :=
  match r with Ok a => f a | Panic => Panic | Diverge => Diverge end.

(** code_snippet.rs:975-981 (merge_deprecated_text). *)
Definition merge_deprecated_text (s1 s2 : string) : string :=
  match s1, s2 with
  | EmptyString, _ => s2
  | _, EmptyString => s1
  | _, _ => (s1 ++ ", " ++ s2)%string
  end.

(** code_snippet.rs:992-1001. *)
Definition merge_deprecated (a b : option string) : option string :=
  match a, b with
  | Some x, Some y => if String.eqb x y then a else Some (merge_deprecated_text x y)
  | _, None => a
  | None, _ => b
  end.

(** code_snippet.rs:973-1012 (GeneratedItem::merge). *)
Definition merge (this other : gitem) : res gitem :=
  match this, other with
  | GCanonical items d, GCanonical items' d' =>
      Ok (GCanonical (items ++ items') (merge_deprecated d d'))
  | GLeaf (EComment m), GLeaf (EComment m') => if m =? m' then Ok this else Panic
  | GLeaf (EUnsupported m), GLeaf (EUnsupported m') => if m =? m' then Ok this else Panic
  | _, _ => Panic
  end.

Fixpoint lookup (k : Z) (m : snippets) : option gitem :=
  match m with
  | [] => None
  | (k', g) :: m' => if k' =? k then Some g else lookup k m'
  end.

(** HashMap::insert. *)
Fixpoint insert (k : Z) (g : gitem) (m : snippets) : snippets :=
  match m with
  | [] => [(k, g)]
  | (k', g') :: m' => if k' =? k then (k, g) :: m' else (k', g') :: insert k g m'
  end.

(** code_snippet.rs:66-77, one iteration of the loop. *)
Definition append_one (m : snippets) (k : Z) (g : gitem) : res snippets :=
  match lookup k m with
  | None => Ok (insert k g m)
  | Some g0 => bind (merge g0 g) (fun g1 => Ok (insert k g1 m))
  end.

(** code_snippet.rs:64-77 (ApiSnippets::append). *)
Fixpoint append (m other : snippets) : res snippets :=
  match other with
  | [] => Ok m
  | (k, g) :: other' => bind (append_one m k g) (fun m' => append m' other')
  end.

Definition is_foreign (cur : Z) (t : option Z) : bool :=
  match t with Some t => negb (t =? cur) | None => false end.

(** lib.rs:285-308 (generate_item), with :258-282 (generate_namespace) and
    :407-408.  [parent_ok]: has_bindings of the enclosing item.  A block without
    bindings is generated all the same, and then replaced by a comment. *)
Fixpoint generate_item (cur : Z) (parent_ok : bool) (i : item) {struct i} : res snippets :=
  match i with
  | Leaf id t out =>
      if is_foreign cur t then Ok []
      else match out with None => Ok [] | Some e => Ok [(id, GLeaf e)] end
  | Ns b children =>
      if is_foreign cur (Some (b_target b)) then Ok []
      else
        let ok := parent_ok && b_attr_ok b in
        bind
          ((fix gen (l : list item) (m : snippets) {struct l} : res snippets :=
              match l with
              | [] => Ok m
              | c :: l' =>
                  bind (generate_item cur ok c) (fun mc =>
                  bind (append m mc) (fun m' => gen l' m'))
              end) children [])
          (fun m =>
             if ok
             then Ok (insert (b_canon b) (GCanonical (map item_id children) (b_depr b))
                        (insert (b_id b) GNonCanonical m))
             else Ok [(b_id b, GLeaf (EUnsupported (b_id b)))])
  end.

(** lib.rs:479-481. *)
Fixpoint generate_items (cur : Z) (parent_ok : bool) (l : list item) (m : snippets)
  : res snippets :=
  match l with
  | [] => Ok m
  | c :: l' =>
      bind (generate_item cur parent_ok c) (fun mc =>
      bind (append m mc) (fun m' => generate_items cur parent_ok l' m'))
  end.

(** ir.rs:163-196 (ItemsIterator): pre-order.  The visited set is left out:
    ir.rs:199-213 panics if two different items have the same id.  Records, whose
    children the iterator also visits, contain no namespaces. *)
Fixpoint preorder (i : item) : list item :=
  i :: match i with
       | Leaf _ _ _ => []
       | Ns _ children => flat_map preorder children
       end.

(** ir.rs:4173: top-level items per target. *)
Notation ir := (list (Z * list item)).

Definition all_items (t : ir) : list item := flat_map (fun p => flat_map preorder (snd p)) t.

(** ir.rs:4265-4267. *)
Fixpoint top_level (cur : Z) (t : ir) : list item :=
  match t with
  | [] => []
  | (k, l) :: t' => if k =? cur then l else top_level cur t'
  end.

Fixpoint lookup_nat (k : Z) (m : list (Z * nat)) : option nat :=
  match m with
  | [] => None
  | (k', n) :: m' => if k' =? k then Some n else lookup_nat k m'
  end.

(** ir.rs:270-278: (number of blocks per canonical id, index per block).
    A HashMap::insert is modelled by putting the new pair in front. *)
Definition number_one (cur : Z) (s : list (Z * nat) * list (Z * nat)) (i : item)
  : list (Z * nat) * list (Z * nat) :=
  match i with
  | Leaf _ _ _ => s
  | Ns b _ =>
      if b_target b =? cur
      then let n := match lookup_nat (b_canon b) (fst s) with Some n => n | None => 0%nat end in
           ((b_canon b, S n) :: fst s, (b_id b, n) :: snd s)
      else s
  end.

Definition number (cur : Z) (t : ir) : list (Z * nat) * list (Z * nat) :=
  fold_left (number_one cur) (all_items t) ([], []).

(** ir.rs:4397-4415; [None] is the error that makes the caller panic. *)
Definition is_last_reopened (s : list (Z * nat) * list (Z * nat)) (id canon : Z) : option bool :=
  match lookup_nat id (snd s), lookup_nat canon (fst s) with
  | Some idx, Some n => Some (Nat.eqb idx (n - 1))
  | _, _ => None
  end.

(** find_decl::<Namespace>. *)
Fixpoint find_ns (id : Z) (l : list item) : option block :=
  match l with
  | [] => None
  | i :: l' =>
      if item_id i =? id
      then match i with Ns b _ => Some b | Leaf _ _ _ => None end
      else find_ns id l'
  end.

(** The tokens printed.  [canon] is not printed: it says which namespace the
    module was printed for.  [reexport]: the module is followed by
    [pub use name::*]. *)
Inductive tok :=
| TLeaf (e : entry)
| TMod (canon : Z) (depr : option string) (name : Z) (reexport : bool) (body : list tok).

(** code_snippet.rs:506-516 and :777-836 (generated_items_to_tokens). *)
Section Emit.
Variable gen : snippets.
Variable items : list item.                        (* the whole IR *)
Variable numbers : list (Z * nat) * list (Z * nat).

Fixpoint emit (fuel : nat) (ids : list Z) {struct fuel} : res (list tok) :=
  match fuel with
  | O => Diverge
  | S fuel' =>
      (fix go (ids : list Z) : res (list tok) :=
         match ids with
         | [] => Ok []
         | id :: ids' =>
             bind
               (match lookup id gen with
                | None => Ok []
                | Some (GLeaf e) => Ok [TLeaf e]
                | Some _ =>
                    match find_ns id items with
                    | Some b =>
                        match is_last_reopened numbers id (b_canon b) with
                        | None => Panic
                        | Some false => Ok []
                        | Some true =>
                            match lookup (b_canon b) gen with
                            | Some (GCanonical l d) =>
                                bind (emit fuel' l) (fun body =>
                                match find_ns (b_canon b) items with
                                | Some cb =>
                                    Ok [TMod (b_canon b) d (b_name cb) (b_inline cb) body]
                                | _ => Panic
                                end)
                            | _ => Panic
                            end
                        end
                    | _ => Panic
                    end
                end)
               (fun toks => bind (go ids') (fun rest => Ok (toks ++ rest)))
         end) ids
  end.
End Emit.

(** lib.rs:479-481 and :581-584.  The recursion of generated_items_to_tokens has
    no bound; the number of items in the IR bounds it here (C171 shows that it
    is never reached). *)
Definition bindings (cur : Z) (t : ir) : res (list tok) :=
  bind (generate_items cur true (top_level cur t) []) (fun gen =>
  emit gen (all_items t) (number cur t) (S (List.length (all_items t)))
       (map item_id (top_level cur t))).
