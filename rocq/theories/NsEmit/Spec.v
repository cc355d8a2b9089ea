(** What a user expects of namespaces, stated on the C++ source (the tree of
    blocks) and the printed modules, without the generator's maps. *)
From Coq Require Import ZArith List Bool String.
From Verif.NsEmit Require Import Model.
Import ListNotations.
Local Open Scope Z_scope.
Local Open Scope list_scope.

(** ** The source *)

(** [Occurs l encl ok i]: item [i] occurs in the forest [l], inside blocks of the
    namespaces [encl] (canonical ids, outermost first); [ok]: none of these
    blocks carries an unknown attribute. *)
Inductive Occurs : list item -> list Z -> bool -> item -> Prop :=
| Occ_here l i : In i l -> Occurs l [] true i
| Occ_inside l b ch encl ok i :
    In (Ns b ch) l -> Occurs ch encl ok i ->
    Occurs l (b_canon b :: encl) (b_attr_ok b && ok) i.

(** The ids of a forest, each item once. *)
Fixpoint ids_of (i : item) : list Z :=
  match i with
  | Leaf id _ _ => [id]
  | Ns b ch => b_id b :: flat_map ids_of ch
  end.

(** The blocks of the namespace [c], in the order of the source. *)
Fixpoint blocks_of (c : Z) (i : item) : list Z :=
  match i with
  | Leaf _ _ _ => []
  | Ns b ch =>
      (if b_canon b =? c then [b_id b] else []) ++ flat_map (blocks_of c) ch
  end.

(** The IR as the importer builds it. *)
Record WellFormed (cur : Z) (t : ir) : Prop := {
  (* an id belongs to one item *)
  wf_ids : NoDup (flat_map (fun p => flat_map ids_of (snd p)) t);
  wf_targets : NoDup (map fst t);
  (* the blocks of a top-level block's target stay in this target *)
  wf_target : forall k l encl ok b ch,
      In (k, l) t -> Occurs l encl ok (Ns b ch) -> b_target b = k;
  (* blocks of one namespace are enclosed by the same namespaces *)
  wf_scope : forall k l encl ok b ch k' l' encl' ok' b' ch',
      In (k, l) t -> Occurs l encl ok (Ns b ch) ->
      In (k', l') t -> Occurs l' encl' ok' (Ns b' ch') ->
      b_canon b = b_canon b' -> encl = encl';
  (* the canonical block exists, possibly in another target, and is its own canonical block *)
  wf_canon : forall k l encl ok b ch,
      In (k, l) t -> Occurs l encl ok (Ns b ch) ->
      exists k' l' encl' ok' cb ch',
        In (k', l') t /\ Occurs l' encl' ok' (Ns cb ch') /\
        b_id cb = b_canon b /\ b_canon cb = b_canon b }.

(** No block of the current target carries an unknown attribute. *)
Definition AllBindable (cur : Z) (t : ir) : Prop :=
  forall encl ok b ch,
    Occurs (top_level cur t) encl ok (Ns b ch) -> b_attr_ok b = true.

(** A block without unknown attributes inside such blocks. *)
Definition Bindable (cur : Z) (t : ir) (encl : list Z) (b : block) (ch : list item) : Prop :=
  Occurs (top_level cur t) encl true (Ns b ch) /\ b_attr_ok b = true.

(** Weaker than [AllBindable]: a namespace with some bindable block has a
    bindable last block, and its canonical block, if in this target, either is
    bindable too or lies inside a block that is not. *)
Record Regular (cur : Z) (t : ir) : Prop := {
  reg_last : forall encl b ch,
      Bindable cur t encl b ch ->
      exists pre encl' b' ch',
        flat_map (blocks_of (b_canon b)) (top_level cur t) = pre ++ [b_id b'] /\
        Bindable cur t encl' b' ch' /\ b_canon b' = b_canon b;
  reg_canon : forall encl b ch encl' b' ch',
      Bindable cur t encl b ch ->
      Occurs (top_level cur t) encl' true (Ns b' ch') ->
      b_id b' = b_canon b -> b_attr_ok b' = true }.

(** ** The expected output *)

(** What is printed directly for one item: nothing for a bindable block. *)
Definition direct (cur : Z) (i : item) : list entry :=
  match i with
  | Leaf _ t out =>
      match t with
      | Some u => if u =? cur then match out with Some e => [e] | None => [] end else []
      | None => match out with Some e => [e] | None => [] end
      end
  | Ns b _ => if b_attr_ok b then [] else [EUnsupported (b_id b)]
  end.

(** What the source has in the namespace [path], in the order of the source,
    over all of its bindable blocks. *)
Fixpoint source_at (cur : Z) (path : list Z) (l : list item) : list entry :=
  match path with
  | [] => flat_map (direct cur) l
  | c :: path' =>
      flat_map (fun i => match i with
                         | Ns b ch =>
                             if b_attr_ok b && (b_canon b =? c) then source_at cur path' ch else []
                         | Leaf _ _ _ => []
                         end) l
  end.

(** What the output has in the module of the namespace [path]. *)
Fixpoint printed_at (path : list Z) (l : list tok) : list entry :=
  match path with
  | [] => flat_map (fun k => match k with TLeaf e => [e] | TMod _ _ _ _ _ => [] end) l
  | c :: path' =>
      flat_map (fun k => match k with
                         | TMod c' _ _ _ body => if c' =? c then printed_at path' body else []
                         | TLeaf _ => []
                         end) l
  end.

(** The modules printed in the module of [path]. *)
Fixpoint modules_at (path : list Z) (l : list tok) : list Z :=
  match path with
  | [] => flat_map (fun k => match k with TMod c _ _ _ _ => [c] | TLeaf _ => [] end) l
  | c :: path' =>
      flat_map (fun k => match k with
                         | TMod c' _ _ _ body => if c' =? c then modules_at path' body else []
                         | TLeaf _ => []
                         end) l
  end.

(** [InModule l c d n re]: somewhere in the output is a module for namespace [c],
    with this deprecation note, name and re-export. *)
Inductive Module : list tok -> Z -> option string -> Z -> bool -> Prop :=
| Mod_here l c d n re body : In (TMod c d n re body) l -> Module l c d n re
| Mod_inside l c' d' n' re' body c d n re :
    In (TMod c' d' n' re' body) l -> Module body c d n re -> Module l c d n re.

(** [s] occurs in [t]. *)
Definition Contains (t s : string) : Prop := exists a b, t = (a ++ s ++ b)%string.

(** The deprecation note of the module of namespace [c]. *)
Record Noted (cur : Z) (t : ir) (c : Z) (d : option string) : Prop := {
  (* deprecated exactly if one of its blocks is *)
  noted_none : d = None <->
      (forall encl b ch, Bindable cur t encl b ch -> b_canon b = c -> b_depr b = None);
  (* every message is shown *)
  noted_all : forall encl b ch s,
      Bindable cur t encl b ch -> b_canon b = c -> b_depr b = Some s ->
      exists text, d = Some text /\ Contains text s;
  (* and nothing else *)
  noted_only : forall text, d = Some text ->
      exists l, text = String.concat ", " l /\
        forall s, In s l -> exists encl b ch,
          Bindable cur t encl b ch /\ b_canon b = c /\ b_depr b = Some s;
  (* one message, if all blocks agree *)
  noted_same : forall s, d <> None ->
      (forall encl b ch s', Bindable cur t encl b ch -> b_canon b = c -> b_depr b = Some s' -> s' = s) ->
      d = Some s }.
