(** Model of [cc_bindings_from_rs/toposort.rs].

    The node type, its equality ([NodeId: Eq + Hash]), the preferred order, the
    iteration order of [HashMap] and the internal layout of [BinaryHeap] are
    parameters.  Nothing in this file assumes anything about them; the theorems
    state which contract they need. *)
From Coq Require Import List Arith Bool Permutation.
Import ListNotations.

(** Outcome of a Rust function: a value, a panic (with the site), or fuel
    exhaustion of the model (the theorems show it never happens). *)
Inductive panic_site :=
| BadSuccessor      (* toposort.rs:138-144, unwrap_or_else panic *)
| BadPredecessor    (* toposort.rs:147-153, unwrap_or_else panic *)
| RemovedMissing    (* toposort.rs:177, graph.remove(..).unwrap() *)
| SuccMissing       (* toposort.rs:179, graph.get_mut(..).unwrap() *)
| CountZero.        (* toposort.rs:180, assert!(count > 0) *)

Inductive outcome (T : Type) :=
| Done (x : T)
| Panicked (p : panic_site)
| OutOfFuel.
Arguments Done {T} x.
Arguments Panicked {T} p.
Arguments OutOfFuel {T}.

Definition obind {T U} (o : outcome T) (f : T -> outcome U) : outcome U :=
  match o with
  | Done x => f x
  | Panicked p => Panicked p
  | OutOfFuel => OutOfFuel
  end.

Section Toposort.
  Context {A : Type}.
  Variable eq_dec : forall x y : A, {x = y} + {x <> y}.
  Variable cmp : A -> A -> comparison.             (* preferred_order *)

  (** toposort.rs:222-226 [GraphNode] (usize counters are unbounded [nat]). *)
  Record gnode := GNode { count : nat; succs : list A; input_index : nat }.

  (** toposort.rs:131 [HashMap<NodeId, GraphNode>]: association list, one entry
      per key.  Iteration order is *not* the list order; see [hash_iter]. *)
  Definition graph := list (A * gnode).

  Fixpoint get (g : graph) (k : A) : option gnode :=
    match g with
    | [] => None
    | (k', n) :: g' => if eq_dec k k' then Some n else get g' k
    end.

  (** Overwrite the value stored under an existing key ([get_mut]). *)
  Fixpoint set (g : graph) (k : A) (n : gnode) : graph :=
    match g with
    | [] => []
    | (k', n') :: g' => if eq_dec k k' then (k', n) :: g' else (k', n') :: set g' k n
    end.

  (** [HashMap::remove]: the entry for the key disappears. *)
  Fixpoint remove (g : graph) (k : A) : graph :=
    match g with
    | [] => []
    | (k', n') :: g' => if eq_dec k k' then remove g' k else (k', n') :: remove g' k
    end.

  (** [HashMap::insert] as used by [collect]: a repeated key is overwritten. *)
  Definition insert (g : graph) (k : A) (n : gnode) : graph :=
    match get g k with
    | Some _ => set g k n
    | None => g ++ [(k, n)]
    end.

  Definition keys (g : graph) : list A := map fst g.

  (** toposort.rs:131-135: [nodes.into_iter().enumerate().map(..).collect()]. *)
  Fixpoint build_from (i : nat) (nodes : list A) (g : graph) : graph :=
    match nodes with
    | [] => g
    | x :: nodes' => build_from (S i) nodes' (insert g x (GNode 0 [] i))
    end.
  Definition build (nodes : list A) : graph := build_from 0 nodes [].

  (** toposort.rs:136-155: one iteration of the [for Dependency { .. } in deps] loop. *)
  Definition add_dep (g : graph) (d : A * A) : outcome graph :=
    let '(p, s) := d in
    match get g s with
    | None => Panicked BadSuccessor
    | Some ns =>
        let g1 := set g s (GNode (S (count ns)) (succs ns) (input_index ns)) in
        match get g1 p with
        | None => Panicked BadPredecessor
        | Some np => Done (set g1 p (GNode (count np) (succs np ++ [s]) (input_index np)))
        end
    end.

  Fixpoint add_deps (g : graph) (deps : list (A * A)) : outcome graph :=
    match deps with
    | [] => Done g
    | d :: deps' => obind (add_dep g d) (fun g' => add_deps g' deps')
    end.

  (** toposort.rs:238-245 [HeapNode] (the [cmp_fn] field is the section's [cmp]). *)
  Record heap_node := HNode { hid : A; hidx : nat }.

  (** toposort.rs:247-263 [impl Ord for HeapNode]: reversed preferred order, ties
      broken by reversed input index. *)
  Definition heap_cmp (a b : heap_node) : comparison :=
    match cmp (hid a) (hid b) with
    | Eq => Nat.compare (hidx b) (hidx a)
    | o => CompOpp o
    end.

  (** [BinaryHeap::pop]: the layout of the heap is not modelled; the heap is its
      content and [heap_pop] is any function picking one element.  *)
  Variable heap_pop : list heap_node -> option (heap_node * list heap_node).

  (** Iteration order of the [HashMap] at its two uses (toposort.rs:163, 196). *)
  Variable hash_iter1 : graph -> graph.
  Variable hash_iter2 : list A -> list A.

  (** toposort.rs:163-171: collecting the nodes without predecessors. *)
  Definition initial_ready (g : graph) : list heap_node :=
    map (fun e => HNode (fst e) (input_index (snd e)))
        (filter (fun e => Nat.eqb (count (snd e)) 0) (hash_iter1 g)).

  (** toposort.rs:178-190: [for succ_id in removed_graph_node.successors]. *)
  Fixpoint relax (g : graph) (ready : list heap_node) (ss : list A)
    : outcome (graph * list heap_node) :=
    match ss with
    | [] => Done (g, ready)
    | s :: ss' =>
        match get g s with
        | None => Panicked SuccMissing
        | Some n =>
            match count n with
            | 0 => Panicked CountZero
            | S c =>
                let g' := set g s (GNode c (succs n) (input_index n)) in
                let ready' := match c with
                              | 0 => HNode s (input_index n) :: ready
                              | S _ => ready
                              end in
                relax g' ready' ss'
            end
        end
    end.

  (** toposort.rs:176-192: [while let Some(..) = ready.pop()]. *)
  Fixpoint main_loop (fuel : nat) (g : graph) (ready : list heap_node) (ordered : list A)
    : outcome (graph * list A) :=
    match heap_pop ready with
    | None => Done (g, ordered)
    | Some (h, ready') =>
        match fuel with
        | 0 => OutOfFuel
        | S fuel' =>
            match get g (hid h) with
            | None => Panicked RemovedMissing
            | Some n =>
                obind (relax (remove g (hid h)) ready' (succs n))
                      (fun gr => main_loop fuel' (fst gr) (snd gr) (ordered ++ [hid h]))
            end
        end
    end.

  (** [slice::sort_by] (stable). For a lawful comparator the stable sorted
      permutation is unique, so insertion sort stands for the real merge sort;
      for an unlawful comparator the real sort may also panic (not modelled). *)
  Fixpoint sort_insert (x : A) (l : list A) : list A :=
    match l with
    | [] => [x]
    | y :: l' => match cmp x y with
                 | Gt => y :: sort_insert x l'
                 | _ => x :: y :: l'
                 end
    end.
  Fixpoint sort_by (l : list A) : list A :=
    match l with
    | [] => []
    | x :: l' => sort_insert x (sort_by l')
    end.

  (** toposort.rs:120-200 [toposort].  Fuel: one unit per popped node. *)
  Definition toposort (nodes : list A) (deps : list (A * A)) : outcome (list A * list A) :=
    obind (add_deps (build nodes) deps) (fun g =>
    obind (main_loop (length nodes) g (initial_ready g) []) (fun go =>
    let '(g', ordered) := go in
    Done (ordered, sort_by (hash_iter2 (keys g'))))).

End Toposort.

(** A concrete heap meeting the contract: pick a greatest element by a linear
    scan.  Used for the examples only. *)
Section ConcreteHeap.
  Context {A : Type}.
  Variable cmp : A -> A -> comparison.
  Fixpoint scan_max (best : @heap_node A) (l : list heap_node) : heap_node * list heap_node :=
    match l with
    | [] => (best, [])
    | x :: l' =>
        match heap_cmp cmp x best with
        | Gt => let '(m, r) := scan_max x l' in (m, best :: r)
        | _ => let '(m, r) := scan_max best l' in (m, x :: r)
        end
    end.
  Definition scan_pop (l : list (@heap_node A)) : option (heap_node * list heap_node) :=
    match l with
    | [] => None
    | x :: l' => Some (scan_max x l')
    end.
End ConcreteHeap.

(** * Contracts of the standard library pieces that are parameters above *)

(** Contract of [BinaryHeap::pop] (std documentation): pops some element, and if
    the order is lawful a greatest one. *)
Definition heap_contract {A} (pop : list (@heap_node A) -> option (@heap_node A * list (@heap_node A))) : Prop :=
  (forall l, pop l = None <-> l = []) /\
  (forall l h r, pop l = Some (h, r) -> Permutation l (h :: r)).
Definition heap_max_contract {A} (cmp : A -> A -> comparison)
    (pop : list (@heap_node A) -> option (@heap_node A * list (@heap_node A))) : Prop :=
  forall l h r, pop l = Some (h, r) -> forall h', In h' r -> heap_cmp cmp h' h <> Gt.
(** A [HashMap] is iterated in some order. *)
Definition iter_contract {A} (it : list A -> list A) : Prop := forall l, Permutation l (it l).

