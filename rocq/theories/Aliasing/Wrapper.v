(** C46: which parameters the generated C++ wrapper of a Rust function checks.
    Model of cc_bindings_from_rs/generate_bindings/generate_function.rs:540-594 and 674-697. *)
From Coq Require Import List Arith Bool Lia Sorting.Sorted Sorting.Permutation.
From Verif.Aliasing Require Import Model Spec Props.
Import ListNotations.

(** A parameter of the Rust function, as far as the check looks at it: its kind, for a shared
    reference the answers of rustc to "is the target zero sized" and "is it [Freeze]" (no
    [UnsafeCell]), and the memory range of the argument in a call. *)
Inductive kind := NotRef | MutRef | SharedRef (zero_sized freeze : bool).
Record param := Param { pkind : kind; range : ptr }.

(** generate_function.rs:540-553 [can_shared_refs_to_ty_alias_mut_refs]. *)
Definition can_shared_alias (zero_sized freeze : bool) : bool := if zero_sized then true else negb freeze.
(** generate_function.rs:577-586: the two vectors, filled in order. *)
Fixpoint partition_refs (params mutable shared : list param) : list param * list param :=
  match params with
  | [] => (mutable, shared)
  | p :: ps =>
      match pkind p with
      | NotRef => partition_refs ps mutable shared
      | MutRef => partition_refs ps (mutable ++ [p]) shared
      | SharedRef z f => if can_shared_alias z f then partition_refs ps mutable shared
                         else partition_refs ps mutable (shared ++ [p])
      end
  end.
(** generate_function.rs:566-591 [refs_to_check_for_aliasing]. *)
Definition refs_to_check (params : list param) : option (list param * list param) :=
  let (mutable, shared) := partition_refs params [] [] in
  if (length mutable =? 0) || (length shared + length mutable <? 2) then None else Some (mutable, shared).
(** generate_function.rs:674-697: the generated call of [CheckNoMutableAliasing], run on a call's
    arguments; [false] means the process is stopped before Rust is entered. *)
Definition wrapper_enters_rust (sort : list ptr -> list ptr) (params : list param) : bool :=
  match refs_to_check params with
  | None => true
  | Some (mutable, shared) => check_no_mutable_aliasing sort (map range mutable) (map range shared)
  end.

(** Specification: two different parameters, the first a mutable reference, the second a reference
    that the wrapper promises to check against it, overlap. *)
Definition checked_ref (k : kind) : Prop :=
  match k with NotRef => False | MutRef => True | SharedRef z f => z = false /\ f = true end.
Definition violation (params : list param) : Prop :=
  exists i j p q, i <> j /\ nth_error params i = Some p /\ nth_error params j = Some q /\
    pkind p = MutRef /\ checked_ref (pkind q) /\ share_memory (range p) (range q).

Definition is_mut p := match pkind p with MutRef => true | _ => false end.
Definition is_shared p := match pkind p with SharedRef z f => negb (can_shared_alias z f) | _ => false end.
Lemma partition_spec params : forall m s, partition_refs params m s = (m ++ filter is_mut params, s ++ filter is_shared params).
Proof.
  induction params as [|p ps IH]; intros m s; cbn [partition_refs filter]; [now rewrite !app_nil_r|].
  unfold is_mut at 1, is_shared at 1. destruct (pkind p) as [| |z f]; [apply IH| |].
  2: rename f into fr.
  2: destruct (can_shared_alias z fr); cbn [negb]; [apply IH|].
  all: rewrite IH, <- app_assoc; reflexivity.
Qed.
Lemma shared_alias_spec z f : can_shared_alias z f = false <-> z = false /\ f = true.
Proof. destruct z, f; cbn; split; intuition congruence. Qed.
(** Pairs of a filtered list are pairs of the list. *)
Lemma pair_filter {A B} (f : A -> bool) (g : A -> B) (R : B -> B -> Prop) l :
  (exists i j p q, i < j /\ nth_error (map g (filter f l)) i = Some p /\ nth_error (map g (filter f l)) j = Some q /\ R p q) <->
  (exists i j p q, i < j /\ nth_error l i = Some p /\ nth_error l j = Some q /\ f p = true /\ f q = true /\ R (g p) (g q)).
Proof.
  assert (St : forall (C : Type) (Q : C -> C -> Prop) a (k : list C),
    (exists i j p q, i < j /\ nth_error (a :: k) i = Some p /\ nth_error (a :: k) j = Some q /\ Q p q) <->
    (exists q, In q k /\ Q a q) \/ exists i j p q, i < j /\ nth_error k i = Some p /\ nth_error k j = Some q /\ Q p q).
  { intros C Q a k. split.
    - intros (i & j & p & q & H1 & H2 & H3 & H4). destruct j as [|j]; [lia|]. destruct i as [|i].
      + left. cbn in H2. injection H2 as ->. exists q. split; [eapply nth_error_In; exact H3|exact H4].
      + right. exists i, j, p, q. split; [lia|auto].
    - intros [(q & Hq & Hs)|(i & j & p & q & H1 & H2 & H3 & H4)].
      + apply In_nth_error in Hq as [n Hn]. exists 0, (S n), a, q. split; [lia|auto].
      + exists (S i), (S j), p, q. split; [lia|auto]. }
  induction l as [|a l IH]; [split; intros (i & j & p & q & _ & H & _); destruct i; discriminate|].
  rewrite (St _ (fun p q => f p = true /\ f q = true /\ R (g p) (g q)) a l). cbn [filter]. destruct (f a) eqn:Ea.
  - cbn [map]. rewrite St, IH. apply or_iff_compat_r. split.
    + intros (q & Hq & HR). apply in_map_iff in Hq as (x & <- & Hx). apply filter_In in Hx as [Hx Fx]. exists x. auto.
    + intros (q & Hq & _ & Fq & HR). exists (g q). split; [apply in_map_iff; exists q; split; [reflexivity|now apply filter_In]|exact HR].
  - rewrite IH. split; [intro H; now right|]. intros [(q & _ & H & _)|H]; [congruence|exact H].
Qed.

(** The wrapper stops exactly the calls in which a mutable reference overlaps another checked reference;
    no other call is stopped, and leaving out the check (None) is never a mistake. *)
Theorem C46_wrapper_stops_iff_violation : forall sort params, sorts sort -> Forall (fun p => proper (range p)) params ->
  (wrapper_enters_rust sort params = false <-> violation params).
Proof.
  intros sort params HS F. unfold wrapper_enters_rust, refs_to_check. rewrite (partition_spec params [] []). cbn [app].
  set (m := filter is_mut params). set (s := filter is_shared params).
  assert (Pr : forall f, Forall proper (map range (filter f params))).
  { intro f. apply Forall_forall. intros x Hx. apply in_map_iff in Hx as (p & <- & Hp). apply filter_In in Hp as [Hp _]. rewrite Forall_forall in F. now apply F. }
  assert (V : violation params <-> aliased (map range m) (map range s)).
  { unfold aliased. rewrite pair_order. unfold some_pair, m. rewrite (pair_filter is_mut range share_memory). unfold violation, is_mut. split.
    - intros (i & j & p & q & Hij & Hp & Hq & Kp & Kq & HR). destruct (pkind q) as [| |z f] eqn:Eq; [contradiction| |].
      + left. destruct (lt_dec i j); [exists i, j, p, q|exists j, i, q, p; rewrite share_sym]; (split; [lia|]); rewrite Kp, Eq; auto.
      + right. exists (range p), (range q). split; [|split; [|exact HR]]; apply in_map_iff; eexists; (split; [reflexivity|]); apply filter_In; split; try (eapply nth_error_In; eassumption).
        * unfold is_mut. now rewrite Kp.
        * unfold is_shared. rewrite Eq. cbn in Kq. apply shared_alias_spec in Kq. now rewrite Kq.
    - intros [(i & j & p & q & Hij & Hp & Hq & Fp & Fq & HR)|(x & y & Hx & Hy & HR)].
      + exists i, j, p, q. split; [lia|]. destruct (pkind p), (pkind q); try discriminate. cbn. auto.
      + apply in_map_iff in Hx as (p & <- & Hp), Hy as (q & <- & Hq). apply filter_In in Hp as [Hp Fp], Hq as [Hq Fq].
        apply In_nth_error in Hp as [i Hi], Hq as [j Hj]. exists i, j, p, q. unfold is_mut in Fp. unfold is_shared in Fq.
        destruct (pkind p) eqn:Ep; try discriminate. destruct (pkind q) eqn:Eq; try discriminate. apply negb_true_iff in Fq. apply shared_alias_spec in Fq.
        split; [intros ->; congruence|]. cbn. auto. }
  rewrite V. destruct ((length m =? 0) || (length s + length m <? 2)) eqn:E.
  - split; [discriminate|]. intro H. exfalso. assert (L : length m = 0 \/ (length m = 1 /\ length s = 0)).
    { apply orb_prop in E as [E|E]; [apply Nat.eqb_eq in E; auto|]. apply Nat.ltb_lt in E. lia. }
    destruct H as [(i & j & p & q & Hij & Hp & Hq & _)|(p & q & Hp & Hq & _)].
    + assert (i < length (map range m)) by (apply nth_error_Some; congruence). assert (j < length (map range m)) by (apply nth_error_Some; congruence). rewrite map_length in *. lia.
    + apply in_map_iff in Hp as (p' & _ & Hp), Hq as (q' & _ & Hq). destruct L as [L|[_ L]]; [destruct m; [contradiction|discriminate]|destruct s; [contradiction|discriminate]].
  - apply C28_check_stops_iff_aliased; [exact HS|apply Pr|apply Pr].
Qed.
Print Assumptions C46_wrapper_stops_iff_violation.
(** Not every pair of references is covered: a shared reference to a type with interior mutability may
    overlap a mutable reference (which Rust forbids too) and the wrapper lets the call through. *)
Theorem C46_interior_mutability_is_not_checked_refuted : exists params, Forall (fun p => proper (range p)) params /\
  (exists i j p q, i <> j /\ nth_error params i = Some p /\ nth_error params j = Some q /\
     pkind p = MutRef /\ pkind q <> NotRef /\ share_memory (range p) (range q)) /\
  forall sort, wrapper_enters_rust sort params = true.
Proof.
  exists [Param MutRef (of_object 16 8); Param (SharedRef false false) (of_object 16 8)]. split; [repeat constructor; cbn; unfold proper; cbn; lia|]. split; [|reflexivity].
  exists 0, 1. do 2 eexists. split; [discriminate|]. split; [reflexivity|]. split; [reflexivity|]. split; [reflexivity|]. split; [discriminate|]. exists 16. unfold covers. cbn. lia.
Qed.
Print Assumptions C46_interior_mutability_is_not_checked_refuted.
Example C46_case : let ps := [Param NotRef (of_object 16 8); Param (SharedRef false true) (of_object 20 4); Param MutRef (of_object 16 8)] in
  Forall (fun p => proper (range p)) ps /\ wrapper_enters_rust (fun l => l) ps = false /\ wrapper_enters_rust (fun l => l) (tl ps) = false /\ wrapper_enters_rust (fun l => l) (firstn 2 ps) = true.
Proof. split; [repeat constructor; cbn; unfold proper; cbn; lia|]. repeat split; reflexivity. Qed.
