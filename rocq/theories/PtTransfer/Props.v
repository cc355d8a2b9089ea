(** C159 - C163: the statements of the lifetime analysis. *)
From Coq Require Import List Arith ZArith Bool Lia.
From Verif.Lifetimes Require Model.
From Verif.PointsTo Require Import Model Spec Proofs.
From Verif.PtTransfer Require Import Model Spec Proofs Proofs2 Proofs3 Proofs4 Proofs5.
Import ListNotations.
Local Open Scope Z_scope.

(** ** C159 *)
Theorem C159_every_run_is_described_partial abs R L P entry init A s0 :
  represents abs R L -> converged R P entry init A -> own_objects abs R L P -> describes abs init s0 ->
  forall n s, runs L (fields R) P entry s0 n s -> describes abs (A n) s.
Proof. intros rep. exact (run_sound abs R L rep P entry init A s0). Qed.
Print Assumptions C159_every_run_is_described_partial.

(** The function [int* f(int* p, int* q, bool c) { int* r = p; if (c) r = q; return r; }].  [p] is 1, [q] is 2, [r] is 3; [p] points
    into an array, of which the locations 11 and 111 are elements; [q] points to 12; the returned pointer is 20, its pointee 21. *)
Definition place (l : Z) : object := if l =? 111 then 11 else l.
Definition R1 : repo := {|
  life := fun o => o; func := fun _ => None; callable := fun _ _ => []; params := fun _ => []; fields := fun _ => []; bases := fun _ => [];
  field_object := fun _ _ => None; base_object := fun _ _ => None; decl_object := place; string_object := 50;
  temp_object := fun id => place (id + 2000); this_object := 51; return_object := 20; arg_object := fun _ _ => None; call_this := fun id => id;
  call_ret := fun id => id; call_lifetimes := fun id => id; result_object := fun id => place (id + 3000); object_type := fun _ => TOther |}.
Definition L1 : layout := {|
  var_at := fun d => d; field_at := fun l _ => l; string_at := 50; temp_at := fun id => id + 2000; result_at := fun id => id + 3000; this_at := 51;
  same_array := fun l l' => place l = place l'; same_class_object := eq |}.
Lemma represents1 : represents place R1 L1.
Proof. constructor; cbn; intros; try reflexivity; try discriminate; congruence. Qed.
Notation int_ptr := (TPtr false TOther).
Definition body (n : Z) : elem :=
  match n with
  | 1 => DeclRef 101 (Some (1, false))
  | 2 => Cast LValueToRValue 102 (Leaf 101) true false
  | 3 => DeclStmt [(3, int_ptr, Some (IExpr (Leaf 102)))]
  | 4 => DeclRef 103 (Some (3, false))
  | 5 => DeclRef 104 (Some (2, false))
  | 6 => Cast LValueToRValue 105 (Leaf 104) true false
  | 7 => Assign 106 (Leaf 103) (Leaf 105) int_ptr
  | 8 => DeclRef 107 (Some (3, false))
  | 9 => Cast LValueToRValue 108 (Leaf 107) true false
  | 10 => Return (Some (Leaf 108)) int_ptr
  | _ => OtherElem None
  end.
Definition edges : list (Z * Z) := [(1, 2); (2, 3); (3, 4); (4, 5); (5, 6); (6, 7); (7, 8); (3, 8); (8, 9); (9, 10); (10, 11)].
Definition P1 : program := Program body (fun n n' => In (n, n') edges).
Definition start1 : lattice := Ok (PMap [(1, [11]); (2, [12]); (20, [21])] []) [] [1; 2; 3].
Definition after (n : Z) (a : lattice) : lattice := match transfer R1 10 (body n) a with Done r => r | _ => Err 0 end.
Definition A1 (n : Z) : lattice :=
  let s2 := after 1 start1 in let s3 := after 2 s2 in let s4 := after 3 s3 in let s5 := after 4 s4 in let s6 := after 5 s5 in let s7 := after 6 s6 in
  let s8 := fst (join (after 7 s7) s4) in let s9 := after 8 s8 in let s10 := after 9 s9 in let s11 := after 10 s10 in
  match n with 1 => start1 | 2 => s2 | 3 => s3 | 4 => s4 | 5 => s5 | 6 => s6 | 7 => s7 | 8 => s8 | 9 => s9 | 10 => s10 | 11 => s11 | _ => Err 0 end.
Definition no_parens_b (a : lattice) : bool :=
  match a with Err _ => true | Ok m _ _ => forallb (fun kv => match fst kv with Leaf _ => true | Paren _ => false end) (exprs m) end.
Lemma no_parens_check a : no_parens_b a = true -> no_parens a.
Proof.
  destruct a as [m c sv|]; [|intros _; exact Logic.I]. cbn. intros H e K. apply K. unfold entry. revert H. clear. induction (exprs m) as [|[k v] l IH]; intros H; cbn [lookup]; [reflexivity|]. cbn [forallb fst] in H. apply andb_true_iff in H. destruct H as [H1 H2].
  destruct k; [cbn [expr_eqb]; apply IH; exact H2|discriminate].
Qed.
(** A check of [lower]. *)
Definition lower_b (a b : lattice) : bool :=
  match a, b with
  | _, Err _ => true
  | Err _, Ok _ _ _ => false
  | Ok p c s, Ok p' c' s' =>
      forallb (fun kv => match lookup Z.eqb (fst kv) (pointers p') with Some l => forallb (contains l) (snd kv) | None => false end) (pointers p) &&
      forallb (fun kv => match lookup expr_eqb (fst kv) (exprs p') with Some l => forallb (contains l) (snd kv) | None => false end) (exprs p) &&
      forallb (fun q => Lifetimes.Model.has_constraint q c') c && forallb (contains s) s'
  end.
Lemma look_in {K} (eqb : K -> K -> bool) (spec : forall a b, eqb a b = true <-> a = b) k (l : list (K * oset)) (v : oset) : lookup eqb k l = Some v -> In (k, v) l.
Proof.
  induction l as [|[k' v'] l IH]; cbn [lookup]; [discriminate|]. destruct (eqb k k') eqn:E; [|right; auto].
  intros [= <-]. apply spec in E. subst k'. left. reflexivity.
Qed.
Lemma lower_check a b : lower_b a b = true -> lower a b.
Proof.
  destruct a as [p c s|e]; destruct b as [p' c' s'|e']; cbn; try discriminate; try (intros; exact Logic.I).
  rewrite !andb_true_iff. intros [[[H1 H2] H3] H4]. rewrite forallb_forall in H1, H2, H3, H4.
  assert (X : forall x l, entry p x = Some l -> exists l', entry p' x = Some l' /\ forall o, In o l -> In o l').
  { intros [q|q] l E; cbn [entry] in *.
    - apply (look_in Z.eqb Z.eqb_eq) in E. specialize (H1 _ E). cbn [fst snd] in H1. destruct (lookup Z.eqb q (pointers p')) as [l'|]; [|discriminate].
      exists l'. split; [reflexivity|]. intros o I. rewrite forallb_forall in H1. apply contains_spec. apply H1. exact I.
    - apply (look_in expr_eqb expr_eqb_spec) in E. specialize (H2 _ E). cbn [fst snd] in H2. destruct (lookup expr_eqb q (exprs p')) as [l'|]; [|discriminate].
      exists l'. split; [reflexivity|]. intros o I. rewrite forallb_forall in H2. apply contains_spec. apply H2. exact I. }
  split; [split|split].
  - intros x K. unfold known in *. destruct (entry p x) as [l|] eqn:E; [|congruence]. destruct (X x l E) as (l' & -> & _). discriminate.
  - intros x o (l & E & I). destruct (X x l E) as (l' & E' & H). exists l'. auto.
  - intros q I. apply has_constraint_spec. apply H3. exact I.
  - intros o I. apply contains_spec. apply H4. exact I.
Qed.
Lemma converged1 : converged R1 P1 1 start1 A1.
Proof.
  split; [apply lower_check; vm_compute; reflexivity|]. split.
  - intros n. apply no_parens_check. unfold A1. destruct n as [|n|n]; [reflexivity| |reflexivity]. do 4 (try destruct n as [n|n|]; try (vm_compute; reflexivity)).
  - intros n n' E. cbn in E. exists 10%nat.
    repeat (destruct E as [[= <- <-]|E]; [eexists; split; [vm_compute; reflexivity|apply lower_check; vm_compute; reflexivity]|]). destruct E.
Qed.
Lemma own1 : own_objects place R1 L1 P1.
Proof.
  intros n vars d t i x E I _ Hx. assert (Hd : (d, t, Some i) = (3, int_ptr, Some (IExpr (Leaf 102)))).
  { cbn in E. unfold body in E. destruct n as [|n|n]; try discriminate. do 4 (try destruct n as [n|n|]; try discriminate). injection E as <-. destruct I as [I|[]]. symmetry. exact I. }
  injection Hd as -> -> ->. cbn in *. unfold place in Hx. destruct (x =? 111) eqn:Ex; [discriminate|exact Hx].
Qed.
Definition s1 : machine := Machine (fun l => if l =? 1 then Some 111 else if l =? 2 then Some 12 else None) (fun _ => []).
Lemma describes1 : describes place start1 s1.
Proof.
  split; [split|].
  - intros l v H. cbn in H. destruct (Z.eqb_spec l 1) as [->|N]; [injection H as <-; exists [11]; split; [reflexivity|left; reflexivity]|].
    destruct (Z.eqb_spec l 2) as [->|N']; [injection H as <-; exists [12]; split; [reflexivity|left; reflexivity]|discriminate].
  - intros id v [].
  - intros o I l l' H H'. unfold place in *. destruct I as [<-|[<-|[<-|[]]]]; destruct (l =? 111), (l' =? 111); congruence.
Qed.
Lemma run1 : exists s, runs L1 (fields R1) P1 1 s1 10 s /\ reg s 108 = [12].
Proof.
  set (fs := fields R1). pose proof (RunStart L1 fs P1 1 s1) as H1.
  assert (H2 : runs L1 fs P1 1 s1 2 (eval s1 101 [1])) by (apply (RunStep L1 fs P1 1 s1 1 2 _ _ H1); [apply (SVar L1 fs 101 1)|cbn; tauto]).
  assert (H3 : runs L1 fs P1 1 s1 3 (eval (eval s1 101 [1]) 102 [111])) by (apply (RunStep L1 fs P1 1 s1 2 3 _ _ H2); [apply SLoad with (l := 1); reflexivity|cbn; tauto]).
  pose (s3 := Machine (upd (mem s1) 3 (Some 111)) (upd (upd (reg s1) 101 [1]) 102 [111])).
  assert (D : step L1 fs (element P1 3) (eval (eval s1 101 [1]) 102 [111]) s3).
  { apply SDecl. apply (DeclInit L1 fs 3 int_ptr (IExpr (Leaf 102)) [] _ s3 s3); [exact Logic.I| |apply DeclNone].
    apply InitPointers; [exact Logic.I|]. split; [reflexivity|]. split.
    * intros x ->. cbn. tauto.
    * intros x N. cbn in N. unfold upd. cbn. unfold upd. destruct (Z.eq_dec x 3); [contradiction|reflexivity]. }
  pose (a5 := eval s3 103 [3]). pose (a6 := eval a5 104 [2]). pose (a7 := eval a6 105 [12]).
  pose (a8 := Machine (upd (mem a7) 3 (Some 12)) (upd (reg a7) 106 [3])). pose (a9 := eval a8 107 [3]). pose (a10 := eval a9 108 [12]).
  assert (H4 : runs L1 fs P1 1 s1 4 s3) by (apply (RunStep L1 fs P1 1 s1 3 4 _ _ H3); [exact D|cbn; tauto]).
  assert (H5 : runs L1 fs P1 1 s1 5 a5) by (apply (RunStep L1 fs P1 1 s1 4 5 _ _ H4); [apply (SVar L1 fs 103 3)|cbn; tauto]).
  assert (H6 : runs L1 fs P1 1 s1 6 a6) by (apply (RunStep L1 fs P1 1 s1 5 6 _ _ H5); [apply (SVar L1 fs 104 2)|cbn; tauto]).
  assert (H7 : runs L1 fs P1 1 s1 7 a7) by (apply (RunStep L1 fs P1 1 s1 6 7 _ _ H6); [apply SLoad with (l := 2); reflexivity|cbn; tauto]).
  assert (H8 : runs L1 fs P1 1 s1 8 a8) by (apply (RunStep L1 fs P1 1 s1 7 8 _ _ H7); [apply (SAssignPointer L1 fs 106 (Leaf 103) (Leaf 105) false TOther a7 3 (Some 12)); [reflexivity|left; reflexivity|discriminate]|cbn; tauto]).
  assert (H9 : runs L1 fs P1 1 s1 9 a9) by (apply (RunStep L1 fs P1 1 s1 8 9 _ _ H8); [apply (SVar L1 fs 107 3)|cbn; tauto]).
  assert (H10 : runs L1 fs P1 1 s1 10 a10) by (apply (RunStep L1 fs P1 1 s1 9 10 _ _ H9); [apply SLoad with (l := 3); reflexivity|cbn; tauto]).
  exists a10. split; [exact H10|reflexivity].
Qed.
Example C159_case : exists s, runs L1 (fields R1) P1 1 s1 10 s /\ describes place (A1 10) s /\
  exists m c sv, A1 10 = Ok m c sv /\ points m (Expr (Leaf 108)) 12.
Proof.
  destruct run1 as (s & H & Hr). exists s. split; [exact H|].
  pose proof (C159_every_run_is_described_partial place R1 L1 P1 1 start1 A1 s1 represents1 converged1 own1 describes1 10 s H) as D. split; [exact D|].
  destruct (A1 10) as [m c sv|] eqn:E; [|vm_compute in E; discriminate]. exists m, c, sv. split; [reflexivity|]. destruct D as [[_ D] _].
  apply (D 108 12). rewrite Hr. left. reflexivity.
Qed.

(** A temporary that holds a pointer: [int* f(int* p) { int* const& r = p; return r; }] (the temporary holds the value of [p]; its
    initial pointee has a lifetime of its own, 33). *)
Theorem C159_temporaries_refuted : exists abs R L id sub a s s' r, represents abs R L /\ no_parens a /\ describes abs a s /\
  holds_pointer L id sub s s' /\ transfer R 10 (Temporary id sub true) a = Done r /\ ~ describes abs r s'.
Proof.
  exists place, R1, L1, 103, (Leaf 102), (Ok (PMap [(1, [11]); (2, [12]); (20, [21]); (2103, [33])] [(Leaf 102, [11])]) [] [1; 3]).
  exists (Machine (mem s1) (upd (reg s1) 102 [11])). eexists. eexists.
  split; [exact represents1|]. split; [apply no_parens_check; reflexivity|]. split; [|split; [|split]].
  - split; [split|].
    + intros l v H. cbn in H. destruct (Z.eqb_spec l 1) as [->|N]; [injection H as <-; exists [11]; split; [reflexivity|left; reflexivity]|].
      destruct (Z.eqb_spec l 2) as [->|N']; [injection H as <-; exists [12]; split; [reflexivity|left; reflexivity]|discriminate].
    + intros id v H. cbn in H. unfold upd in H. destruct (Z.eq_dec id 102) as [->|N]; [|destruct H]. destruct H as [<-|[]]. exists [11]. split; [reflexivity|left; reflexivity].
    + intros o I l l' H H'. unfold place in *. destruct I as [<-|[<-|[]]]; destruct (l =? 111), (l' =? 111); congruence.
  - exists (Some 11). split; [left; reflexivity|reflexivity].
  - reflexivity.
  - intros [[D _] _]. destruct (D 2103 11 eq_refl) as (l & E & I). vm_compute in E. injection E as <-. destruct I as [I|[]]. discriminate.
Qed.
Print Assumptions C159_temporaries_refuted.
(** [int* a[1][1] = {{p}};]: TransferInitializer looks into one array dimension only and stores nothing. *)
Theorem C159_nested_arrays_refuted : exists abs R L d t i a s s' r, represents abs R L /\ no_parens a /\ describes abs a s /\
  (forall x, abs x = decl_object R d -> x = var_at L d \/ same_array L (var_at L d) x) /\
  initializes_nested L (var_at L d) t i s s' /\ transfer R 10 (DeclStmt [(d, t, Some i)]) a = Done r /\ ~ describes abs r s'.
Proof.
  exists place, R1, L1, 3, (TArr (TArr int_ptr)), (IList 104 [IList 103 [IExpr (Leaf 102)]]), (Ok (PMap [(1, [11]); (2, [12])] [(Leaf 102, [11])]) [] [1; 3]).
  exists (Machine (mem s1) (upd (reg s1) 102 [11])), (Machine (upd (mem s1) 3 (Some 11)) (upd (reg s1) 102 [11])). eexists.
  split; [exact represents1|]. split; [apply no_parens_check; reflexivity|]. split; [|split; [|split; [|split]]].
  - split; [split|].
    + intros l v H. cbn in H. destruct (Z.eqb_spec l 1) as [->|N]; [injection H as <-; exists [11]; split; [reflexivity|left; reflexivity]|].
      destruct (Z.eqb_spec l 2) as [->|N']; [injection H as <-; exists [12]; split; [reflexivity|left; reflexivity]|discriminate].
    + intros id v H. cbn in H. unfold upd in H. destruct (Z.eq_dec id 102) as [->|N]; [|destruct H]. destruct H as [<-|[]]. exists [11]. split; [reflexivity|left; reflexivity].
    + intros o I l l' H H'. unfold place in *. destruct I as [<-|[<-|[]]]; destruct (l =? 111), (l' =? 111); congruence.
  - intros x E. left. cbn in *. unfold place in E. destruct (x =? 111); [discriminate|exact E].
  - split; [exists int_ptr; split; [reflexivity|exact Logic.I]|]. split; [reflexivity|]. split.
    + intros x Hx. assert (x = 3) as -> by (destruct Hx as [->|Hx]; [reflexivity|cbn in Hx; unfold place in Hx; destruct (x =? 111); [discriminate|symmetry; exact Hx]]). cbn. auto.
    + intros x N. cbn [mem]. unfold upd. destruct (Z.eq_dec x 3) as [->|Hn]; [exfalso; apply N; left; reflexivity|reflexivity].
  - reflexivity.
  - intros [[D _] _]. destruct (D 3 11 eq_refl) as (l & E & I). vm_compute in E. discriminate.
Qed.
Print Assumptions C159_nested_arrays_refuted.

(** ** C160 *)
Theorem C160_whatever_is_stored_is_constrained R P m0 c0 sv0 m c sv :
  this_is_pointer R P -> well_formed m0 -> computed R P (Ok m0 c0 sv0) (Ok m c sv) ->
  incl c0 c /\ incl sv sv0 /\
  forall o, kept R P sv0 o ->
    (forall x, points m0 (Pointer o) x -> points m (Pointer o) x) /\
    (forall n, points m (Pointer o) n -> points m0 (Pointer o) n \/ forall x q, points m0 (Pointer o) x -> replaces R x n q -> In q c).
Proof.
  intros T W C. destruct (computed_bounded R P m0 c0 sv0 _ T W C) as ([_ B] & I & J). split; [exact I|]. split; [exact J|]. exact B.
Qed.
Print Assumptions C160_whatever_is_stored_is_constrained.
Theorem C160_stores_of_every_run_partial abs R L P entry m0 c0 sv0 A s0 n s l v m c sv :
  represents abs R L -> converged R P entry (Ok m0 c0 sv0) A -> own_objects abs R L P -> describes abs (Ok m0 c0 sv0) s0 ->
  this_is_pointer R P -> well_formed m0 -> computed R P (Ok m0 c0 sv0) (A n) -> A n = Ok m c sv ->
  runs L (fields R) P entry s0 n s -> kept R P sv0 (abs l) -> Spec.mem s l = Some v ->
  points m0 (Pointer (abs l)) (abs v) \/ forall x, points m0 (Pointer (abs l)) x -> In (life R x, life R (abs v)) c.
Proof.
  intros rep Hc Own D0 T W C E Hrun K M. pose proof (C159_every_run_is_described_partial abs R L P entry _ A s0 rep Hc Own D0 n s Hrun) as D.
  rewrite E in D, C. destruct D as [[D _] _]. destruct (C160_whatever_is_stored_is_constrained R P m0 c0 sv0 m c sv T W C) as (_ & _ & B).
  destruct (proj2 (B _ K) _ (D _ _ M)) as [H|H]; [left; exact H|right]. intros x Hx. apply (H x _ Hx). left. reflexivity.
Qed.
Print Assumptions C160_stores_of_every_run_partial.
(** [void f(int** p, int** q) { *p = *q; }]: p is 1, q is 2, *p is 11, *q is 12, **p is 21, **q is 22. *)
Definition P2 : program := Program (fun n => match n with
  | 1 => DeclRef 101 (Some (1, false)) | 2 => Cast LValueToRValue 102 (Leaf 101) true false | 3 => Unary Deref 103 (Leaf 102) true
  | 4 => DeclRef 104 (Some (2, false)) | 5 => Cast LValueToRValue 105 (Leaf 104) true false | 6 => Unary Deref 106 (Leaf 105) true
  | 7 => Cast LValueToRValue 107 (Leaf 106) true false | 8 => Assign 108 (Leaf 103) (Leaf 107) int_ptr | _ => OtherElem None end)
  (fun n n' => n' = n + 1).
Definition m2 : pmap := PMap [(1, [11]); (2, [12]); (11, [21]); (12, [22])] [].
Fixpoint follow (R : repo) (P : program) (ns : list Z) (a : lattice) : res lattice :=
  match ns with [] => Done a | n :: ns => do r <- transfer R 10 (element P n) a; follow R P ns r end.
Lemma follow_computed R P init ns : forall a r, computed R P init a -> follow R P ns a = Done r -> computed R P init r.
Proof.
  induction ns as [|n ns IH]; intros a r C E; cbn [follow] in E; [injection E as <-; exact C|].
  apply bind_done in E. destruct E as (b & E1 & E). apply (IH b r); [|exact E]. exact (CTransfer R P init 10 n a b C E1).
Qed.
Example C160_case : this_is_pointer R1 P2 /\ well_formed m2 /\ kept R1 P2 [1; 2] 11 /\
  exists m sv, computed R1 P2 (Ok m2 [] [1; 2]) (Ok m [(21, 22)] sv) /\ points m (Pointer 11) 22 /\ points m (Pointer 11) 21.
Proof.
  split; [|split; [|split]].
  - intros n. destruct (element P2 n) eqn:E; try exact Logic.I; exfalso; cbn in E; destruct n as [|n|n]; try discriminate; do 4 (try destruct n as [n|n|]; try discriminate).
  - split; (split; [cbn; repeat constructor; cbn; lia|]).
    + intros k s H. cbn in H. repeat (destruct H as [[= <- <-]|H]; [repeat constructor; cbn; lia|]). destruct H.
    + intros k s [].
  - split; [cbn; lia|]. intros n vars d t i E. exfalso. cbn in E. destruct n as [|n|n]; try discriminate; do 4 (try destruct n as [n|n|]; try discriminate).
  - eexists. eexists. split; [|split].
    + apply (follow_computed R1 P2 (Ok m2 [] [1; 2]) [1; 2; 3; 4; 5; 6; 7; 8] (Ok m2 [] [1; 2]) _ (CInit _ _ _)). vm_compute. reflexivity.
    + exists [22; 21]. vm_compute. split; [reflexivity|tauto].
    + exists [22; 21]. vm_compute. split; [reflexivity|tauto].
Qed.

(** ** C161 *)
Theorem C161_whatever_is_returned_is_constrained_partial abs R L P entry m0 c0 sv0 A s0 n s e t v x fuel m' c' sv' :
  represents abs R L -> converged R P entry (Ok m0 c0 sv0) A -> own_objects abs R L P -> describes abs (Ok m0 c0 sv0) s0 ->
  this_is_pointer R P -> well_formed m0 -> computed R P (Ok m0 c0 sv0) (A n) ->
  element P n = Return (Some e) t -> points_somewhere t -> kept R P sv0 (return_object R) ->
  runs L (fields R) P entry s0 n s -> In v (value s e) -> points m0 (Pointer (return_object R)) x ->
  transfer R fuel (element P n) (A n) = Done (Ok m' c' sv') ->
  (forall q, replaces R x (abs v) q -> In q c') /\ incl c0 c'.
Proof.
  intros rep Hc Own D0 T W C En Ht K Hrun Hv Hx E.
  pose proof (C159_every_run_is_described_partial abs R L P entry _ A s0 rep Hc Own D0 n s Hrun) as D.
  assert (N : no_parens (A n)) by apply Hc.
  destruct (A n) as [m c sv|e0]; [|injection E as E; discriminate]. destruct (C160_whatever_is_stored_is_constrained R P m0 c0 sv0 m c sv T W C) as (I & _ & B).
  rewrite En in E. cbn [transfer] in E. apply bind_done in E. destruct E as (o & Eo & E). unfold visit in Eo.
  assert (Hp : exists k, pointee_of t = Some k) by (destruct Ht as (k & t' & [-> | ->]); eexists; reflexivity). destruct Hp as (k & Hp). rewrite Hp in Eo. cbn [found bind] in Eo.
  apply bind_done in Eo. destruct Eo as (l & El & Eo). apply bind_done in Eo. destruct Eo as (c1 & Ec & Eo). injection Eo as <-. injection E as <- <- <-.
  destruct (get_expr m e) as [l'|] eqn:Ee; [|discriminate]. injection El as <-. split.
  - intros q Hq. apply (assignment_root R fuel m [return_object R] l' t c c1 (return_object R) (abs v) x q Ec); [left; reflexivity| |exact Ht|apply (B _ K); exact Hx|exact Hq].
    apply (get_expr_covers abs m s e l' v N (proj1 D) Ee Hv).
  - intros q Hq. apply (proj1 (assignment_only R fuel m _ _ _ _ _ Ec)). apply I. exact Hq.
Qed.
Print Assumptions C161_whatever_is_returned_is_constrained_partial.
Lemma computed1 : computed R1 P1 start1 (A1 10).
Proof.
  assert (C4 : computed R1 P1 start1 (A1 4)) by (apply (follow_computed R1 P1 start1 [1; 2; 3] start1 _ (CInit _ _ _)); vm_compute; reflexivity).
  assert (C8' : computed R1 P1 start1 (after 7 (A1 7))) by (apply (follow_computed R1 P1 start1 [4; 5; 6; 7] (A1 4) _ C4); vm_compute; reflexivity).
  assert (C8 : computed R1 P1 start1 (A1 8)) by (apply (CJoin R1 P1 start1 _ _ C8' C4)).
  apply (follow_computed R1 P1 start1 [8; 9] (A1 8) _ C8). vm_compute. reflexivity.
Qed.
(** Both parameters may be returned. *)
Example C161_case : exists s m' sv', runs L1 (fields R1) P1 1 s1 10 s /\ In 12 (value s (Leaf 108)) /\ kept R1 P1 [1; 2; 3] 20 /\ this_is_pointer R1 P1 /\
  well_formed (PMap [(1, [11]); (2, [12]); (20, [21])] []) /\ transfer R1 10 (element P1 10) (A1 10) = Done (Ok m' [(21, 11); (21, 12)] sv').
Proof.
  destruct run1 as (s & H & Hr). exists s. eexists. eexists. split; [exact H|]. split; [unfold value; cbn [operand]; rewrite Hr; left; reflexivity|]. split; [|split; [|split]].
  - split; [cbn; lia|]. intros n vars d t i E I. assert (d = 3) as ->.
    { cbn in E. destruct n as [|n|n]; try discriminate. do 4 (try destruct n as [n|n|]; try discriminate). injection E as <-. destruct I as [I|[]]. congruence. }
    intros Hp. remember (decl_object R1 3) as a eqn:Ea. remember 20 as b eqn:Eb. destruct Hp as [a|a f b c Hf _]; [subst; discriminate|discriminate].
  - intros n. destruct (element P1 n) eqn:E; try exact Logic.I; exfalso; cbn in E; destruct n as [|n|n]; try discriminate; do 4 (try destruct n as [n|n|]; try discriminate).
  - split; (split; [cbn; repeat constructor; cbn; lia|]).
    + intros k v H'. cbn in H'. repeat (destruct H' as [[= <- <-]|H']; [repeat constructor; cbn; lia|]). destruct H'.
    + intros k v [].
  - vm_compute. reflexivity.
Qed.
(** With a temporary in between, the returned pointer is not constrained by the parameter: the only constraint is for the temporary's own pointee. *)
Definition P3 : program := Program (fun n => match n with
  | 1 => DeclRef 101 (Some (1, false)) | 2 => Cast LValueToRValue 102 (Leaf 101) true false | 3 => Temporary 103 (Leaf 102) true
  | 4 => DeclStmt [(3, TRef true int_ptr, Some (IExpr (Leaf 103)))] | 5 => DeclRef 104 (Some (3, true))
  | 6 => Cast LValueToRValue 105 (Leaf 104) true false | 7 => Return (Some (Leaf 105)) int_ptr | _ => OtherElem None end)
  (fun n n' => n' = n + 1).
Theorem C161_temporaries_refuted : exists m sv,
  follow R1 P3 [1; 2; 3; 4; 5; 6; 7] (Ok (PMap [(1, [11]); (20, [21]); (2103, [33])] []) [] [1; 3]) = Done (Ok m [(21, 33)] sv).
Proof. eexists. eexists. vm_compute. reflexivity. Qed.
Print Assumptions C161_temporaries_refuted.

(** ** C162 *)
Theorem C162_every_level_partial R fuel m ps ns t c c' : for_assignment R fuel m ps ns t c = Done c' -> one_type R m ps ns t ->
  forall q, demanded_forward R m ps ns t q -> In q c'.
Proof. exact (assignment_forward R fuel m ps ns t c c'). Qed.
Print Assumptions C162_every_level_partial.
Theorem C162_every_level_both_ways_partial R fuel m ps ns t c c' : for_assignment R fuel m ps ns t c = Done c' -> one_type R m ps ns t -> one_variance R m ps ns t ->
  forall q, demanded R m ps ns t q -> In q c'.
Proof. exact (assignment_all R fuel m ps ns t c c'). Qed.
Print Assumptions C162_every_level_both_ways_partial.
Theorem C162_nothing_else R fuel m ps ns t c c' : for_assignment R fuel m ps ns t c = Done c' ->
  (forall q, In q c -> In q c') /\ forall q, In q c' -> In q c \/ demanded R m ps ns t q.
Proof. exact (assignment_only R fuel m ps ns t c c'). Qed.
Print Assumptions C162_nothing_else.
Theorem C162_outermost_level R fuel m ps ns t c c' p n old q : for_assignment R fuel m ps ns t c = Done c' ->
  In p ps -> In n ns -> points_somewhere t -> points m (Pointer p) old -> replaces R old n q -> In q c'.
Proof. exact (assignment_root R fuel m ps ns t c c' p n old q). Qed.
Print Assumptions C162_outermost_level.
(** A repository with given fields. *)
Definition with_fields (fs : Z -> list (Z * ty)) (fo : object -> Z -> option object) : repo := {|
  life := fun o => o; func := fun _ => None; callable := fun _ _ => []; params := fun _ => []; fields := fs; bases := fun _ => [];
  field_object := fo; base_object := fun _ _ => None; decl_object := fun d => d; string_object := 50;
  temp_object := fun id => id; this_object := 51; return_object := 52; arg_object := fun _ _ => None; call_this := fun id => id;
  call_ret := fun id => id; call_lifetimes := fun id => id; result_object := fun id => id; object_type := fun _ => TRec 1 |}.
(** [struct S { int** p; int* const* q; }], where [p] and [q] point to the same pointer: [q] is visited first, and below it a pointer is
    covariant, so that the pair is not visited again for [p], where it is invariant. *)
Definition R4 : repo := with_fields (fun r => if r =? 1 then [(10, TPtr false int_ptr); (11, TPtr true int_ptr)] else [])
  (fun o f => if f =? 10 then Some (o * 10) else if f =? 11 then Some (o * 10 + 1) else None).
Definition m4 : pmap := PMap [(1, [2]); (20, [40]); (21, [40]); (30, [50]); (31, [50]); (40, [60]); (50, [70])] [].
Theorem C162_invariance_refuted : exists R m ps ns t fuel c' q, for_assignment R fuel m ps ns t [] = Done c' /\ demanded R m ps ns t q /\ ~ In q c'.
Proof.
  exists R4, m4, [1], [3], (TPtr false (TRec 1)), 20%nat. eexists. exists (70, 60). split; [vm_compute; reflexivity|]. split.
  - right. exists 40, 70, int_ptr, 60. split; [|split; [do 2 eexists; left; reflexivity|split; [exists [60]; split; [reflexivity|left; reflexivity]|left; reflexivity]]].
    apply (ADeeper R4 m4 [1] [3] _ true 20 50 (TPtr false int_ptr) false int_ptr 40 int_ptr 40 50 70).
    + apply (ADeeper R4 m4 [1] [3] _ false 1 3 (TPtr false (TRec 1)) false (TRec 1) 2 (TPtr false int_ptr) 20 30 50).
      * apply ARoot; left; reflexivity.
      * left. reflexivity.
      * exists [2]. split; [reflexivity|left; reflexivity].
      * apply (CField R4 1 10 (TPtr false int_ptr) 2 3 20 30); [left; reflexivity|reflexivity|reflexivity|apply CSelf; discriminate].
      * discriminate.
      * exists [50]. split; [reflexivity|left; reflexivity].
    + left. reflexivity.
    + exists [40]. split; [reflexivity|left; reflexivity].
    + apply CSelf. discriminate.
    + discriminate.
    + exists [70]. split; [reflexivity|left; reflexivity].
  - cbn. intros H. repeat (destruct H as [H|H]; [discriminate|]). exact H.
Qed.
Print Assumptions C162_invariance_refuted.
(** [struct Node { Node* next; }]: [a->next = b] where everything behind [a] is one object and everything behind [b] another one. *)
Definition R5 : repo := with_fields (fun r => if r =? 1 then [(10, TPtr false (TRec 1))] else []) (fun o f => if f =? 10 then Some (o * 10) else None).
Definition m5 : pmap := PMap [(20, [2]); (30, [3])] [].
Theorem C162_lists_refuted : exists c', for_assignment R5 20 m5 [20] [3] (TPtr false (TRec 1)) [] = Done c' /\
  demanded R5 m5 [20] [3] (TPtr false (TRec 1)) (3, 2) /\ ~ In (3, 2) c'.
Proof.
  eexists. split; [vm_compute; reflexivity|]. split.
  - right. exists 20, 3, (TPtr false (TRec 1)), 2. split; [|split; [do 2 eexists; left; reflexivity|split; [exists [2]; split; [reflexivity|left; reflexivity]|left; reflexivity]]].
    apply (ADeeper R5 m5 [20] [3] _ false 20 3 (TPtr false (TRec 1)) false (TRec 1) 2 (TPtr false (TRec 1)) 20 30 3).
    + apply ARoot; left; reflexivity.
    + left. reflexivity.
    + exists [2]. split; [reflexivity|left; reflexivity].
    + apply (CField R5 1 10 (TPtr false (TRec 1)) 2 3 20 30); [left; reflexivity|reflexivity|reflexivity|apply CSelf; discriminate].
    + discriminate.
    + exists [3]. split; [reflexivity|left; reflexivity].
  - cbn. intros [H|[]]. discriminate.
Qed.
Print Assumptions C162_lists_refuted.
(** [int** a = b]: inside, both directions.  The hypotheses hold here. *)
Definition m6 : pmap := PMap [(1, [2]); (2, [4]); (3, [5])] [].
Lemma assigned6 i p n t : assigned R1 m6 [1] [3] (TPtr false int_ptr) i p n t ->
  (i, p, n, t) = (false, 1, 3, TPtr false int_ptr) \/ (i, p, n, t) = (true, 2, 5, int_ptr).
Proof.
  induction 1 as [p n Ip In_|i p n t is_const pointee old t' p' q n' Ha IH Ht Hpo Hc Hn Hq].
  - destruct Ip as [<-|[]]. destruct In_ as [<-|[]]. left. reflexivity.
  - destruct IH as [[= -> -> -> ->]|[= -> -> -> ->]]; destruct Ht as [[= <- <-]|Ht]; try discriminate.
    + destruct Hpo as (l & E & I). vm_compute in E. injection E as <-. destruct I as [<-|[]]. inversion Hc; subst. right.
      destruct Hq as (l & E & I). vm_compute in E. injection E as <-. destruct I as [<-|[]]. reflexivity.
    + exfalso. destruct Hpo as (l & E & I). vm_compute in E. injection E as <-. destruct I as [<-|[]]. inversion Hc; subst.
      destruct Hq as (l & E & I). vm_compute in E. discriminate.
Qed.
Example C162_case : one_type R1 m6 [1] [3] (TPtr false int_ptr) /\ one_variance R1 m6 [1] [3] (TPtr false int_ptr) /\
  for_assignment R1 10 m6 [1] [3] (TPtr false int_ptr) [] = Done [(5, 4); (4, 5); (2, 3)] /\ demanded R1 m6 [1] [3] (TPtr false int_ptr) (5, 4).
Proof.
  split; [|split; [|split]].
  - intros i i' p n t t' H H'. apply assigned6 in H, H'. destruct H as [[= -> -> -> ->]|[= -> -> -> ->]]; destruct H' as [[= -> ->]|[= -> ->]]; reflexivity.
  - intros i i' p n t t' H H'. apply assigned6 in H, H'. destruct H as [[= -> -> -> ->]|[= -> -> -> ->]]; destruct H' as [[= -> ->]|[= -> ->]]; reflexivity.
  - vm_compute. reflexivity.
  - right. exists 2, 5, int_ptr, 4. split; [|split; [do 2 eexists; left; reflexivity|split; [exists [4]; split; [reflexivity|left; reflexivity]|left; reflexivity]]].
    apply (ADeeper R1 m6 [1] [3] _ false 1 3 (TPtr false int_ptr) false int_ptr 2 int_ptr 2 3 5).
    + apply ARoot; left; reflexivity.
    + left. reflexivity.
    + exists [2]. split; [reflexivity|left; reflexivity].
    + apply CSelf; discriminate.
    + discriminate.
    + exists [5]. split; [reflexivity|left; reflexivity].
Qed.

(** ** C163 *)
Theorem C163_assignments_terminate R m ps ns t c : (exists U, finite_objects R m U) -> no_self_containment R ->
  exists N, forall fuel, (N <= fuel)%nat -> for_assignment R fuel m ps ns t c <> Fuel /\ for_assignment R fuel m ps ns t c = for_assignment R N m ps ns t c.
Proof. exact (assignment_terminates R m ps ns t c). Qed.
Print Assumptions C163_assignments_terminate.
Theorem C163_equality_is_exact R fuel m a b t c c' : equality R fuel m a b t c = Done c' ->
  forall q, In q c' <-> In q c \/ exists o1 o2 x y, In o1 a /\ In o2 b /\ matched R m t o1 o2 x y /\ (replaces R x y q \/ replaces R y x q).
Proof. exact (equality_exact R m fuel a b t c c'). Qed.
Print Assumptions C163_equality_is_exact.
Theorem C163_equality_terminates_partial R t : no_self_reference R -> exists N, forall fuel m a b c, (N <= fuel)%nat ->
  equality R fuel m a b t c <> Fuel /\ equality R fuel m a b t c = equality R N m a b t c.
Proof. exact (equality_terminates R t). Qed.
Print Assumptions C163_equality_terminates_partial.
(** [Node n = make();] is analyzed forever, though assignments to a [Node*] are not. *)
Theorem C163_equality_terminates_refuted : exists R e, no_self_containment R /\ forall m c sv fuel, visit R fuel e (m, c, sv) = Fuel.
Proof.
  exists (with_fields (fun r => if r =? 1 then [(10, TPtr false (TRec 1))] else []) (fun o f => Some (o * 10))), (Call 7 (Direct 0 false) [] None IntoObject). split.
  - exists (fun _ => 0%nat). split; [|intros r b []]. intros r f r' I. exfalso. cbn in I. destruct (r =? 1); [destruct I as [I|[]]; discriminate|destruct I].
  - intros m c sv fuel. unfold visit. cbn [all_callees one_callee arguments bind with_fields params tl callable result_object call_ret object_type].
    rewrite (equality_diverges _ _ 1 10 false []); [reflexivity|reflexivity|intros o; cbn; discriminate].
Qed.
Print Assumptions C163_equality_terminates_refuted.
Example C163_case : no_self_containment R5 /\ finite_objects (with_fields (fun r => if r =? 1 then [(10, TPtr false (TRec 1))] else []) (fun o f => if (o =? 2) && (f =? 10) then Some 20 else if (o =? 3) && (f =? 10) then Some 30 else None)) m5 [2; 3; 20; 30] /\
  no_self_reference R4 /\ equality R4 20 m4 [2] [3] (TRec 1) [] = Done [(31, 21); (21, 31); (70, 60); (60, 70); (50, 40); (40, 50); (30, 20); (20, 30); (3, 2); (2, 3)].
Proof.
  split; [|split; [|split]].
  - exists (fun _ => 0%nat). split; [|intros r b []]. intros r f r' I. exfalso. cbn in I. destruct (r =? 1); [destruct I as [I|[]]; discriminate|destruct I].
  - split; [|split].
    + intros p x (l & E & I). unfold entry, m5 in E. cbn [pointers lookup] in E. destruct (Z.eqb p 20); [injection E as <-; destruct I as [<-|[]]; cbn; tauto|].
      destruct (Z.eqb p 30); [injection E as <-; destruct I as [<-|[]]; cbn; tauto|discriminate].
    + intros o f x E. cbn in E. destruct ((o =? 2) && (f =? 10)); [injection E as <-; cbn; tauto|]. destruct ((o =? 3) && (f =? 10)); [injection E as <-; cbn; tauto|discriminate].
    + intros o b x E. discriminate.
  - exists (fun _ => 0%nat). split; [|intros r b []]. intros r f t r' I Hn. exfalso. cbn in I. destruct (r =? 1); [|destruct I]. destruct I as [I|[I|[]]]; injection I as <- <-; exact Hn.
  - vm_compute. reflexivity.
Qed.
