(** C75-C78: the C++ classes generated for Rust types. *)
From Coq Require Import List Arith ZArith Bool Lia.
Import ListNotations.
From Verif.CppClass Require Import Model Spec Proofs.
From Verif.CppClass Require MemSwap.

(** * C75: every Rust value is dropped exactly once *)

(** Whatever a C++ program does with the objects (any history of constructions, assignments, moves, calls and destructions),
    every value has one owner at any time and is dropped once.  Not covered: types passed by value, and arrays as parameters,
    for which it is false (below). *)
Theorem C75_ownership_partial :
  forall t dflt cln, needs_drop t = true -> by_value t = false -> rustc_ok t ->
  forall ops st, no_arrays ops -> run t dflt cln ops init = Some st -> ownership st.
Proof. intros; eapply run_own; eauto. apply init_own. Qed.
Print Assumptions C75_ownership_partial.

(** So once all objects are gone and Rust has released what it owned, every value ever made was dropped, exactly once. *)
Theorem C75_dropped_exactly_once_partial :
  forall t dflt cln, needs_drop t = true -> by_value t = false -> rustc_ok t ->
  forall ops st, no_arrays ops -> run t dflt cln ops init = Some st ->
  (forall x, alive st x = false) -> rust st = [] ->
  forall i, i < next st -> count_occ Nat.eq_dec (dropped st) i = 1.
Proof.
  intros t dflt cln ND NV RC ops st NA R A E i L.
  assert (O : ownership st) by (eapply C75_ownership_partial; eauto).
  apply (accounted _ O) in L; destruct L as [[x [Ax _]]|[Ro|D]].
  - rewrite A in Ax; discriminate.
  - unfold rust_owns in Ro; rewrite E in Ro; destruct Ro.
  - apply NoDup_count_occ'; [exact (dropped_once _ O) | exact D].
Qed.
Print Assumptions C75_dropped_exactly_once_partial.

(** Uninitialised memory is never used as a value: also for types without a destructor, and with arrays. *)
Theorem C75_no_uninitialised_use_partial :
  forall t dflt cln, (needs_drop t = true -> by_value t = false) ->
  forall ops st, run t dflt cln ops init = Some st ->
  ub st = false /\ forall x, alive st x = true -> exists i, holds st x i.
Proof.
  intros t dflt cln US ops st R. destruct (run_fine t dflt cln US ops init st init_fine R) as [U H].
  split; [exact U|]. intros x A; destruct (H x A) as [i [d M]]; exists i; split; eauto.
Qed.
Print Assumptions C75_no_uninitialised_use_partial.

(** A type with a destructor that is passed by value ([repr(transparent)]): the default constructor drops uninitialised
    memory, for every such type whose generated code compiles. *)
Theorem C75_default_ctor_by_value_refuted :
  forall t dflt cln, needs_drop t = true -> by_value t = true -> rustc_ok t ->
  forall x st, run t dflt cln [ODefault x] init = Some st -> ub st = true.
Proof.
  intros t dflt cln ND BV RC x st; cbn [run step]; cbn [init alive]. unfold default_ctor.
  destruct (has_default t); [|discriminate]. cbn [fresh]. unfold ctor_body; rewrite BV. unfold move_assign.
  destruct (move_of_drop t ND RC) as [[-> _]|[[-> Ec]| ->]]; [| |discriminate].
  - cbn [mem_swap]. unfold drop_bytes; rewrite ND; cbn [begin]. intros E; injection E as <-. reflexivity.
  - unfold copy_assign; rewrite Ec. cbn [clone_bytes fresh]. unfold drop_bytes; rewrite ND. cbn [begin go_wrong].
    intros E; injection E as <-. reflexivity.
Qed.
Print Assumptions C75_default_ctor_by_value_refuted.

(** The same for the copy constructor and for conversion constructors. *)
Theorem C75_copy_ctor_by_value_refuted :
  forall t dflt cln, needs_drop t = true -> by_value t = true -> rustc_ok t ->
  forall x y d st, run t dflt cln [OReturn y d; OCopyCtor x y] init = Some st -> ub st = true.
Proof.
  intros t dflt cln ND BV RC x y d st; cbn [run step]. cbn [init alive fresh return_value begin].
  destruct (_ || _); [discriminate|]. cbn [set_alive set_mem mem]. rewrite upd_same.
  unfold copy_ctor. destruct (copy_of_drop t ND RC) as [Ec|Ec]; rewrite Ec; [|discriminate].
  cbn [clone_bytes fresh]. unfold ctor_body; rewrite BV. unfold move_assign.
  destruct (move_of_drop t ND RC) as [[-> _]|[[-> _]| ->]]; [| |discriminate].
  - cbn [mem_swap]. unfold drop_bytes; rewrite ND; cbn [begin]. intros E; injection E as <-. reflexivity.
  - unfold copy_assign; rewrite Ec. cbn [clone_bytes fresh]. unfold drop_bytes; rewrite ND. cbn [begin go_wrong].
    intros E; injection E as <-. reflexivity.
Qed.
Print Assumptions C75_copy_ctor_by_value_refuted.

(** An array with elements that have a destructor, passed by value: whatever the class, every element is owned by Rust and
    still destroyed by the C++ caller. *)
Theorem C75_array_param_refuted :
  forall t dflt cln, needs_drop t = true ->
  forall d, exists st, accepts_array_param t = true /\
    run t dflt cln [OReturn 0 d; OTakeArray [0]; ODestroy 0; ORelease 0] init = Some st /\ dropped st = [0; 0].
Proof.
  intros [nd hd cp cl un bv] dflt cln ND d; cbn in ND; subst nd. eexists; split; [reflexivity|]. split; reflexivity.
Qed.
Print Assumptions C75_array_param_refuted.

(** Non-vacuity: a type with Drop and Default, used in most ways. *)
Definition owner : traits := Traits true true false false true false.
Definition cloner : traits := Traits true false false true true false.
Example ownership_case :
  option_map (fun st => (dropped st, next st, rust st))
    (run owner 7 (fun d => d) [ODefault 0; OReturn 1 5; OMoveAssign 0 1; OMoveCtor 2 0; OTake 2; OGive 3 1; OMoveAssign 3 3;
                               ODestroy 3; ODestroy 2; ODestroy 1; ODestroy 0] init) = Some ([2; 0; 3; 1], 4, []).
Proof. vm_compute; reflexivity. Qed.
Example cloner_case :
  option_map (fun st => (dropped st, next st, rust st))
    (run cloner 7 (fun d => d + 1)%N [OReturn 0 5; OCopyCtor 1 0; OMoveCtor 2 1; OCopyAssign 0 2; OTake 0; ORelease 4;
                                      ODestroy 2; ODestroy 1; ODestroy 0] init) = Some ([3; 1; 2; 4; 0], 5, []).
Proof. vm_compute; reflexivity. Qed.

(** The generated golden file cc_bindings_from_rs/test/pass_by_value_unmovable shows such a type: CppMovable. *)
Definition cpp_movable : traits := Traits true true false false true true.
Example default_by_value_case : exists st, run cpp_movable 0 (fun d => d) [ODefault 0] init = Some st /\ ub st = true.
Proof. eexists; split; reflexivity. Qed.

(** * C76: what C++ code sees *)

Ltac puts := unfold data, put; cbn [alive mem set_alive set_mem]; unfold upd; cbn [alive mem];
  repeat match goal with |- context [?a =? ?b] => destruct (Nat.eqb_spec a b); subst; cbn [alive mem set_alive set_mem option_map] end.

(** Every operation changes exactly the data it should: a moved-to object gets the source's data; a moved-from object is left
    unchanged, or (types with a destructor, [Default] and [Unpin]) with the default value by a move construction or a call, and
    with the old value of the target by an assignment; copies and clones leave the source alone; self assignment of either
    kind changes nothing; and no other object changes. *)
Theorem C76_values_partial :
  forall t dflt cln, (needs_drop t = true -> by_value t = false) -> rustc_ok t ->
  forall ops st, run t dflt cln ops init = Some st ->
  forall o st', step t dflt cln o st = Some st' ->
  forall z, data st' z = data_after t dflt cln (fun i => find_rust i (rust st)) o (data st) z.
Proof.
  intros t dflt cln US RC ops st R o st' S.
  pose proof (copy_ctor_val t cln US) as CCV; pose proof (move_ctor_val t dflt cln US) as MCV; pose proof (default_ctor_val t dflt cln US) as DCV.
  pose proof (ctor_body_usable t cln US) as CBU; pose proof (drop_mem t US) as DM.
  pose proof (run_fine t dflt cln US ops init st init_fine R) as F. pose proof F as [U H]. clear R ops.
  assert (CC : is_copy t = true -> needs_drop t = false) by (intros C; now destruct (RC C)).
  assert (CO : copy_of t = if is_copy t then Some CopyTrivial else if is_clone t then Some CopyClone else None) by reflexivity.
  assert (MO : move_of t = if needs_drop t then (if swapped t then Some MoveMemSwap else if (if copy_of t then true else false) then Some MoveCopy else None) else Some MoveDefault).
  { unfold move_of, move_ctor_style, swapped; destruct (needs_drop t), (has_default t), (is_unpin t); reflexivity. }
  assert (SW : swapped t = true -> has_default t = true /\ needs_drop t = true).
  { unfold swapped; destruct (needs_drop t), (has_default t), (is_unpin t); cbn; auto; discriminate. }
  destruct o as [x|x d|x y|x y|x y|x y|x|x d|x i|x|xs|i|x d]; cbn [step data_after] in *.
  - destruct (alive st x) eqn:A; [discriminate|]. rewrite DCV in S; destruct (has_default t); [|discriminate].
    cbn [begin fresh snd] in S; injection S as <-. intros z; puts; reflexivity.
  - destruct (alive st x) eqn:A; [discriminate|]. unfold from_ctor in S; cbn [fresh] in S; rewrite CBU in S; cbn [begin] in S; injection S as <-.
    intros z; puts; reflexivity.
  - destruct (alive st x) eqn:A; [discriminate|]. destruct (alive st y) eqn:Ay; [|discriminate]. cbn [orb negb] in S.
    destruct (H y Ay) as [j [e My]]. rewrite My, CCV, CO in S. unfold copied.
    destruct (is_copy t); [|destruct (is_clone t); [|discriminate]]; cbn [begin fresh snd] in S; injection S as <-; intros z; puts;
      rewrite ?Ay, ?My; reflexivity.
  - destruct (alive st x) eqn:A; [discriminate|]. destruct (alive st y) eqn:Ay; [|discriminate]. cbn [orb negb] in S.
    assert (N : x <> y) by congruence.
    destruct (H y Ay) as [j [e My]]. rewrite My, MCV, MO in S. unfold arrives.
    destruct (needs_drop t) eqn:ND; cbn [negb orb].
    + destruct (swapped t) eqn:Sw.
      * destruct (SW eq_refl) as [Hd _]; rewrite Hd in S. cbn [begin fresh snd] in S; injection S as <-. intros z; puts; rewrite ?Ay, ?My; try congruence; reflexivity.
      * rewrite CCV in S. rewrite CO in S. destruct (is_copy t); [discriminate (CC eq_refl)|].
        destruct (is_clone t); [|discriminate]. cbn [begin fresh snd] in S; injection S as <-. intros z; puts; rewrite ?Ay, ?My; try congruence; reflexivity.
    + destruct (swapped t) eqn:Sw; [destruct (SW eq_refl); discriminate|].
      cbn [begin] in S; injection S as <-. intros z; puts; rewrite ?Ay, ?My; try congruence; reflexivity.
  - destruct (alive st x) eqn:Ax; [|discriminate]. destruct (alive st y) eqn:Ay; [|discriminate]. cbn [andb] in S.
    destruct (H y Ay) as [j [e My]], (H x Ax) as [i [d Mx]]. unfold copy_assign in S; rewrite Mx, My, CO in S. unfold copied.
    destruct (Nat.eqb_spec x y) as [->|N].
    + assert (E : Val i d = Val j e) by congruence. rewrite E in *.
      destruct (is_copy t); [|destruct (is_clone t); [|discriminate]]; injection S as <-; intros z; puts; rewrite ?Ay, ?My; reflexivity.
    + destruct (is_copy t); [|destruct (is_clone t); [|discriminate]]; cbn [clone_bytes fresh] in S; injection S as <-; intros z.
      * puts; rewrite ?Ax, ?Ay, ?My; try congruence; reflexivity.
      * unfold data, put; cbn [alive mem set_alive set_mem]; unfold upd; cbn [alive mem].
        match goal with |- context [drop_bytes t ?b ?s] => destruct (DM b s) as [-> ->] end. cbn [alive mem].
        destruct (Nat.eqb_spec z x); subst; [rewrite Ax, Ay, My; reflexivity|]. destruct (Nat.eqb_spec z y); subst; [rewrite Ay, My; reflexivity|]. reflexivity.
  - destruct (alive st x) eqn:Ax; [|discriminate]. destruct (alive st y) eqn:Ay; [|discriminate]. cbn [andb] in S.
    destruct (H y Ay) as [j [e My]], (H x Ax) as [i [d Mx]]. unfold move_assign in S; rewrite Mx, My, MO in S. unfold arrives.
    destruct (needs_drop t) eqn:ND; cbn [negb orb].
    + destruct (swapped t) eqn:Sw.
      * unfold mem_swap in S. destruct (Nat.eqb_spec x y) as [->|N]; injection S as <-; intros z; puts; rewrite ?Ax, ?Ay, ?Mx, ?My; try congruence; reflexivity.
      * unfold copy_assign in S. rewrite CO in S. destruct (is_copy t); [discriminate (CC eq_refl)|].
        destruct (is_clone t); [|discriminate].
        destruct (Nat.eqb_spec x y) as [->|N].
        -- assert (E : Val i d = Val j e) by congruence. rewrite E in *. injection S as <-; intros z; puts; rewrite ?Ay, ?My; reflexivity.
        -- cbn [clone_bytes fresh] in S; injection S as <-; intros z.
           unfold data, put; cbn [alive mem set_alive set_mem]; unfold upd; cbn [alive mem].
           match goal with |- context [drop_bytes t ?b ?s] => destruct (DM b s) as [-> ->] end. cbn [alive mem].
           destruct (Nat.eqb_spec z x); subst; [rewrite Ax, Ay, My; reflexivity|]. destruct (Nat.eqb_spec z y); subst; [rewrite Ay, My; reflexivity|]. reflexivity.
    + destruct (swapped t) eqn:Sw; [destruct (SW eq_refl); discriminate|]. injection S as <-.
      destruct (Nat.eqb_spec x y) as [->|N]; intros z; puts; rewrite ?Ax, ?Ay, ?Mx, ?My; try congruence; reflexivity.
  - destruct (alive st x) eqn:A; [|discriminate]. injection S as <-. intros z. unfold data, put; cbn [alive mem set_alive set_mem]; unfold upd; cbn [alive mem].
    match goal with |- context [drop_bytes t ?b ?s] => destruct (DM b s) as [-> ->] end.
    destruct (Nat.eqb_spec z x); reflexivity.
  - destruct (alive st x) eqn:A; [discriminate|]. cbn [fresh return_value begin] in S; injection S as <-. intros z; puts; reflexivity.
  - destruct (alive st x) eqn:A; [discriminate|]. destruct (find_rust i (rust st)) as [d|]; [|discriminate]. cbn [return_value begin set_rust] in S; injection S as <-.
    intros z; puts; reflexivity.
  - destruct (alive st x) eqn:A; [|discriminate]. destruct (H x A) as [i [d M]]. unfold take_param in S; rewrite M in S.
    assert (BV : by_value t = true \/ by_value t = false) by (case (by_value t); auto).
    destruct BV as [B | B]; rewrite B in S.
    + assert (Sw : swapped t = false).
      { destruct (swapped t) eqn:Sw; auto. destruct (SW eq_refl) as [_ ND]. rewrite (US ND) in B; discriminate. }
      rewrite Sw. rewrite CCV, CO in S. destruct (is_copy t); [|destruct (is_clone t); [|discriminate]]; cbn [fresh snd own] in S; injection S as <-;
      intros z; puts; rewrite ?A, ?M; reflexivity.
    + destruct (needs_drop t) eqn:ND; cbn [negb] in S.
      * rewrite MCV, MO in S. destruct (swapped t) eqn:Sw.
        -- destruct (SW eq_refl) as [Hd _]; rewrite Hd in S. cbn [fresh snd own] in S; injection S as <-. intros z; puts; rewrite ?A, ?M; reflexivity.
        -- rewrite CCV, CO in S. destruct (is_copy t); [discriminate (CC eq_refl)|].
           destruct (is_clone t); [|discriminate]. cbn [fresh snd own] in S; injection S as <-. intros z; puts; rewrite ?A, ?M; reflexivity.
      * destruct (swapped t) eqn:Sw; [destruct (SW eq_refl); discriminate|]. cbn [own] in S; injection S as <-. intros z; puts; rewrite ?A, ?M; reflexivity.
  - destruct (forallb (alive st) xs); [|discriminate]. injection S as <-. intros z.
    assert (E : forall l s, mem (take_array l s) = mem s /\ alive (take_array l s) = alive s).
    { induction l as [|b l IH]; intros s; [auto|]. cbn [take_array fold_left]. destruct (IH (own b s)) as [E1 E2].
      unfold take_array in E1, E2. rewrite E1, E2. destruct b; auto. }
    destruct (E (map (mem st) xs) st) as [E1 E2]. unfold data; now rewrite E1, E2.
  - destruct (find_rust i (rust st)) as [d|]; [|discriminate]. injection S as <-. intros z. unfold data.
    match goal with |- context [drop_bytes t ?b ?s] => destruct (DM b s) as [-> ->] end. reflexivity.
  - destruct (alive st x) eqn:A; [|discriminate]. destruct (H x A) as [i [d0 M]]; rewrite M in S. injection S as <-. intros z; puts; rewrite ?A; reflexivity.
Qed.
Print Assumptions C76_values_partial.

(** A Rust function receives the argument's data. *)
Theorem C76_argument_received_partial :
  forall t dflt cln, (needs_drop t = true -> by_value t = false) -> rustc_ok t ->
  forall ops st, run t dflt cln ops init = Some st ->
  forall x st', step t dflt cln (OTake x) st = Some st' ->
  exists d i, data st x = Some d /\ rust st' = (i, received t cln d) :: rust st.
Proof.
  intros t dflt cln US RC ops st R x st' S.
  pose proof (copy_ctor_val t cln US) as CCV; pose proof (move_ctor_val t dflt cln US) as MCV; pose proof (default_ctor_val t dflt cln US) as DCV.
  destruct (run_fine t dflt cln US ops init st init_fine R) as [U H]. cbn [step] in S.
  destruct (alive st x) eqn:A; [|discriminate]. destruct (H x A) as [i [d M]]. exists d.
  unfold data, received, arrives, copied; rewrite A, M. unfold take_param in S; rewrite M in S.
  assert (BV : by_value t = true \/ by_value t = false) by (case (by_value t); auto).
  assert (CC : is_copy t = true -> needs_drop t = false) by (intros C; now destruct (RC C)).
  destruct BV as [B | B]; rewrite B in S; rewrite B.
  - rewrite CCV in S. unfold copy_of, copy_ctor_style in S.
    destruct (is_copy t); [|destruct (is_clone t); [|discriminate]]; cbn [fresh snd own] in S; injection S as <-; cbn [set_mem rust]; eauto.
  - destruct (needs_drop t) eqn:ND; cbn [negb orb] in *.
    + rewrite MCV in S. unfold move_of, move_ctor_style, swapped in *. rewrite ND in *. cbn [negb andb] in *.
      destruct (has_default t && is_unpin t) eqn:W.
      * apply andb_true_iff in W; destruct W as [W _]; rewrite W in S. cbn [fresh snd own] in S. injection S as <-. cbn [set_mem rust]; eauto.
      * rewrite CCV in S. unfold copy_of, copy_ctor_style in S. destruct (is_copy t); [discriminate (CC eq_refl)|].
        destruct (is_clone t); [|discriminate]. cbn [fresh snd own] in S. injection S as <-. cbn [set_mem rust]; eauto.
    + cbn [own] in S. injection S as <-. cbn [set_mem rust]; eauto.
Qed.
Print Assumptions C76_argument_received_partial.

Example values_case : exists st st',
  run owner 7 (fun d => d) [ODefault 0; OReturn 1 5] init = Some st /\ step owner 7 (fun d => d) (OMoveAssign 0 1) st = Some st' /\
  data st' 0 = Some 5%N /\ data st' 1 = Some 7%N.
Proof. do 2 eexists; repeat split. Qed.

(** * C77: MemSwap exchanges two objects and touches nothing else *)

(** Two complete objects of the same type are the same object or do not overlap. *)
Theorem C77_memswap :
  forall m a b n, a = b \/ a + n <= b \/ b + n <= a ->
  exists m', MemSwap.mem_swap m a b n = Some m' /\
    (forall k, k < n -> m' (a + k) = m (b + k)) /\
    (forall k, k < n -> m' (b + k) = m (a + k)) /\
    (forall q, ~ (a <= q < a + n) -> ~ (b <= q < b + n) -> m' q = m q).
Proof.
  intros m a b n D. unfold MemSwap.mem_swap. destruct (Nat.eqb_spec a b) as [->|N].
  { exists m; repeat split; auto. }
  assert (D' : a + n <= b \/ b + n <= a) by tauto. clear D.
  unfold MemSwap.memcpy, MemSwap.overlap.
  assert (E : negb ((n =? 0) || (a + n <=? b) || (b + n <=? a)) = false).
  { destruct (Nat.leb_spec (a + n) b), (Nat.leb_spec (b + n) a), (n =? 0); auto; lia. }
  rewrite E. eexists; split; [reflexivity|]. repeat split.
  - intros k K. rewrite !MemSwap.write_read, !MemSwap.read_length.
    destruct (Nat.leb_spec b (a + k)), (Nat.ltb_spec (a + k) (b + n)); cbn [andb]; try lia;
    (destruct (Nat.leb_spec a (a + k)); [|lia]); (destruct (Nat.ltb_spec (a + k) (a + n)); [|lia]); cbn [andb];
    replace (a + k - a) with k by lia; now apply MemSwap.nth_read.
  - intros k K. rewrite MemSwap.write_read, MemSwap.read_length.
    destruct (Nat.leb_spec b (b + k)); [|lia]. destruct (Nat.ltb_spec (b + k) (b + n)); [|lia]. cbn [andb].
    replace (b + k - b) with k by lia; now apply MemSwap.nth_read.
  - intros q Q1 Q2. rewrite !MemSwap.write_read, !MemSwap.read_length.
    destruct (Nat.leb_spec b q), (Nat.ltb_spec q (b + n)); cbn [andb]; try (exfalso; lia);
    destruct (Nat.leb_spec a q), (Nat.ltb_spec q (a + n)); cbn [andb]; auto; exfalso; lia.
Qed.
Print Assumptions C77_memswap.

Example memswap_case : exists m', MemSwap.mem_swap (fun q => N.of_nat q) 2 5 3 = Some m' /\ map m' (seq 0 10) = [0;1;5;6;7;2;3;4;8;9]%N.
Proof. eexists; split; reflexivity. Qed.

(** * C78: what the generator accepts can be used *)

(** If a function taking a parameter of this type is accepted, a C++ program can call it with any object; the same for the
    default constructor; unless the type has a destructor and is passed by value. *)
Theorem C78_accepted_usable_partial :
  forall t dflt cln, (needs_drop t = true -> by_value t = false) -> (by_value t = true -> is_copy t || is_clone t = true) ->
  forall ops st, run t dflt cln ops init = Some st ->
  (forall x, accepts_param t = true -> alive st x = true -> exists st', step t dflt cln (OTake x) st = Some st') /\
  (forall x, emits_default_ctor t = true -> alive st x = false -> exists st', step t dflt cln (ODefault x) st = Some st') /\
  (forall x y, emits_clone_ctor t = true -> alive st x = false -> alive st y = true -> exists st', step t dflt cln (OCopyCtor x y) st = Some st').
Proof.
  intros t dflt cln US BC ops st R.
  pose proof (copy_ctor_val t cln US) as CCV; pose proof (move_ctor_val t dflt cln US) as MCV; pose proof (default_ctor_val t dflt cln US) as DCV.
  destruct (run_fine t dflt cln US ops init st init_fine R) as [U H].
  assert (BV : by_value t = true \/ by_value t = false) by (case (by_value t); auto).
  split; [|split].
  - intros x Ac A. cbn [step]. rewrite A. destruct (H x A) as [i [d M]]. unfold take_param; rewrite M.
    destruct BV as [B|B]; rewrite B.
    + rewrite CCV. specialize (BC B). unfold copy_of, copy_ctor_style.
      destruct (is_copy t); [eauto|]. destruct (is_clone t); [eauto|discriminate].
    + destruct (needs_drop t) eqn:ND; cbn [negb]; [|eauto]. rewrite MCV. unfold accepts_param in Ac.
      unfold move_of, move_ctor_style in *. rewrite ND in *. cbn [negb] in *.
      destruct (has_default t && is_unpin t) eqn:W.
      * apply andb_true_iff in W; destruct W as [W _]; rewrite W; eauto.
      * rewrite CCV. destruct (copy_of t) as [[]|]; [eauto|eauto|discriminate].
  - intros x Em A. cbn [step]. rewrite A, DCV. unfold emits_default_ctor in Em; rewrite Em. cbn [begin]; eauto.
  - intros x y Em A Ay. cbn [step]. rewrite A, Ay. cbn [orb negb]. destruct (H y Ay) as [i [d M]]. rewrite M, CCV.
    unfold emits_clone_ctor in Em. destruct (copy_of t) as [[]|]; try discriminate. cbn [begin]; eauto.
Qed.
Print Assumptions C78_accepted_usable_partial.

(** A type passed by value that is movable but not copyable: the function is accepted, but its generated wrapper passes the
    parameter as an lvalue and does not compile (golden file: takes_val_movable). *)
Theorem C78_by_value_move_only_refuted :
  forall t dflt cln, by_value t = true -> accepts_param t = true -> is_copy t = false -> is_clone t = false ->
  forall st x, step t dflt cln (OTake x) st = None.
Proof.
  intros t dflt cln BV Ac C1 C2 st x. cbn [step]. destruct (alive st x); auto. unfold take_param; rewrite BV.
  unfold copy_ctor, copy_of, copy_ctor_style; now rewrite C1, C2.
Qed.
Print Assumptions C78_by_value_move_only_refuted.

(** A type passed by value that is [Default] but not movable: the generated default constructor assigns to [*this] and does
    not compile. *)
Theorem C78_by_value_default_unmovable_refuted :
  forall t dflt cln, by_value t = true -> emits_default_ctor t = true -> move_of t = None ->
  forall st x, step t dflt cln (ODefault x) st = None.
Proof.
  intros t dflt cln BV Em M st x. cbn [step]. destruct (alive st x); auto. unfold default_ctor, emits_default_ctor in *; rewrite Em.
  cbn [fresh]. unfold ctor_body; rewrite BV. unfold move_assign; now rewrite M.
Qed.
Print Assumptions C78_by_value_default_unmovable_refuted.

Example usable_case : accepts_param cpp_movable = true /\ move_of (Traits true true false false false true) = None /\
  emits_default_ctor (Traits true true false false false true) = true.
Proof. repeat split. Qed.
