(** C47: lifetime substitutions. *)
From Coq Require Import List Arith ZArith Bool Lia Relations.
From Verif.Lifetimes Require Import Model Spec Reach.
Import ListNotations.
Local Open Scope Z_scope.

Lemma assoc_put {V} k (v : V) m k' : assoc k' (put k v m) = if k' =? k then Some v else assoc k' m.
Proof. reflexivity. Qed.
Lemma substitute_det m l r r' : substitute m l r -> substitute m l r' -> r = r'.
Proof. intro H. revert r'. induction H as [l E|l l' r E H IH]; intros r' H'; inversion H'; subst; try congruence. apply IH. congruence. Qed.
Lemma substitute_end m l r : substitute m l r -> assoc r m = None.
Proof. induction 1; auto. Qed.
(** Every lookup ends. *)
Definition grounded (m : zmap) : Prop := forall l, exists r, substitute m l r.
Lemma add_total m v s : grounded m -> exists m', add m v s m'.
Proof. intro G. destruct (G s) as [s' H]. destruct (Z.eq_dec v s'); eexists; [eapply ASame|eapply APut]; eassumption. Qed.
Lemma put_grounded m v s : grounded m -> assoc s m = None -> v <> s -> grounded (put v s m).
Proof.
  intros G E N l. destruct (G l) as [r H]. assert (Es : assoc s (put v s m) = None) by (rewrite assoc_put; destruct (Z.eqb_spec s v); [congruence|exact E]).
  induction H as [l El|l l' r El H IH].
  - destruct (Z.eq_dec l v) as [->|Hne]; [exists s; eapply SStep; [rewrite assoc_put, Z.eqb_refl; reflexivity|now apply SDone]|]. exists l. apply SDone. rewrite assoc_put. destruct (Z.eqb_spec l v); [contradiction|exact El].
  - destruct (Z.eq_dec l v) as [->|Hne]; [exists s; eapply SStep; [rewrite assoc_put, Z.eqb_refl; reflexivity|now apply SDone]|]. destruct IH as [r' H']. exists r'. eapply SStep; [|exact H']. rewrite assoc_put. destruct (Z.eqb_spec l v); [contradiction|exact El].
Qed.
Lemma add_grounded m v s m' : grounded m -> add m v s m' -> grounded m'.
Proof. intros G A. inversion A as [s' H E|s' H N]; subst; [exact G|]. apply put_grounded; [exact G|eapply substitute_end; exact H|exact N]. Qed.
(** The maps any history of [Add] calls can produce. *)
Inductive history : list (lifetime * lifetime) -> zmap -> Prop :=
| HNil : history [] []
| HAdd h m v s m' : history h m -> add m v s m' -> history (h ++ [(v, s)]) m'.
Lemma history_grounded h m : history h m -> grounded m.
Proof. induction 1; [intro l; exists l; now apply SDone|eapply add_grounded; eassumption]. Qed.
(** Whatever was added before - also cycles of requests - [Add] and [Substitute] terminate, the answer is unique
    and has no substitution of its own. *)
Theorem C47_always_terminates : forall h m, history h m ->
  (forall v s, exists m', add m v s m') /\
  forall l, exists r, substitute m l r /\ (forall r', substitute m l r' -> r' = r) /\ substitute m r r.
Proof.
  intros h m H. apply history_grounded in H. split; [intros v s; now apply add_total|]. intro l. destruct (H l) as [r Hr]. exists r. split; [exact Hr|]. split; [intros r' Hr'; eapply substitute_det; eassumption|]. apply SDone. eapply substitute_end; exact Hr.
Qed.
Print Assumptions C47_always_terminates.
(** Adding a substitution for a variable without one replaces that variable, and nothing else, in every answer;
    a request that would make a variable stand for itself is dropped. *)
Theorem C47_add_replaces_the_variable : forall h m v s m' l r s', history h m -> substitute m v v -> add m v s m' ->
  substitute m s s' -> substitute m l r -> substitute m' l (if r =? v then s' else r).
Proof.
  intros h m v s m' l r s' Hh Hv A Hs Hl. apply substitute_end in Hv as Ev. inversion A as [s'' H E|s'' H N]; subst.
  - assert (s' = s'') by (eapply substitute_det; eassumption). subst s''. destruct (Z.eqb_spec r s') as [->|]; exact Hl.
  - assert (s' = s'') by (eapply substitute_det; eassumption). subst s''. clear A H.
    assert (Es : assoc s' (put v s' m) = None) by (rewrite assoc_put; destruct (Z.eqb_spec s' v); [congruence|eapply substitute_end; exact Hs]).
    induction Hl as [l El|l l' r El H IH].
    + destruct (Z.eqb_spec l v) as [->|Hne]; [eapply SStep; [rewrite assoc_put, Z.eqb_refl; reflexivity|now apply SDone]|]. apply SDone. rewrite assoc_put. destruct (Z.eqb_spec l v); [contradiction|exact El].
    + eapply SStep; [|exact IH]. rewrite assoc_put. destruct (Z.eqb_spec l v); [congruence|exact El].
Qed.
Print Assumptions C47_add_replaces_the_variable.
(** Constants (and any lifetime without a substitution) are returned unchanged. *)
Theorem C47_untouched : forall h m l, history h m -> (forall v s, In (v, s) h -> v <> l) -> substitute m l l.
Proof.
  intros h m l H N. apply SDone. induction H as [|h m v s m' H IH A]; [reflexivity|]. assert (Hm : assoc l m = None) by (apply IH; intros v' s' Hi; apply (N v' s'); apply in_or_app; now left).
  inversion A; subst; [exact Hm|]. rewrite assoc_put. destruct (Z.eqb_spec l v) as [->|]; [|exact Hm]. exfalso. apply (N v s); [apply in_or_app; right; now left|reflexivity].
Qed.
Print Assumptions C47_untouched.
Example C47_case : exists m, history [(2, 3); (3, 4); (4, 2); (4, -1)] m /\ substitute m 2 (-1).
Proof.
  exists [(4, -1); (3, 4); (2, 3)]. split.
  - apply (HAdd [(2, 3); (3, 4); (4, 2)] [(3, 4); (2, 3)]); [apply (HAdd [(2, 3); (3, 4)] [(3, 4); (2, 3)]); [apply (HAdd [(2, 3)] [(2, 3)]); [apply (HAdd [] []); [constructor|]|]|]|].
    + apply (APut [] 2 3 3); [now apply SDone|discriminate].
    + apply (APut [(2, 3)] 3 4 4); [now apply SDone|discriminate].
    + apply (ASame [(3, 4); (2, 3)] 4 2 4); [|reflexivity]. eapply SStep; [reflexivity|]. eapply SStep; [reflexivity|]. now apply SDone.
    + apply (APut [(3, 4); (2, 3)] 4 (-1) (-1)); [now apply SDone|discriminate].
  - eapply SStep; [reflexivity|]. eapply SStep; [reflexivity|]. eapply SStep; [reflexivity|]. now apply SDone.
Qed.
