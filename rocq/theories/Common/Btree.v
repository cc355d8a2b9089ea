(** Ordered maps with byte strings as keys (Rust's [BTreeMap<Rc<str>, _>], [absl::btree_map<string_view, _>]): sorted
    association lists.  Standard-library functions (not in /repo), with the lemmas that characterise them. *)
From Coq Require Import List NArith Bool Lia Strings.String Strings.Ascii Sorting.Sorted.
Import ListNotations.

Section Map.
Context {V : Type}.
(** [get] *)
Fixpoint bget (k : string) (m : list (string * V)) : option V :=
  match m with [] => None | (k', v) :: m' => if String.eqb k k' then Some v else bget k m' end.
(** [insert]: replaces the value of an existing key. *)
Fixpoint bput (k : string) (v : V) (m : list (string * V)) : list (string * V) :=
  match m with
  | [] => [(k, v)]
  | (k', v') :: m' => match String.compare k k' with
                      | Lt => (k, v) :: m
                      | Eq => (k, v) :: m'
                      | Gt => (k', v') :: bput k v m'
                      end
  end.
End Map.

Lemma ascii_compare_spec a b : Ascii.compare a b = N.compare (N_of_ascii a) (N_of_ascii b).
Proof. reflexivity. Qed.
Lemma compare_refl a : String.compare a a = Eq.
Proof. induction a as [|c a IH]; [reflexivity|]. cbn. rewrite ascii_compare_spec, N.compare_refl. exact IH. Qed.
Lemma compare_eq a : forall b, String.compare a b = Eq -> a = b.
Proof.
  induction a as [|c a IH]; intros [|d b]; cbn; try discriminate; [reflexivity|]. rewrite ascii_compare_spec. destruct (N.compare_spec (N_of_ascii c) (N_of_ascii d)) as [E|E|E]; try discriminate. intro H. rewrite (IH _ H). f_equal. rewrite <- (ascii_N_embedding c), <- (ascii_N_embedding d). now rewrite E.
Qed.
Lemma compare_gt_lt a : forall b, String.compare a b = Gt -> String.compare b a = Lt.
Proof.
  induction a as [|c a IH]; intros [|d b]; cbn; try discriminate; [reflexivity|]. rewrite !ascii_compare_spec, (N.compare_antisym (N_of_ascii c)). destruct (N.compare (N_of_ascii c) (N_of_ascii d)); cbn; try discriminate; auto.
Qed.
Lemma compare_lt_trans a : forall b d, String.compare a b = Lt -> String.compare b d = Lt -> String.compare a d = Lt.
Proof.
  induction a as [|c a IH]; intros [|c' b] [|c'' d]; cbn; try discriminate; auto. rewrite !ascii_compare_spec.
  destruct (N.compare_spec (N_of_ascii c) (N_of_ascii c')) as [E|E|E], (N.compare_spec (N_of_ascii c') (N_of_ascii c'')) as [E'|E'|E']; try discriminate; intros H H'.
  - rewrite E, E', N.compare_refl. eauto.
  - rewrite E. now rewrite (proj2 (N.compare_lt_iff _ _) E').
  - rewrite <- E'. now rewrite (proj2 (N.compare_lt_iff _ _) E).
  - rewrite (proj2 (N.compare_lt_iff _ _)); [reflexivity|lia].
Qed.

Section Facts.
Context {V : Type}.
Implicit Types m : list (string * V).
Definition key_lt (a b : string * V) : Prop := String.compare (fst a) (fst b) = Lt.
Definition sorted m : Prop := StronglySorted key_lt m.
Lemma bget_bput k k' v m : bget k (bput k' v m) = if String.eqb k k' then Some v else bget k m.
Proof.
  induction m as [|[k0 v0] m IH]; cbn [bput bget]; [reflexivity|]. destruct (String.compare k' k0) eqn:E; cbn [bget].
  - apply compare_eq in E. subst. now destruct (String.eqb k k0).
  - reflexivity.
  - rewrite IH. destruct (String.eqb_spec k k0) as [->|N]; [|reflexivity]. destruct (String.eqb_spec k0 k') as [->|]; [|reflexivity]. rewrite compare_refl in E. discriminate.
Qed.
Lemma bput_in k v m x : In x (bput k v m) -> x = (k, v) \/ In x m.
Proof.
  induction m as [|[k0 v0] m IH]; cbn [bput]; [cbn; intuition congruence|]. destruct (String.compare k k0) eqn:E; cbn [In]; intros H.
  - destruct H as [<-|H]; auto.
  - destruct H as [<-|H]; auto.
  - destruct H as [<-|H]; [auto|]. destruct (IH H); auto.
Qed.
Lemma bput_sorted k v m : sorted m -> sorted (bput k v m).
Proof.
  intro S. induction S as [|[k0 v0] m S IH F]; cbn [bput]; [repeat constructor|]. rewrite Forall_forall in F. destruct (String.compare k k0) eqn:E.
  - apply compare_eq in E. subst. constructor; [exact S|]. apply Forall_forall. intros x Hx. apply (F x Hx).
  - constructor; [constructor; [exact S|now apply Forall_forall]|]. constructor; [exact E|]. apply Forall_forall. intros x Hx. unfold key_lt. cbn [fst]. eapply compare_lt_trans; [exact E|apply (F x Hx)].
  - constructor; [exact IH|]. apply Forall_forall. intros x Hx. apply bput_in in Hx as [->|Hx]; [|now apply F]. unfold key_lt. cbn [fst]. now apply compare_gt_lt.
Qed.
Lemma sorted_nodup m : sorted m -> NoDup (map fst m).
Proof.
  induction 1 as [|[k v] m S IH F]; cbn [map fst]; constructor; [|exact IH]. rewrite Forall_forall in F. intro H. apply in_map_iff in H as ([k' v'] & E & H). cbn in E. subst k'. specialize (F _ H). unfold key_lt in F. cbn in F. rewrite compare_refl in F. discriminate.
Qed.
Lemma bget_in m : NoDup (map fst m) -> forall k v, bget k m = Some v <-> In (k, v) m.
Proof.
  induction m as [|[k0 v0] m IH]; intros N k v; cbn [bget In]; [split; [discriminate|contradiction]|]. cbn [map fst] in N. inversion N as [|? ? N1 N2]; subst. destruct (String.eqb_spec k k0) as [->|Hne].
  - split; [intro E; injection E as ->; now left|]. intros [E|H]; [now injection E as ->|]. exfalso. apply N1. change k0 with (fst (k0, v)). now apply in_map.
  - rewrite (IH N2). split; [auto|]. intros [E|H]; [congruence|exact H].
Qed.
Lemma bget_known m k : bget k m <> None <-> In k (map fst m).
Proof. induction m as [|[k0 t] m IH]; cbn [bget map fst In]; [tauto|]. destruct (String.eqb_spec k k0) as [->|N]; [split; [auto|discriminate]|]. rewrite IH. intuition congruence. Qed.
End Facts.
