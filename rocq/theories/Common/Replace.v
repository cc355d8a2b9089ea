(** Searching and replacing in Rust strings ([str::replace], [Regex::replace_all],
    [str::match_indices], [str::trim_matches]): standard-library functions, not in /repo. *)
From Coq Require Import List NArith Bool Arith Lia.
From Coq Require Import Strings.String.
From Verif.Common Require Import Str.
Import ListNotations.
Local Open Scope N_scope.
Local Open Scope list_scope.

(** [expect l s]: the rest of [s] after the literal text [l]. *)
Fixpoint expect (l s : str) : option str :=
  match l, s with
  | [], _ => Some s
  | a :: l', b :: s' => if a =? b then expect l' s' else None
  | _ :: _, [] => None
  end.

(** Non-overlapping replacement from the left of all matches, where [m] matches at the start of
    a text and gives the rest.  The bound is the length of the text. *)
Fixpoint replace_n (n : nat) (m : str -> option str) (r : str) (s : str) : str :=
  match n with
  | O => s
  | S n' =>
      match m s with
      | Some rest => r ++ replace_n n' m r rest
      | None => match s with [] => [] | c :: s' => c :: replace_n n' m r s' end
      end
  end.
Definition replace_all (m : str -> option str) (r s : str) : str := replace_n (S (List.length s)) m r s.

(** [str::replace(from, to)] for a non-empty [from]. *)
Definition str_replace (from to s : str) : str := replace_all (expect from) to s.

(** [str::trim_matches(c)]. *)
Fixpoint trim_start_c (c : char) (s : str) : str :=
  match s with
  | x :: s' => if x =? c then trim_start_c c s' else s
  | [] => []
  end.
Definition trim_end_c (c : char) (s : str) : str := rev (trim_start_c c (rev s)).
Definition trim_c (c : char) (s : str) : str := trim_end_c c (trim_start_c c s).

(** [str::match_indices(p)]: offsets of the non-overlapping matches, from the left; the empty
    pattern matches at every position including the end. *)
Fixpoint match_indices_n (n : nat) (p : str) (pos : nat) (s : str) : list nat :=
  match n with
  | O => []
  | S n' =>
      match p with
      | [] => pos :: match s with [] => [] | _ :: s' => match_indices_n n' p (S pos) s' end
      | _ :: _ =>
          match expect p s with
          | Some rest => pos :: match_indices_n n' p (pos + List.length p) rest
          | None => match s with [] => [] | _ :: s' => match_indices_n n' p (S pos) s' end
          end
      end
  end.
Definition match_indices (p s : str) : list nat := match_indices_n (S (List.length s)) p 0 s.

Lemma expect_spec l : forall s rest, expect l s = Some rest <-> s = l ++ rest.
Proof.
  induction l as [|a l IH]; intros s rest; cbn.
  - split; [now injection 1|now intros ->].
  - destruct s as [|b s]; [split; discriminate|]. destruct (N.eqb_spec a b) as [->|Hne].
    + rewrite IH. split; [now intros ->|]. intro H. now injection H.
    + split; [discriminate|]. intro H. injection H as H _. congruence.
Qed.
Lemma expect_app_eq l rest : expect l (l ++ rest) = Some rest.
Proof. now apply expect_spec. Qed.
Lemma expect_shrink l : l <> [] -> forall s rest, expect l s = Some rest -> (List.length rest < List.length s)%nat.
Proof. intros H s rest E. apply expect_spec in E as ->. rewrite app_length. destruct l; [contradiction|]. cbn. lia. Qed.

Section Replace.
  Variable m : str -> option str.
  Variable r : str.
  Hypothesis shrink : forall s rest, m s = Some rest -> (List.length rest < List.length s)%nat.

  Lemma replace_bound n1 : forall n2 s, (List.length s < n1)%nat -> (List.length s < n2)%nat ->
    replace_n n1 m r s = replace_n n2 m r s.
  Proof.
    induction n1 as [|n1 IH]; intros n2 s H1 H2; [lia|]. destruct n2 as [|n2]; [lia|]. cbn.
    destruct (m s) as [rest|] eqn:E.
    - apply shrink in E. f_equal. apply IH; lia.
    - destruct s as [|c s]; [reflexivity|]. cbn in *. f_equal. apply IH; lia.
  Qed.
  Lemma replace_eq s : replace_all m r s =
    match m s with
    | Some rest => r ++ replace_all m r rest
    | None => match s with [] => [] | c :: s' => c :: replace_all m r s' end
    end.
  Proof.
    unfold replace_all. change (replace_n (S (List.length s)) m r s) with
      (match m s with
       | Some rest => r ++ replace_n (List.length s) m r rest
       | None => match s with [] => [] | c :: s' => c :: replace_n (List.length s) m r s' end
       end).
    destruct (m s) as [rest|] eqn:E.
    - apply shrink in E. f_equal. apply replace_bound; lia.
    - destruct s as [|c s]; [reflexivity|]. f_equal.
  Qed.
  Lemma replace_none s : (forall a b, s = a ++ b -> m b = None) -> replace_all m r s = s.
  Proof.
    induction s as [|c s IH]; intro H; rewrite replace_eq, (H [] _ eq_refl); [reflexivity|].
    f_equal. apply IH. intros a b ->. apply (H (c :: a) b). reflexivity.
  Qed.
  (** A text that no match can cross. *)
  Variable tail : str.
  Hypothesis barrier : forall x, x <> [] -> m (x ++ tail) = option_map (fun y => y ++ tail) (m x).
  Hypothesis m_nil : m [] = None.
  Lemma replace_app x : replace_all m r (x ++ tail) = replace_all m r x ++ replace_all m r tail.
  Proof.
    remember (List.length x) as n eqn:Hn. revert x Hn.
    induction n as [n IH] using lt_wf_ind. intros x ->.
    destruct x as [|c x].
    - cbn [app]. rewrite (replace_eq []), m_nil. reflexivity.
    - rewrite (replace_eq ((c :: x) ++ tail)), (replace_eq (c :: x)), barrier by discriminate.
      destruct (m (c :: x)) as [rest|] eqn:E; cbn [option_map].
      + rewrite <- app_assoc. f_equal. eapply IH; [|reflexivity]. now apply shrink in E.
      + cbn [app]. f_equal. eapply IH; [|reflexivity]. cbn. lia.
  Qed.
End Replace.

Lemma str_replace_eq from to s : from <> [] ->
  str_replace from to s =
  match expect from s with
  | Some rest => to ++ str_replace from to rest
  | None => match s with [] => [] | c :: s' => c :: str_replace from to s' end
  end.
Proof. intro H. apply replace_eq. now apply expect_shrink. Qed.

(** Trimming. *)
Lemma trim_start_spec c s : exists k, s = repeat c k ++ trim_start_c c s /\
  (trim_start_c c s = [] \/ exists x s', trim_start_c c s = x :: s' /\ x <> c).
Proof.
  induction s as [|x s (k & E & H)]; cbn; [exists 0%nat; auto|]. destruct (N.eqb_spec x c) as [->|Hne].
  - exists (S k). cbn. rewrite <- E. auto.
  - exists 0%nat. cbn. split; [reflexivity|]. right. eauto.
Qed.
Lemma trim_start_other c x s : x <> c -> trim_start_c c (x :: s) = x :: s.
Proof. intro H. cbn. destruct (N.eqb_spec x c); congruence. Qed.

(** Match positions are positions of the pattern. *)
Lemma match_indices_n_sound n : forall p pos s i, In i (match_indices_n n p pos s) ->
  exists a b, s = a ++ p ++ b /\ (i = pos + List.length a)%nat.
Proof.
  induction n as [|n IH]; intros p pos s i H; [destruct H|]. cbn in H. destruct p as [|c p].
  - destruct H as [<-|H]; [exists [], s; cbn; auto|]. destruct s as [|x s]; [destruct H|].
    apply IH in H as (a & b & -> & ->). exists (x :: a), b. cbn. split; [reflexivity|lia].
  - destruct (expect (c :: p) s) as [rest|] eqn:E.
    + apply expect_spec in E. destruct H as [<-|H].
      * exists [], rest. cbn. split; [exact E|lia].
      * apply IH in H as (a & b & E2 & ->). exists ((c :: p) ++ a), b. subst. rewrite <- !app_assoc. split; [reflexivity|].
        rewrite app_length. cbn [List.length]. lia.
    + destruct s as [|x s]; [destruct H|]. apply IH in H as (a & b & -> & ->). exists (x :: a), b. cbn. split; [reflexivity|lia].
Qed.
Lemma match_indices_sound p s i : In i (match_indices p s) -> exists a b, s = a ++ p ++ b /\ i = List.length a.
Proof. intro H. apply match_indices_n_sound in H as (a & b & E & E2). exists a, b. auto. Qed.
