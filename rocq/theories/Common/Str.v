(** Rust strings: lists of Unicode scalar values, with the [str] methods used by the code
    under study.  These are standard-library functions (not in /repo); each is given with the
    lemma that characterises it. *)
From Coq Require Import List NArith Bool Lia ZArith.
From Coq Require Import Strings.String Strings.Ascii.
Import ListNotations.
Local Open Scope N_scope.

Notation char := N (only parsing).
Notation str := (list N) (only parsing).

(** ASCII literals. *)
Fixpoint lit (s : string) : str :=
  match s with EmptyString => [] | String a s' => N_of_ascii a :: lit s' end.
Definition ch (s : string) : char := match lit s with c :: _ => c | [] => 0 end.

(** A [char] is a Unicode scalar value. *)
Definition scalar (c : char) : Prop := c < 0xD800 \/ 0xE000 <= c < 0x110000.
Definition wf (s : str) : Prop := Forall scalar s.

(** [char] predicates. *)
Definition is_ascii_digit (c : char) : bool := (48 <=? c) && (c <=? 57).
Definition is_ascii_upper (c : char) : bool := (65 <=? c) && (c <=? 90).
Definition is_ascii_lower (c : char) : bool := (97 <=? c) && (c <=? 122).
Definition is_ascii_alpha (c : char) : bool := is_ascii_upper c || is_ascii_lower c.
Definition is_ascii_alnum (c : char) : bool := is_ascii_alpha c || is_ascii_digit c.

(** Equality of strings. *)
Fixpoint str_eqb (a b : str) : bool :=
  match a, b with
  | [], [] => true
  | x :: a', y :: b' => (x =? y) && str_eqb a' b'
  | _, _ => false
  end.
Lemma str_eqb_eq a : forall b, str_eqb a b = true <-> a = b.
Proof.
  induction a as [|x a IH]; intros [|y b]; cbn; split; intro H; try easy.
  - apply andb_prop in H as [H1 H2]. apply N.eqb_eq in H1. apply IH in H2. congruence.
  - injection H as -> ->. rewrite N.eqb_refl. now apply IH.
Qed.
Lemma str_eqb_refl a : str_eqb a a = true.
Proof. now apply str_eqb_eq. Qed.
Lemma str_eqb_spec a b : reflect (a = b) (str_eqb a b).
Proof. apply iff_reflect. symmetry. apply str_eqb_eq. Qed.
Lemma str_eq_dec (a b : str) : {a = b} + {a <> b}.
Proof. apply list_eq_dec. apply N.eq_dec. Qed.

(** [str::split_once(c)] and [str::rsplit_once(c)]. *)
Fixpoint split_once (c : char) (s : str) : option (str * str) :=
  match s with
  | [] => None
  | x :: s' => if x =? c then Some ([], s')
               else match split_once c s' with Some (a, b) => Some (x :: a, b) | None => None end
  end.
Fixpoint rsplit_once (c : char) (s : str) : option (str * str) :=
  match s with
  | [] => None
  | x :: s' => match rsplit_once c s' with
               | Some (a, b) => Some (x :: a, b)
               | None => if x =? c then Some ([], s') else None
               end
  end.
Lemma split_once_some c s a b : split_once c s = Some (a, b) <-> s = a ++ c :: b /\ ~ In c a.
Proof.
  revert a b. induction s as [|x s IH]; intros a b; cbn.
  - split; [discriminate|]. intros [H _]. destruct a; discriminate.
  - destruct (N.eqb_spec x c) as [->|Hne].
    + split.
      * intro H. injection H as <- <-. split; [reflexivity|intros []].
      * intros [H Hn]. destruct a as [|y a]; cbn in H; [injection H as H1; now subst|].
        exfalso. apply Hn. left. now injection H.
    + destruct (split_once c s) as [[a' b']|] eqn:E.
      * destruct (proj1 (IH a' b') eq_refl) as [E1 E2]. split.
        -- intro H. injection H as <- <-. split; [now rewrite E1|]. intros [H|H]; [now apply Hne|contradiction].
        -- intros [H Hn]. destruct a as [|y a]; cbn in H; injection H as H1 H2; [congruence|].
           subst y. assert (X : Some (a', b') = Some (a, b)); [|congruence].
           apply IH. split; [exact H2|]. intro. apply Hn. now right.
      * split; [discriminate|]. intros [H Hn]. destruct a as [|y a]; cbn in H; injection H as H1 H2; [congruence|].
        assert (X : None = Some (a, b)); [|discriminate]. apply IH. split; [exact H2|]. intro. apply Hn. now right.
Qed.
Lemma split_once_none c s : split_once c s = None <-> ~ In c s.
Proof.
  induction s as [|x s IH]; cbn; [split; [intros _ []|reflexivity]|].
  destruct (N.eqb_spec x c) as [->|Hne].
  - split; [discriminate|]. intro H. exfalso. apply H. now left.
  - destruct (split_once c s) as [[a b]|].
    + split; [discriminate|]. intro H. exfalso. assert (X : Some (a, b) = None); [|discriminate].
      apply IH. intro. apply H. now right.
    + split; [|reflexivity]. intros _ [H|H]; [now apply Hne|]. now apply IH in H.
Qed.
Lemma rsplit_once_none c s : rsplit_once c s = None <-> ~ In c s.
Proof.
  induction s as [|x s IH]; cbn; [split; [intros _ []|reflexivity]|].
  destruct (rsplit_once c s) as [[a b]|].
  - split; [discriminate|]. intro H. exfalso. assert (X : Some (a, b) = None); [|discriminate].
    apply IH. intro. apply H. now right.
  - destruct (N.eqb_spec x c) as [->|Hne].
    + split; [discriminate|]. intro H. exfalso. apply H. now left.
    + split; [|reflexivity]. intros _ [H|H]; [now apply Hne|]. now apply IH in H.
Qed.
Lemma rsplit_once_some c s a b : rsplit_once c s = Some (a, b) <-> s = a ++ c :: b /\ ~ In c b.
Proof.
  revert a b. induction s as [|x s IH]; intros a b; cbn.
  - split; [discriminate|]. intros [H _]. destruct a; discriminate.
  - pose proof (rsplit_once_none c s) as Hnone.
    destruct (rsplit_once c s) as [[a' b']|] eqn:E.
    + destruct (proj1 (IH a' b') eq_refl) as [E1 E2]. split.
      * intro H. injection H as <- <-. split; [now rewrite E1|exact E2].
      * intros [H Hn]. destruct a as [|y a]; cbn in H; injection H as H1 H2.
        -- exfalso. apply Hn. rewrite <- H2, E1. apply in_or_app. right. now left.
        -- subst y. assert (X : Some (a', b') = Some (a, b)) by (apply IH; now split).
           congruence.
    + assert (Hns : ~ In c s) by now apply Hnone.
      destruct (N.eqb_spec x c) as [->|Hne].
      * split.
        -- intro H. injection H as <- <-. now split.
        -- intros [H Hn]. destruct a as [|y a]; cbn in H; [injection H as H1; now subst|]. injection H as H1 H2.
           exfalso. apply Hns. rewrite H2. apply in_or_app. right. now left.
      * split; [discriminate|]. intros [H Hn]. destruct a as [|y a]; cbn in H; injection H as H1 H2; [congruence|].
        exfalso. apply Hns. rewrite H2. apply in_or_app. right. now left.
Qed.

(** [str::strip_prefix] and [str::starts_with]. *)
Fixpoint strip_prefix (p s : str) : option str :=
  match p, s with
  | [], _ => Some s
  | x :: p', y :: s' => if x =? y then strip_prefix p' s' else None
  | _ :: _, [] => None
  end.
Lemma strip_prefix_some p : forall s r, strip_prefix p s = Some r <-> s = p ++ r.
Proof.
  induction p as [|x p IH]; intros s r; cbn.
  - split; intro H; [now injection H|now rewrite H].
  - destruct s as [|y s]; [split; discriminate|].
    destruct (N.eqb_spec x y) as [->|Hne].
    + rewrite IH. split; intro H; [now rewrite H|now injection H].
    + split; [discriminate|]. intro H. injection H as H1 H2. congruence.
Qed.
Definition starts_with (p s : str) : bool := match strip_prefix p s with Some _ => true | None => false end.

(** UTF-8. *)
Definition utf8_char (c : char) : list N :=
  if c <? 0x80 then [c]
  else if c <? 0x800 then [0xC0 + c / 64; 0x80 + c mod 64]
  else if c <? 0x10000 then [0xE0 + c / 64 / 64; 0x80 + (c / 64) mod 64; 0x80 + c mod 64]
  else [0xF0 + c / 64 / 64 / 64; 0x80 + (c / 64 / 64) mod 64; 0x80 + (c / 64) mod 64; 0x80 + c mod 64].
Definition utf8 (s : str) : list N := flat_map utf8_char s.

Ltac div_lia := zify; Z.to_euclidean_division_equations; lia.

Lemma utf8_char_nonempty c : utf8_char c <> [].
Proof. unfold utf8_char. repeat (destruct (_ <? _)); discriminate. Qed.

(** A code point is determined by the bytes that start with its encoding. *)
Lemma utf8_char_prefix a b r t : scalar a -> scalar b -> utf8_char a ++ r = utf8_char b ++ t -> a = b /\ r = t.
Proof.
  unfold scalar, utf8_char. intros Ha Hb.
  assert (Da := N.div_mod' a 64). assert (Db := N.div_mod' b 64).
  assert (Da2 := N.div_mod' (a / 64) 64). assert (Db2 := N.div_mod' (b / 64) 64).
  assert (Da3 := N.div_mod' (a / 64 / 64) 64). assert (Db3 := N.div_mod' (b / 64 / 64) 64).
  assert (forall x, x mod 64 < 64) as Hm by (intro x; apply N.mod_lt; discriminate).
  pose proof (Hm a). pose proof (Hm (a / 64)). pose proof (Hm (a / 64 / 64)).
  pose proof (Hm b). pose proof (Hm (b / 64)). pose proof (Hm (b / 64 / 64)). clear Hm.
  set (a1 := a / 64) in *. set (a2 := a1 / 64) in *. set (a3 := a2 / 64) in *.
  set (b1 := b / 64) in *. set (b2 := b1 / 64) in *. set (b3 := b2 / 64) in *.
  set (ra := a mod 64) in *. set (ra1 := a1 mod 64) in *. set (ra2 := a2 mod 64) in *.
  set (rb := b mod 64) in *. set (rb1 := b1 mod 64) in *. set (rb2 := b2 mod 64) in *.
  clearbody a1 a2 a3 b1 b2 b3 ra ra1 ra2 rb rb1 rb2.
  destruct (N.ltb_spec a 0x80); [|destruct (N.ltb_spec a 0x800); [|destruct (N.ltb_spec a 0x10000)]];
  (destruct (N.ltb_spec b 0x80); [|destruct (N.ltb_spec b 0x800); [|destruct (N.ltb_spec b 0x10000)]]);
  cbn [app]; intro E;
  repeat match goal with H : _ :: _ = _ :: _ |- _ =>
    let E1 := fresh "E" in let E2 := fresh "E" in pose proof (f_equal (hd 0) H) as E1; pose proof (f_equal (@tl N) H) as E2;
    cbn [hd tl] in E1, E2; clear H end;
  (split; [lia|assumption]) || (exfalso; lia).
Qed.

Theorem utf8_inj a : forall b, wf a -> wf b -> utf8 a = utf8 b -> a = b.
Proof.
  induction a as [|x a IH]; intros [|y b] Wa Wb E; cbn in E.
  - reflexivity.
  - symmetry in E. apply app_eq_nil in E as [E _]. now apply utf8_char_nonempty in E.
  - apply app_eq_nil in E as [E _]. now apply utf8_char_nonempty in E.
  - inversion Wa as [|? ? Wx Wa']. inversion Wb as [|? ? Wy Wb']. subst.
    apply utf8_char_prefix in E as [-> E]; [|assumption|assumption]. f_equal. now apply IH.
Qed.
Lemma utf8_app a b : utf8 (a ++ b) = (utf8 a ++ utf8 b)%list.
Proof. apply flat_map_app. Qed.
Lemma utf8_bytes s : wf s -> Forall (fun b => b < 256) (utf8 s).
Proof.
  induction 1 as [|c s Hc _ IH]; cbn; [constructor|]. apply Forall_app. split; [|exact IH].
  unfold scalar in Hc. unfold utf8_char.
  destruct (N.ltb_spec c 0x80); [|destruct (N.ltb_spec c 0x800); [|destruct (N.ltb_spec c 0x10000)]];
  repeat constructor; div_lia.
Qed.

(** [Ord for str]: byte-wise lexicographic. *)
Fixpoint lex (a b : list N) : comparison :=
  match a, b with
  | [], [] => Eq
  | [], _ :: _ => Lt
  | _ :: _, [] => Gt
  | x :: a', y :: b' => match x ?= y with Eq => lex a' b' | c => c end
  end.
Definition str_cmp (a b : str) : comparison := lex (utf8 a) (utf8 b).
Lemma lex_eq a : forall b, lex a b = Eq <-> a = b.
Proof.
  induction a as [|x a IH]; intros [|y b]; cbn; split; intro H; try easy.
  - destruct (N.compare_spec x y); try easy. subst. f_equal. now apply IH.
  - injection H as -> ->. rewrite N.compare_refl. now apply IH.
Qed.
Lemma lex_anti a : forall b, lex b a = CompOpp (lex a b).
Proof.
  induction a as [|x a IH]; intros [|y b]; cbn; try easy. rewrite (N.compare_antisym x y).
  destruct (x ?= y); cbn; auto.
Qed.
Lemma lex_trans a : forall b c, lex a b = Lt -> lex b c = Lt -> lex a c = Lt.
Proof.
  induction a as [|x a IH]; intros [|y b] [|z c]; cbn; try easy.
  destruct (N.compare_spec x y), (N.compare_spec y z); try easy; subst; intros H1 H2.
  - rewrite N.compare_refl. eauto.
  - rewrite (proj2 (N.compare_lt_iff _ _)); auto.
  - rewrite (proj2 (N.compare_lt_iff _ _)); auto.
  - rewrite (proj2 (N.compare_lt_iff _ _)); auto. lia.
Qed.
Lemma str_cmp_eq a b : wf a -> wf b -> (str_cmp a b = Eq <-> a = b).
Proof.
  intros Wa Wb. unfold str_cmp. rewrite lex_eq. split; [now apply utf8_inj|congruence].
Qed.
