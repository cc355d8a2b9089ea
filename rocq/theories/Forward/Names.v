(** * Symbols determine qualified names *)
From Coq Require Import List Strings.String Ascii NArith Bool Lia.
Import ListNotations.
From Verif Require Import Forward.Model Forward.Spec.
Local Open Scope string_scope.
Local Open Scope list_scope.

Lemma join_split : forall t t' x y, has_space t = false -> has_space t' = false ->
  (t ++ " " ++ x)%string = (t' ++ " " ++ y)%string -> t = t' /\ x = y.
Proof.
  induction t as [|c t IH]; intros [|c' t'] x y H H' Q; cbn in H, H', Q.
  - injection Q as ->. auto.
  - injection Q as <- _. rewrite Ascii.eqb_refl in H'. discriminate.
  - injection Q as -> _. rewrite Ascii.eqb_refl in H. discriminate.
  - injection Q as -> Q. apply orb_false_iff in H as [_ H]. apply orb_false_iff in H' as [_ H'].
    destruct (IH t' x y H H' Q) as [-> ->]. auto.
Qed.

Lemma join_no_space : forall t t' y, has_space t = false -> t <> (t' ++ " " ++ y)%string.
Proof.
  induction t as [|c t IH]; intros [|c' t'] y H Q; cbn in H, Q; try discriminate.
  - injection Q as -> _. rewrite Ascii.eqb_refl in H. discriminate.
  - injection Q as -> Q. apply orb_false_iff in H as [_ H]. exact (IH t' y H Q).
Qed.

Lemma to_string_inj : forall l l', l <> [] -> l' <> [] -> Forall token l -> Forall token l' ->
  to_string l = to_string l' -> l = l'.
Proof.
  induction l as [|t l IH]; intros [|t' l'] N N' F F' Q; try congruence.
  inversion F as [|? ? [_ S] F1]; subst. inversion F' as [|? ? [_ S'] F1']; subst.
  destruct l as [|t2 l]; destruct l' as [|t2' l'].
  - cbn in Q. congruence.
  - cbn [to_string] in Q. exfalso. exact (join_no_space _ _ _ S Q).
  - cbn [to_string] in Q. exfalso. symmetry in Q. exact (join_no_space _ _ _ S' Q).
  - change (to_string (t :: t2 :: l)) with (t ++ " " ++ to_string (t2 :: l))%string in Q.
    change (to_string (t' :: t2' :: l')) with (t' ++ " " ++ to_string (t2' :: l'))%string in Q.
    apply join_split in Q as [-> Q]; auto. f_equal. apply IH; auto; discriminate.
Qed.

(** Components separated by ["::"]. *)
Fixpoint render (p : list component) : list string :=
  match p with
  | [] => []
  | [c] => spelled c
  | c :: r => spelled c ++ "::" :: render r
  end.

Lemma balanced_inj : forall l l' d r r', balanced d l -> balanced d l' ->
  l ++ ">" :: r = l' ++ ">" :: r' -> l = l' /\ r = r'.
Proof.
  induction l as [|a l IH]; intros [|a' l'] d r r' B B' Q; cbn [app] in Q.
  - injection Q as ->. auto.
  - injection Q as <- _. cbn in B, B'. subst d. contradiction.
  - injection Q as -> _. cbn in B, B'. subst d. contradiction.
  - injection Q as <- Q. cbn [balanced] in B, B'.
    destruct (String.eqb a "<").
    + destruct (IH l' _ r r' B B' Q) as [-> ->]. auto.
    + destruct (String.eqb a ">").
      * destruct d as [|d]; [contradiction|].
        destruct (IH l' _ r r' B B' Q) as [-> ->]. auto.
      * destruct (IH l' _ r r' B B' Q) as [-> ->]. auto.
Qed.

Definition ends_or_colons (r : list string) : Prop :=
  match r with [] => True | t :: _ => t = "::" end.

Lemma spelled_inj c c' r r' : good_component c -> good_component c' ->
  ends_or_colons r -> ends_or_colons r' ->
  spelled c ++ r = spelled c' ++ r' -> c = c' /\ r = r'.
Proof.
  destruct c as [i a], c' as [i' a']. unfold good_component, spelled. cbn [c_ident c_args].
  intros [P G] [P' G'] R R' Q.
  destruct a as [l|], a' as [l'|]; cbn [app] in Q.
  - injection Q as -> Q. rewrite <- !app_assoc in Q. cbn [app] in Q.
    destruct (balanced_inj _ _ _ _ _ (proj2 G) (proj2 G') Q) as [-> ->]. auto.
  - injection Q as -> Q. subst r'. cbn in R'. discriminate.
  - injection Q as -> Q. subst r. cbn in R. discriminate.
  - injection Q as -> ->. auto.
Qed.

Lemma render_cons c c2 p : render (c :: c2 :: p) = spelled c ++ "::" :: render (c2 :: p).
Proof. reflexivity. Qed.

Lemma render_inj : forall p p', p <> [] -> p' <> [] ->
  Forall good_component p -> Forall good_component p' -> render p = render p' -> p = p'.
Proof.
  induction p as [|c p IH]; intros [|c' p'] N N' F F' Q; try congruence.
  inversion F as [|? ? G F1]; subst. inversion F' as [|? ? G' F1']; subst.
  destruct p as [|c2 p]; destruct p' as [|c2' p'].
  - cbn [render] in Q. rewrite <- (app_nil_r (spelled c)), <- (app_nil_r (spelled c')) in Q.
    apply spelled_inj in Q as [-> _]; auto; exact Logic.I.
  - rewrite render_cons in Q. cbn [render] in Q. rewrite <- (app_nil_r (spelled c)) in Q.
    apply spelled_inj in Q as [_ Q]; auto; try exact Logic.I; try reflexivity. discriminate.
  - rewrite render_cons in Q. cbn [render] in Q. rewrite <- (app_nil_r (spelled c')) in Q.
    apply spelled_inj in Q as [_ Q]; auto; try exact Logic.I; try reflexivity. discriminate.
  - rewrite !render_cons in Q.
    apply spelled_inj in Q as [-> Q]; auto; try reflexivity. injection Q as Q.
    f_equal. apply IH; auto; discriminate.
Qed.

Lemma render_app p c2 q : render (p ++ c2 :: q) =
  List.concat (map (fun c => spelled c ++ ["::"]) p) ++ render (c2 :: q).
Proof.
  induction p as [|c p IH]; [reflexivity|]. cbn [map List.concat].
  rewrite <- app_assoc, <- app_assoc. cbn [app].
  change ((c :: p) ++ c2 :: q) with (c :: (p ++ c2 :: q)).
  destruct (p ++ c2 :: q) as [|d r] eqn:D; [destruct p; discriminate|].
  rewrite render_cons. now rewrite <- IH.
Qed.

Lemma symbol_tokens l k :
  format_for_cc (qual_of l k) ++ spelled (k_name k) =
  (if l then ["::"] else []) ++ render (path k).
Proof.
  unfold format_for_cc, qual_of, path. cbn [q_leading q_namespaces q_records].
  rewrite <- !app_assoc. f_equal.
  rewrite (app_assoc (map (fun n => Comp n None) (k_namespaces k))). rewrite render_app. cbn [render]. rewrite map_app, concat_app.
  rewrite <- !app_assoc, !map_map. reflexivity.
Qed.

Lemma spelled_tokens c : good_component c -> Forall token (spelled c).
Proof.
  intros [[T _] G]. unfold spelled. destruct (c_args c) as [l|].
  - constructor; auto. constructor; [split; [discriminate|reflexivity]|].
    apply Forall_app. split; [apply G|]. constructor; auto. split; [discriminate|reflexivity].
  - constructor; auto.
Qed.

Lemma render_tokens p : Forall good_component p -> Forall token (render p).
Proof.
  induction 1 as [|c p G F IH]; [constructor|]. destruct p as [|c2 p].
  - cbn. now apply spelled_tokens.
  - rewrite render_cons. apply Forall_app. split; [now apply spelled_tokens|].
    constructor; auto. split; [discriminate|reflexivity].
Qed.

Lemma good_path k : good_class k -> Forall good_component (path k).
Proof.
  intros (A & B & C). unfold path. rewrite !Forall_app. repeat split; auto.
  rewrite Forall_map. eapply Forall_impl; [|exact A]. intros s P. split; auto. exact Logic.I.
Qed.

Lemma path_nonempty k : path k <> [].
Proof. unfold path. destruct (k_namespaces k); [destruct (k_records k)|]; discriminate. Qed.

Lemma render_first p c : good_component c -> exists r, render (c :: p) = c_ident c :: r.
Proof.
  intros G. destruct p as [|c2 p].
  - cbn. unfold spelled. destruct (c_args c); eauto.
  - rewrite render_cons. unfold spelled. destruct (c_args c); cbn; eauto.
Qed.

Lemma symbol_iff l l' k k' : good_class k -> good_class k' ->
  declaration_symbol (qual_of l k) (spelled (k_name k)) =
  declaration_symbol (qual_of l' k') (spelled (k_name k')) <->
  l = l' /\ path k = path k'.
Proof.
  intros G G'. unfold declaration_symbol. rewrite !symbol_tokens.
  pose proof (good_path k G) as F. pose proof (good_path k' G') as F'.
  pose proof (path_nonempty k) as N. pose proof (path_nonempty k') as N'.
  split; [|intros [-> ->]; reflexivity].
  intros Q. destruct (path k) as [|c p]; [congruence|]. destruct (path k') as [|c' p']; [congruence|].
  clear N N'.
  destruct (render_first p c (Forall_inv F)) as [r R].
  destruct (render_first p' c' (Forall_inv F')) as [r' R'].
  pose proof (render_tokens _ F) as T. pose proof (render_tokens _ F') as T'.
  assert (C : token "::") by (split; [discriminate|reflexivity]).
  apply to_string_inj in Q.
  - destruct l, l'; cbn [app] in Q.
    + injection Q as Q. split; auto. apply render_inj; auto; discriminate.
    + rewrite R' in Q. injection Q as Q _. pose proof (Forall_inv F') as [(_ & X & _) _]. congruence.
    + rewrite R in Q. injection Q as Q _. pose proof (Forall_inv F) as [(_ & X & _) _]. congruence.
    + split; auto. apply render_inj; auto; discriminate.
  - rewrite R. destruct l; discriminate.
  - rewrite R'. destruct l'; discriminate.
  - destruct l; cbn [app]; auto.
  - destruct l'; cbn [app]; auto.
Qed.
