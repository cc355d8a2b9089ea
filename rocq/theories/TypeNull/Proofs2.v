From Coq Require Import List Bool Arith Lia.
From Verif.TypeNull Require Import Model Spec Proofs.
Import ListNotations.

(** ** Shapes *)
Fixpoint erase (t : tree) : shape :=
  match t with Tr slot ks => Sh (match slot with Some _ => true | None => false end) (map erase ks) end.

Lemma tree_ind2 : forall P : tree -> Prop, (forall slot ks, Forall P ks -> P (Tr slot ks)) -> forall t, P t.
Proof.
  intros P H. fix F 1. intros [slot ks]. apply H. induction ks; constructor; auto.
Qed.

Lemma erase_annotate : forall k T, erase (annotate k T) = erase T.
Proof. intros [k|] [[[x f]|] ks]; reflexivity. Qed.

Lemma count_pointers : forall T, length (pointers T) = pointer_count (erase T).
Proof.
  induction T as [slot ks IH] using tree_ind2. cbn [pointers erase pointer_count]. rewrite app_length, map_map.
  assert (E : length (flat_map pointers ks) = list_sum (map (fun x => pointer_count (erase x)) ks)).
  { induction IH as [|x l H _ IHl]; auto.
    cbn [flat_map map]. rewrite app_length, H, IHl. reflexivity. }
  rewrite E. destruct slot; reflexivity.
Qed.

Notation ent := (nat * option (list tree))%type.
Definition erase_ent (p : ent) : nat * option (list shape) := (fst p, option_map (map erase) (snd p)).

Lemma shapes_lookup : forall e d, shapes_of (map erase_ent e) d = option_map (map erase) (lookup e d).
Proof. induction e as [|[d' v] e IH]; cbn; intros d; auto. destruct (Nat.eqb d d'); auto. Qed.

Lemma meaning_shape :
  (forall t e f, consistent (map erase_ent e) t -> erase (meaning e f t) = canonical t) /\
  (forall ts e f, consistents (map erase_ent e) ts -> map erase (meanings e f ts) = canonicals ts) /\
  (forall q e f, consistentq (map erase_ent e) q -> map erase_ent (bind e f q) = bind_shapes q).
Proof.
  apply ty_mut; cbn [consistent consistents consistentq meaning meanings bind canonical canonicals bind_shapes]; intros.
  - reflexivity.
  - cbn [erase map]. rewrite H; auto.
  - cbn [erase map]. rewrite H; auto.
  - cbn [erase map]. rewrite H; auto.
  - destruct H1. cbn [erase map]. rewrite H, H0; auto.
  - destruct H2 as [C1 [C2 C3]]. specialize (H0 e f C1).
    set (e1 := bind e f q ++ e). assert (E1 : map erase_ent e1 = bind_shapes q ++ map erase_ent e).
    { unfold e1. rewrite map_app, H0. reflexivity. }
    rewrite <- E1 in C2, C3. cbn [erase]. rewrite map_app. f_equal; [destruct smart; auto|].
    rewrite H; auto. f_equal. destruct isT; auto. destruct (C3 eq_refl) as [C4 C5].
    rewrite shapes_lookup in C5. destruct (lookup e1 d) as [l|]; cbn [option_map] in C5.
    + rewrite map_app, map_length in *. rewrite <- skipn_map, H1; auto.
    + apply H1; auto.
  - destruct H3 as [C1 [C2 [C3 C4]]]. specialize (H0 e f C1).
    set (e1 := bind e f q ++ e). assert (E1 : map erase_ent e1 = bind_shapes q ++ map erase_ent e).
    { unfold e1. rewrite map_app, H0. reflexivity. }
    rewrite <- E1 in C2, C3, C4. cbn [erase]. rewrite !map_app. f_equal; [destruct smart; auto|].
    rewrite H, H1, H2; auto.
  - destruct H2 as [C1 [C2 C3]]. rewrite erase_annotate. apply H1. cbn [map]. unfold erase_ent at 1. cbn [fst snd option_map].
    rewrite map_app, (H e f C1), (H0 e f C2); exact C3.
  - destruct H1 as [C1 C2]. apply H0. rewrite map_app, H; auto.
  - rewrite erase_annotate. auto.
  - auto.
  - destruct H1 as [C1 C2]. apply H0. rewrite map_app, H; auto.
  - rewrite shapes_lookup in H0. destruct (lookup e d) as [l|]; cbn [option_map] in H0; auto.
    destruct (nth_error l i) as [v|] eqn:N.
    + rewrite (map_nth_error erase i l N) in H0. auto.
    + apply H. destruct (nth_error (map erase l) i) eqn:N2; auto.
      apply nth_error_None in N. assert (nth_error (map erase l) i = None) by (apply nth_error_None; rewrite map_length; auto).
      congruence.
  - reflexivity.
  - destruct H1. cbn [map]. rewrite H, H0; auto.
  - reflexivity.
  - destruct H1 as [C1 C2]. cbn [map]. unfold erase_ent at 1. cbn [fst snd].
    rewrite H0 by exact C2. destruct known; cbn [option_map]; [|reflexivity]. rewrite H; auto.
Qed.
