(** A small library for "every resource ends exactly once" arguments, used by
    the components about owners of objects (Movable, Async).  Resources are
    numbered in order of creation; places own at most one resource each; a log
    records what happens.  Nothing here models code of /repo. *)
From Coq Require Import List Bool Arith Lia.
Import ListNotations.

Section Own.
Context {E : Type}.
(* [ends b e]: event [e] ends the life of resource [b];
   [touches b e]: event [e] uses resource [b]. *)
Variable ends touches : nat -> E -> bool.
Hypothesis ends_touches : forall b e, ends b e = true -> touches b e = true.

Definition count_ends (b : nat) (l : list E) : nat := length (filter (ends b) l).

Definition no_use_after_end (b : nat) (l : list E) : Prop :=
  forall l1 e l2, l = l1 ++ e :: l2 -> ends b e = true ->
  forall e', In e' l2 -> touches b e' = false.

(* the places: which resource each owns *)
Definition places := nat -> option nat.
Definition held (c : places) (b n : nat) : Prop := c n = Some b.
Definition up (c : places) (n : nat) (s : option nat) : places :=
  fun x => if Nat.eqb x n then s else c x.

Definition closed (c : places) (l : list E) (next b : nat) : Prop :=
  (b < next /\ count_ends b l = 0 /\ exists n, held c b n /\ forall m, held c b m -> m = n) \/
  (b < next /\ count_ends b l = 1 /\ forall m, ~ held c b m) \/
  (next <= b /\ (forall e, In e l -> touches b e = false) /\ forall m, ~ held c b m).

Definition inv (next : nat) (c : places) (l : list E) : Prop :=
  forall b, closed c l next b /\ no_use_after_end b l.

Lemma count_ends_app b l1 l2 : count_ends b (l1 ++ l2) = count_ends b l1 + count_ends b l2.
Proof. unfold count_ends. rewrite filter_app, app_length. reflexivity. Qed.

Lemma count_ends_one b e : count_ends b [e] = if ends b e then 1 else 0.
Proof. unfold count_ends. cbn. now destruct (ends b e). Qed.

Lemma nuae_snoc b l e : no_use_after_end b l ->
  (count_ends b l = 0 \/ touches b e = false) -> no_use_after_end b (l ++ [e]).
Proof.
  intros N H l1 x l2 Eq Ex y Iy.
  destruct (exists_last (l := x :: l2)) as (l' & z & E2); [discriminate|].
  rewrite E2, app_assoc in Eq. apply app_inj_tail in Eq. destruct Eq as [Eq ->].
  destruct l' as [|x' l'].
  - cbn in E2. injection E2 as -> ->. destruct Iy.
  - cbn in E2. injection E2 as <- ->.
    apply in_app_iff in Iy. destruct Iy as [Iy|[<-|[]]].
    + eapply (N l1 x l' Eq Ex); eauto.
    + destruct H as [H|H]; [|exact H].
      exfalso. rewrite Eq in H. rewrite count_ends_app in H.
      change (x :: l') with ([x] ++ l') in H. rewrite count_ends_app, count_ends_one, Ex in H. lia.
Qed.

Lemma inv_ext next c c' l : (forall n, c n = c' n) -> inv next c l -> inv next c' l.
Proof.
  intros Eq I b. destruct (I b) as [C N]. split; [|exact N].
  unfold closed, held in *.
  destruct C as [(A & B & n & H & U)|[(A & B & H)|(A & B & H)]].
  - left. repeat (split; auto). exists n. rewrite <- Eq. split; auto. intros m. rewrite <- Eq. auto.
  - right; left. repeat (split; auto). intros m. rewrite <- Eq. auto.
  - right; right. repeat (split; auto). intros m. rewrite <- Eq. auto.
Qed.

Lemma held_up c n s b m : held (up c n s) b m <-> (m = n /\ s = Some b) \/ (m <> n /\ held c b m).
Proof. unfold held, up. destruct (Nat.eqb_spec m n); intuition congruence. Qed.

Lemma inv_end next c l n b e : inv next c l -> held c b n ->
  (forall x, ends x e = Nat.eqb b x) -> (forall x, touches x e = Nat.eqb b x) ->
  inv next (up c n None) (l ++ [e]).
Proof.
  intros I Hb En To x. destruct (I x) as [C N].
  destruct (Nat.eqb_spec b x) as [<-|Ne].
  - assert (C' : b < next /\ count_ends b l = 0 /\ exists n, held c b n /\ forall m, held c b m -> m = n).
    { destruct C as [C|[(A & B & H)|(A & B & H)]]; auto; exfalso; eapply H; eauto. }
    destruct C' as (A & B & y & Hy & U).
    split.
    + right; left. split; [exact A|]. split.
      * rewrite count_ends_app, count_ends_one, En, Nat.eqb_refl. lia.
      * intros m. rewrite held_up. intros [[-> Eq]|[M Eq]]; [discriminate|].
        apply M. rewrite (U m Eq). symmetry. auto.
    + apply nuae_snoc; auto.
  - assert (Ef : ends x e = false) by (rewrite En; apply Nat.eqb_neq; auto).
    assert (Tf : touches x e = false) by (rewrite To; apply Nat.eqb_neq; auto).
    split; [|apply nuae_snoc; auto].
    assert (K : forall m, held (up c n None) x m <-> held c x m).
    { intros m. rewrite held_up. split.
      - intros [[-> Eq]|[_ Eq]]; auto. discriminate.
      - intros Eq. right. split; auto. intros ->. unfold held in *. congruence. }
    assert (CE : count_ends x (l ++ [e]) = count_ends x l).
    { rewrite count_ends_app, count_ends_one, Ef. lia. }
    unfold closed. rewrite CE.
    destruct C as [(A & B & y & H & U)|[(A & B & H)|(A & B & H)]].
    + left. repeat (split; auto). exists y. split; [apply K; auto|]. intros m Hm. apply U, K, Hm.
    + right; left. repeat (split; auto). intros m Hm. apply (H m), K, Hm.
    + right; right. split; [exact A|]. split.
      * intros z Iz. apply in_app_iff in Iz. destruct Iz as [Iz|[<-|[]]]; auto.
      * intros m Hm. apply (H m), K, Hm.
Qed.

Lemma inv_emit next c l e : inv next c l ->
  (forall x, ends x e = false) ->
  (forall x, touches x e = true -> exists n, held c x n) ->
  inv next c (l ++ [e]).
Proof.
  intros I En To x. destruct (I x) as [C N].
  assert (CE : count_ends x (l ++ [e]) = count_ends x l).
  { rewrite count_ends_app, count_ends_one, En. lia. }
  split.
  - unfold closed. rewrite CE.
    destruct C as [C|[C|(A & B & H)]]; auto.
    right; right. split; [exact A|]. split; auto.
    intros z Iz. apply in_app_iff in Iz. destruct Iz as [Iz|[<-|[]]]; auto.
    destruct (touches x e) eqn:Eq; auto. destruct (To x Eq) as [m Hm]. exfalso. eapply H; eauto.
  - apply nuae_snoc; auto.
    destruct (touches x e) eqn:Eq; auto. left. destruct (To x Eq) as [m Hm].
    destruct C as [C|[(A & B & H)|(A & B & H)]]; [tauto|exfalso; eapply H; eauto|exfalso; eapply H; eauto].
Qed.

Lemma inv_move next c l n s : inv next c l -> n <> s -> c n = None ->
  inv next (up (up c n (c s)) s None) l.
Proof.
  intros I Ne Hn b. destruct (I b) as [C N]. split; [|exact N].
  assert (K : forall m, held (up (up c n (c s)) s None) b m <->
                        (m = n /\ c s = Some b) \/ (m <> n /\ m <> s /\ held c b m)).
  { intros m. rewrite !held_up. split.
    - intros [[-> Eq]|[M [[-> Eq]|[M2 Eq]]]]; [discriminate| |]; intuition congruence.
    - intros [[-> Eq]|(M & M2 & Eq)].
      + right. split; auto.
      + right. split; auto. }
  unfold closed in *.
  destruct C as [(A & B & y & H & U)|[(A & B & H)|(A & B & H)]].
  - left. repeat (split; auto).
    destruct (Nat.eq_dec y s) as [->|Ny].
    + exists n. split.
      * apply K. left. auto.
      * intros m Hm. apply K in Hm. destruct Hm as [[-> _]|(M & M2 & Eq)]; auto.
        exfalso. apply M2. apply U. exact Eq.
    + exists y. split.
      * apply K. right. repeat split; auto. intros ->. unfold held in H. congruence.
      * intros m Hm. apply K in Hm. destruct Hm as [[-> Eq]|(M & M2 & Eq)].
        -- exfalso. apply Ny. symmetry. apply U. exact Eq.
        -- apply U; auto.
  - right; left. repeat (split; auto). intros m Hm. apply K in Hm.
    destruct Hm as [[-> Eq]|(M & M2 & Eq)]; [apply (H s Eq)|eapply H; eauto].
  - right; right. repeat (split; auto). intros m Hm. apply K in Hm.
    destruct Hm as [[-> Eq]|(M & M2 & Eq)]; [apply (H s Eq)|eapply H; eauto].
Qed.

(* two places exchange what they own *)
Lemma inv_swap next c l n s : inv next c l -> inv next (up (up c n (c s)) s (c n)) l.
Proof.
  intros I b. destruct (I b) as [C N]. split; [|exact N].
  set (f := fun m => if Nat.eqb m n then s else if Nat.eqb m s then n else m).
  assert (K : forall m, held (up (up c n (c s)) s (c n)) b m <-> held c b (f m)).
  { intros m. rewrite !held_up. unfold f, held.
    destruct (Nat.eqb_spec m n) as [->|M]; [destruct (Nat.eq_dec n s)|destruct (Nat.eqb_spec m s) as [->|M2]];
      intuition congruence. }
  assert (FF : forall m, f (f m) = m).
  { intros m. unfold f. clear.
    repeat match goal with |- context [Nat.eqb ?a ?b] => is_var a; is_var b; destruct (Nat.eqb_spec a b); try congruence end. }
  unfold closed in *.
  destruct C as [(A & B & z & H & U)|[(A & B & H)|(A & B & H)]].
  - left. repeat (split; auto). exists (f z). split.
    + apply K. rewrite FF. exact H.
    + intros m Hm. apply K in Hm. rewrite <- (FF m). f_equal. apply U, Hm.
  - right; left. repeat (split; auto). intros m Hm. apply K in Hm. eapply H; eauto.
  - right; right. repeat (split; auto). intros m Hm. apply K in Hm. eapply H; eauto.
Qed.

Lemma untouched_no_ends b l : (forall e, In e l -> touches b e = false) -> count_ends b l = 0.
Proof.
  intros B. unfold count_ends. destruct (filter (ends b) l) as [|e r] eqn:Eq; auto.
  exfalso. assert (Ie : In e (filter (ends b) l)) by (rewrite Eq; left; auto).
  apply filter_In in Ie. destruct Ie as [Ie Ee]. apply ends_touches in Ee.
  rewrite (B e Ie) in Ee. discriminate.
Qed.

Lemma inv_receive next c l n : inv next c l -> c n = None ->
  inv (S next) (up c n (Some next)) l.
Proof.
  intros I Hn b. destruct (I b) as [C N]. split; [|exact N].
  assert (K : forall m, held (up c n (Some next)) b m <-> (m = n /\ b = next) \/ held c b m).
  { intros m. rewrite held_up. split.
    - intros [[-> Eq]|[M Eq]]; [left; split; congruence|auto].
    - intros [[-> ->]|Eq]; auto. right. split; auto. unfold held in Eq. congruence. }
  unfold closed in *.
  destruct C as [(A & B & z & H & U)|[(A & B & H)|(A & B & H)]].
  - left. split; [lia|]. split; auto. exists z. split; [apply K; auto|].
    intros m Hm. apply K in Hm. destruct Hm as [[-> Eq]|Eq]; [lia|auto].
  - right; left. split; [lia|]. split; auto. intros m Hm. apply K in Hm.
    destruct Hm as [[-> Eq]|Eq]; [lia|eapply H; eauto].
  - destruct (Nat.eq_dec b next) as [->|Nb].
    + left. split; [lia|]. split.
      * apply untouched_no_ends; auto.
      * exists n. split; [apply K; auto|]. intros m Hm. apply K in Hm.
        destruct Hm as [[-> _]|Eq]; auto. exfalso. eapply H; eauto.
    + right; right. split; [lia|]. split; auto. intros m Hm. apply K in Hm.
      destruct Hm as [[-> Eq]|Eq]; [lia|eapply H; eauto].
Qed.

(* a resource that is created and ends at once, without being put in a place *)
Lemma inv_flash next c l e : inv next c l ->
  (forall x, ends x e = Nat.eqb next x) -> (forall x, touches x e = Nat.eqb next x) ->
  inv (S next) c (l ++ [e]).
Proof.
  intros I En To b. destruct (I b) as [C N]. unfold closed in *.
  assert (CE : count_ends b (l ++ [e]) = count_ends b l + if Nat.eqb next b then 1 else 0).
  { rewrite count_ends_app, count_ends_one, En. reflexivity. }
  rewrite CE. destruct C as [(A & B & z & H & U)|[(A & B & H)|(A & B & H)]].
  - split; [|apply nuae_snoc; auto].
    destruct (Nat.eqb_spec next b); [lia|]. left. split; [lia|]. split; [lia|]. eauto.
  - assert (F : Nat.eqb next b = false) by (apply Nat.eqb_neq; lia). rewrite F.
    split; [|apply nuae_snoc; auto; right; rewrite To; exact F].
    right; left. split; [lia|]. split; [lia|auto].
  - assert (Z := untouched_no_ends b l B).
    split; [|apply nuae_snoc; auto].
    destruct (Nat.eqb_spec next b) as [<-|Nb].
    + right; left. split; [lia|]. split; [lia|auto].
    + right; right. split; [lia|]. split; auto.
      intros x Ix. apply in_app_iff in Ix. destruct Ix as [Ix|[<-|[]]]; auto.
      rewrite To. apply Nat.eqb_neq. auto.
Qed.

Lemma inv_init : inv 0 (fun _ => None) [].
Proof.
  intros b. split.
  - right; right. split; [lia|]. split; [intros e []|]. intros m; discriminate.
  - intros l1 e l2 Eq. destruct l1; discriminate.
Qed.

(** What the invariant means. *)
Lemma inv_meaning next c l : inv next c l ->
  (forall b, count_ends b l <= 1 /\ no_use_after_end b l) /\
  (forall b e, In e l -> touches b e = true -> b < next) /\
  (forall b, b < next -> (forall n, c n <> Some b) -> count_ends b l = 1) /\
  (forall b n, c n = Some b -> b < next /\ count_ends b l = 0) /\
  (forall b n m, c n = Some b -> c m = Some b -> n = m).
Proof.
  intros I. split; [|split; [|split; [|split]]].
  - intros b. destruct (I b) as [C N]. split; auto.
    destruct C as [(A & B & _)|[(A & B & _)|(A & B & _)]]; try lia.
    rewrite (untouched_no_ends _ _ B). lia.
  - intros b e Ie Te. destruct (I b) as [C _].
    destruct C as [(A & _)|[(A & _)|(A & B & _)]]; auto.
    rewrite (B e Ie) in Te. discriminate.
  - intros b Hb L. destruct (I b) as [C _].
    destruct C as [(A & B & n & Hn & _)|[(A & B & _)|(A & B & _)]]; auto; try lia.
    exfalso. eapply L; eauto.
  - intros b n Hn. destruct (I b) as [C _].
    destruct C as [(A & B & _)|[(A & B & H)|(A & B & H)]]; auto; exfalso; eapply H; eauto.
  - intros b n m Hn Hm. destruct (I b) as [C _].
    destruct C as [(A & B & x & _ & U)|[(A & B & H)|(A & B & H)]].
    + rewrite (U n Hn), (U m Hm). reflexivity.
    + exfalso; eapply H; eauto.
    + exfalso; eapply H; eauto.
Qed.

End Own.
