(** Proofs about error reports. *)
From Coq Require Import List NArith Bool Arith Lia.
From Coq Require Import Strings.String.
From Verif.Common Require Import Str.
From Verif.ErrorReport Require Import Model Spec.
Import ListNotations.
Local Open Scope N_scope.
Local Open Scope list_scope.

Section UInd.
  Variable P : uop -> Prop.
  Hypothesis Hr : forall e, P (UReport e).
  Hypothesis Hc : forall c, P (UCategory c).
  Hypothesis Hs : forall i body, Forall P body -> P (UScope i body).
  Fixpoint uop_ind' (o : uop) : P o :=
    match o with
    | UReport e => Hr e
    | UCategory c => Hc c
    | UScope i body =>
        Hs i body ((fix go l : Forall P l :=
                      match l with
                      | [] => Forall_nil _
                      | o :: l' => Forall_cons _ (uop_ind' o) (go l')
                      end) body)
    end.
End UInd.

(** ** Root causes *)
Definition is_context (u : uerr) : bool := match u with UContext _ _ => true | _ => false end.
Lemma leaf_sources u : is_context u = false -> sources (build u) = [].
Proof. destruct u; cbn; congruence. Qed.
Lemma innermost_leaf u : is_context (innermost u) = false.
Proof. revert u. fix F 1. intros [ | | |c u]; cbn [innermost]; try reflexivity. apply F. Qed.
Lemma ctx_sources u : is_context u = true ->
  sources (build u) <> [] /\ forall d, last (sources (build u)) d = Std (build (innermost u)).
Proof.
  revert u. fix F 1. intros [ | | |c u]; cbn; try discriminate. intros _. split; [discriminate|].
  intro d. destruct (is_context u) eqn:E.
  - destruct (F u E) as [H1 H2]. destruct (sources (build u)) eqn:E2; [contradiction|]. cbn in *. apply (H2 d).
  - rewrite leaf_sources by exact E. cbn. destruct u; cbn in *; congruence.
Qed.
Lemma leaf_not_std u e : is_context u = false -> build u <> Std e.
Proof. destruct u; cbn; congruence. Qed.
Lemma root_cause_build u : root_cause (build u) = build (innermost u).
Proof.
  unfold root_cause, anyhow_root_cause. destruct (is_context u) eqn:E.
  - destruct (ctx_sources u E) as [_ H]. rewrite H. now rewrite leaf_sources by apply innermost_leaf.
  - rewrite leaf_sources by exact E. cbn [last]. destruct u; cbn in *; congruence.
Qed.
Lemma parts_innermost u :
  parts u = match innermost u with
            | UFmt f m => [(f, m)]
            | UList es => flat_map parts es
            | UOther _ => [(lit "{}", top u)]
            | UContext _ _ => []
            end.
Proof.
  revert u. fix F 1. intros [f m|es|m|c u]; try reflexivity. cbn [parts innermost].
  rewrite (F u). pose proof (innermost_leaf u) as L. destruct (innermost u) eqn:E; try reflexivity.
  unfold top, display. cbn. now destruct (msgs (build u)).
Qed.
Lemma size_innermost u : (size (build (innermost u)) <= size (build u))%nat.
Proof. revert u. fix F 1. intros [f m|es|m|c u]; try (cbn; lia). cbn [innermost build context size]. specialize (F u). lia. Qed.

Section Report.
  Variable hide : str -> str.
  Hypothesis hide_nil : hide [] = [].
  Hypothesis hide_braces : hide (lit "{}") = lit "{}".

  Lemma fnew_recorded f m : fnew f (hide (f_full (fnew f m))) = recorded hide (f, m).
  Proof.
    unfold fnew, recorded. cbn [f_full]. destruct (str_eqb_spec m f) as [->|H].
    - rewrite hide_nil. now destruct (str_eqb [] f).
    - now destruct (str_eqb (hide m) f).
  Qed.
  Lemma fnew_recorded_other m : fnew (lit "{}") (hide m) = recorded hide (lit "{}", m).
  Proof.
    unfold fnew, recorded. destruct (str_eqb_spec m (lit "{}")) as [->|H].
    - rewrite hide_braces. now rewrite str_eqb_refl.
    - now destruct (str_eqb (hide m) _).
  Qed.
  Definition push_part (s : state) (p : str * str) : state :=
    with_entry s (push_error (recorded hide p)).
  Lemma report_n_parts n : forall u s, (size (build u) <= n)%nat ->
    report_n hide n s (build u) = fold_left push_part (parts u) s.
  Proof.
    induction n as [|n IH]; intros u s Hn.
    - exfalso. assert (1 <= size (build u))%nat; [|lia]. destruct u; cbn; lia.
    - cbn [report_n]. rewrite root_cause_build, parts_innermost.
      pose proof (size_innermost u) as Hsz. pose proof (innermost_leaf u) as L.
      destruct (innermost u) as [f m|es|m|c u'] eqn:E; [| | |discriminate L].
      + cbn [build]. unfold push_part. cbn [fold_left]. f_equal. f_equal. apply fnew_recorded.
      + cbn [build size] in *.
        assert (Hes : forall e, In e es -> (size (build e) <= n)%nat).
        { intros e He. assert (size (build e) <= list_sum (map size (map build es)))%nat; [|lia].
          clear - He. induction es as [|x es IH]; [destruct He|]. cbn [map].
          change (list_sum (size (build x) :: map size (map build es)))
            with (size (build x) + list_sum (map size (map build es)))%nat.
          destruct He as [->|He]; [apply Nat.le_add_r|]. specialize (IH He). eapply Nat.le_trans; [exact IH|]. rewrite Nat.add_comm. apply Nat.le_add_r. }
        clear - IH Hes. revert s. induction es as [|e es IHes]; intro s; [reflexivity|].
        cbn [map fold_left flat_map]. rewrite fold_left_app. rewrite IH by (apply Hes; now left).
        apply IHes. intros e' He'. apply Hes. now right.
      + cbn [build]. unfold push_part. cbn [fold_left]. f_equal. f_equal. apply fnew_recorded_other.
  Qed.
  Lemma report_parts u s : report hide s (build u) = fold_left push_part (parts u) s.
  Proof. apply report_n_parts. lia. Qed.
End Report.

(** ** The map *)
Lemma find_put k v k' m : sorted_keys m -> find k' (put k v m) = if k' =? k then Some v else find k' m.
Proof.
  induction m as [|[a b] m IH]; intro S; cbn; [reflexivity|]. destruct S as [S1 S2].
  destruct (N.eqb_spec k a) as [->|Hne]; cbn.
  - destruct (k' =? a); reflexivity.
  - destruct (N.ltb_spec k a); cbn; [reflexivity|]. rewrite IH by exact S2.
    destruct (N.eqb_spec k' a) as [->|]; [|reflexivity]. destruct (N.eqb_spec a k); [congruence|reflexivity].
Qed.
Lemma put_keys k v m p : In p (put k v m) -> fst p = k \/ In p m.
Proof.
  induction m as [|[a b] m IH]; cbn.
  - intros [<-|[]]. now left.
  - destruct (k =? a); cbn; [intros [<-|H]; auto|]. destruct (k <? a); cbn.
    + intros [<-|H]; auto.
    + intros [<-|H]; [auto|]. destruct (IH H); auto.
Qed.
Lemma put_sorted k v m : sorted_keys m -> sorted_keys (put k v m).
Proof.
  induction m as [|[a b] m IH]; intro S; cbn.
  - split; constructor.
  - destruct S as [S1 S2]. destruct (N.eqb_spec k a) as [->|Hne]; cbn; [now split|].
    destruct (N.ltb_spec k a); cbn.
    + split; [|now split]. constructor; [exact H|]. eapply Forall_impl; [|exact S1]. cbn. intros; lia.
    + split; [|now apply IH]. apply Forall_forall. intros p Hp. apply put_keys in Hp as [->|Hp]; [lia|].
      rewrite Forall_forall in S1. now apply S1.
Qed.

(** ** Histories *)
Section Run.
  Variable hide : str -> str.
  Hypothesis hide_nil : hide [] = [].
  Hypothesis hide_braces : hide (lit "{}") = lit "{}".
  Variable l : language.

  Definition describes (hs : list happening) (m : bmap) : Prop :=
    sorted_keys m /\ forall id, find id m = expected hide l hs id.

  Lemma find_app_h (f : happening -> bool) a b :
    List.find f (a ++ b) = match List.find f a with Some x => Some x | None => List.find f b end.
  Proof. induction a as [|x a IH]; cbn; [reflexivity|]. now destruct (f x). Qed.
  Lemma errors_app id a b : errors_at id (a ++ b) = errors_at id a ++ errors_at id b.
  Proof. apply flat_map_app. Qed.
  Lemma categories_app id a b : categories_at id (a ++ b) = categories_at id a ++ categories_at id b.
  Proof. apply flat_map_app. Qed.
  Lemma lor_app a b : fold_right N.lor 0 (a ++ b) = N.lor (fold_right N.lor 0 a) (fold_right N.lor 0 b).
  Proof. induction a as [|x a IH]; cbn; [reflexivity|]. now rewrite IH, N.lor_assoc. Qed.
  Lemma no_find_nothing id hs : List.find (at_id id) hs = None -> errors_at id hs = [] /\ categories_at id hs = [].
  Proof.
    intro H. pose proof (find_none _ _ H) as N0. clear H. induction hs as [|h hs IH]; [split; reflexivity|].
    assert (Hh := N0 h (or_introl eq_refl)). destruct IH as [I1 I2]; [intros x Hx; apply N0; now right|].
    unfold errors_at, categories_at in *. cbn [flat_map]. rewrite I1, I2. unfold at_id in Hh. destruct h; cbn in *; try rewrite Hh; now split.
  Qed.

  Definition known (hs : list happening) (i : item) : Prop :=
    i = default_item \/ In (HEnter i) hs.

  (** One more error or category at the open item. *)
  Lemma describes_update hs s i h (f : entry -> entry) :
    describes hs (map_of s) -> language_of s = l -> current_item s = i -> known hs i -> concerns h = i ->
    (forall e, f e = Entry (e_lang e) (e_name e)
                 (e_errors e ++ map (recorded hide) (errors_at (i_id i) [h]))
                 (N.lor (e_category e) (fold_right N.lor 0 (categories_at (i_id i) [h])))
                 (e_uniq e) (e_target e)) ->
    describes (hs ++ [h]) (map_of (with_entry s f)).
  Proof.
    intros [S D] L C K Ch F. unfold with_entry, set_map. cbn [map_of]. rewrite C. split; [now apply put_sorted|].
    intro id. rewrite find_put by exact S. unfold expected.
    rewrite find_app_h, errors_app, categories_app. cbn [List.find]. unfold at_id at 2. rewrite Ch.
    rewrite N.eqb_sym. destruct (N.eqb_spec (i_id i) id) as [<-|Hne].
    - rewrite D. unfold expected. destruct (List.find (at_id (i_id i)) hs) as [h0|] eqn:E.
      + rewrite F. cbn [e_lang e_name e_errors e_category e_uniq e_target]. rewrite map_app, lor_app. reflexivity.
      + destruct (no_find_nothing _ _ E) as [-> ->]. rewrite F, L, Ch. unfold blank. cbn [e_lang e_name e_errors e_category e_uniq e_target app].
        destruct K as [->|K].
        * cbn [default_item i_name i_uniq i_target map app fold_right]. rewrite N.lor_0_l. reflexivity.
        * exfalso. pose proof (find_none _ _ E _ K) as X. unfold at_id in X. cbn in X. rewrite N.eqb_refl in X. discriminate.
    - rewrite D. unfold expected. assert (E1 : errors_at id [h] = []). { unfold errors_at. cbn. destruct h; cbn in Ch |- *; rewrite ?Ch; [reflexivity| |reflexivity]. destruct (N.eqb_spec (i_id i) id); [contradiction|reflexivity]. }
      assert (E2 : categories_at id [h] = []). { unfold categories_at. cbn. destruct h; cbn in Ch |- *; rewrite ?Ch; [reflexivity|reflexivity|]. destruct (N.eqb_spec (i_id i) id); [contradiction|reflexivity]. }
      rewrite E1, E2, !app_nil_r. destruct (List.find (at_id id) hs); reflexivity.
  Qed.

  Lemma push_part_state s p : cur (push_part hide s p) = cur s /\ language_of (push_part hide s p) = language_of s.
  Proof. split; reflexivity. Qed.

  Lemma report_describes ps : forall hs s i,
    describes hs (map_of s) -> language_of s = l -> current_item s = i -> known hs i ->
    let s' := fold_left (push_part hide) ps s in
    cur s' = cur s /\ language_of s' = l /\
    describes (hs ++ map (fun p => HError i (fst p) (snd p)) ps) (map_of s').
  Proof.
    induction ps as [|p ps IH]; intros hs s i D L C K; cbn [fold_left map].
    - rewrite app_nil_r. auto.
    - assert (D1 : describes (hs ++ [HError i (fst p) (snd p)]) (map_of (push_part hide s p))).
      { unfold push_part. eapply describes_update; eauto. intro e. unfold push_error. cbn. rewrite N.eqb_refl. cbn.
        rewrite N.lor_0_r. destruct p. reflexivity. }
      destruct (IH _ (push_part hide s p) i D1 L) as (A & B & D2); [exact C| |].
      + destruct K as [K|K]; [now left|right]. apply in_or_app. now left.
      + rewrite <- app_assoc in D2. auto.
  Qed.

  Lemma run_op_scope s i body :
    run_op hide s (OScope i body) =
    match enter_item s i with
    | None => None
    | Some (s1, old) => match run hide s1 body with None => None | Some s2 => exit_item s2 i old end
    end.
  Proof. reflexivity. Qed.

  Lemma agree_app_l a b : names_agree (a ++ b) -> names_agree a.
  Proof. intros H x y Hx Hy. apply H; apply in_or_app; now left. Qed.

  Definition good (o : uop) : Prop := forall hs s i,
    describes hs (map_of s) -> language_of s = l -> current_item s = i -> known hs i ->
    names_agree (hs ++ happenings i o) ->
    exists s', run_op hide s (lower o) = Some s' /\ cur s' = cur s /\ language_of s' = l /\
               describes (hs ++ happenings i o) (map_of s').
  Lemma good_list body : Forall good body -> forall hs s i,
    describes hs (map_of s) -> language_of s = l -> current_item s = i -> known hs i ->
    names_agree (hs ++ flat_map (happenings i) body) ->
    exists s', run hide s (map lower body) = Some s' /\ cur s' = cur s /\ language_of s' = l /\
               describes (hs ++ flat_map (happenings i) body) (map_of s').
  Proof.
    induction 1 as [|o body G _ IH]; intros hs s i D L C K A; cbn [map run flat_map].
    - exists s. rewrite app_nil_r. auto.
    - cbn [flat_map] in A. rewrite app_assoc in A.
      destruct (G hs s i D L C K (agree_app_l _ _ A)) as (s1 & -> & C1 & L1 & D1).
      destruct (IH _ s1 i D1 L1) as (s2 & R & C2 & L2 & D2).
      + unfold current_item in *. now rewrite C1.
      + destruct K as [K|K]; [now left|right]. apply in_or_app. now left.
      + exact A.
      + exists s2. rewrite app_assoc. rewrite C2. auto.
  Qed.

  Lemma enter_describes hs s i :
    describes hs (map_of s) -> language_of s = l -> names_agree (hs ++ [HEnter i]) ->
    exists s1, enter_item s i = Some (s1, cur s) /\ cur s1 = Some i /\ language_of s1 = l /\
               describes (hs ++ [HEnter i]) (map_of s1).
  Proof.
    intros [S D] L A. unfold enter_item. rewrite D. unfold expected at 1.
    destruct (List.find (at_id (i_id i)) hs) as [h|] eqn:E.
    - cbn [e_name]. pose proof (find_some _ _ E) as [Hin Hid]. unfold at_id in Hid. apply N.eqb_eq in Hid.
      rewrite (A h (HEnter i)); [| | |exact Hid]; [|apply in_or_app; now left|apply in_or_app; right; now left].
      cbn [concerns]. rewrite str_eqb_refl. eexists. split; [reflexivity|]. split; [reflexivity|]. split; [exact L|].
      split; [exact S|]. intro id. cbn [map_of]. rewrite D. unfold expected. rewrite find_app_h, errors_app, categories_app.
      cbn [errors_at categories_at flat_map app]. rewrite !app_nil_r. destruct (List.find (at_id id) hs) eqn:E2; [reflexivity|].
      cbn. unfold at_id. cbn. destruct (N.eqb_spec (i_id i) id) as [<-|]; [congruence|reflexivity].
    - eexists. split; [reflexivity|]. split; [reflexivity|]. split; [exact L|]. cbn [map_of]. split; [now apply put_sorted|].
      intro id. rewrite find_put by exact S. rewrite D. unfold expected. rewrite find_app_h, errors_app, categories_app.
      cbn [errors_at categories_at flat_map app]. rewrite !app_nil_r, N.eqb_sym.
      destruct (N.eqb_spec (i_id i) id) as [<-|Hne].
      + rewrite E. destruct (no_find_nothing _ _ E) as [-> ->]. cbn. unfold at_id. cbn. rewrite N.eqb_refl. cbn. now rewrite L.
      + destruct (List.find (at_id id) hs); [reflexivity|]. cbn. unfold at_id. cbn.
        destruct (N.eqb_spec (i_id i) id); [contradiction|reflexivity].
  Qed.

  Lemma good_all o : good o.
  Proof.
    induction o as [e|c|i body IH] using uop_ind'; intros hs s i0 D L C K A; cbn [lower happenings] in *.
    - eexists. split; [reflexivity|]. rewrite report_parts by assumption. now apply report_describes.
    - eexists. split; [reflexivity|]. split; [reflexivity|]. split; [exact L|]. unfold add_category.
      eapply describes_update; eauto. intro e. unfold or_category. cbn. rewrite N.eqb_refl. cbn.
      rewrite N.lor_0_r, app_nil_r. reflexivity.
    - rewrite run_op_scope.
      change (hs ++ HEnter i :: flat_map (happenings i) body) with (hs ++ [HEnter i] ++ flat_map (happenings i) body) in *.
      rewrite app_assoc in *.
      destruct (enter_describes hs s i D L (agree_app_l _ _ A)) as (s1 & -> & C1 & L1 & D1).
      assert (K1 : known (hs ++ [HEnter i]) i) by (right; apply in_or_app; right; now left).
      assert (C1' : current_item s1 = i) by (unfold current_item; now rewrite C1).
      destruct (good_list body IH _ s1 i D1 L1 C1' K1 A) as (s2 & -> & C2 & L2 & D2).
      unfold exit_item. rewrite C2, C1. destruct (item_eq_dec i i) as [_|X]; [|contradiction].
      eexists. split; [reflexivity|]. split; [reflexivity|]. split; [exact L2|exact D2].
  Qed.

  Lemma run_describes p : names_agree (history p) ->
    exists s, run hide (new l) (map lower p) = Some s /\ cur s = None /\ describes (history p) (map_of s).
  Proof.
    intro A. destruct (good_list p (proj2 (Forall_forall good p) (fun o _ => good_all o)) [] (new l) default_item) as (s & R & C & _ & D).
    - split; [exact I|reflexivity].
    - reflexivity.
    - reflexivity.
    - now left.
    - exact A.
    - exists s. auto.
  Qed.
End Run.
