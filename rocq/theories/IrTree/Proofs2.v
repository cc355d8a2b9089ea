(** Which comments and declarations a container lists. *)
From Coq Require Import ZArith NArith List Bool String Permutation Sorted Lia.
From Verif Require Import IrTree.Model IrTree.Spec IrTree.Proofs.
Import ListNotations.
Local Open Scope Z_scope.
Local Open Scope list_scope.

Notation ascending := (StronglySorted (fun a b => (c_begin a < c_begin b)%N)).
Lemma before_valid a b : a <> 0%N -> b <> 0%N -> loc_before a b = (a <? b)%N.
Proof. intros Ha Hb. unfold loc_before, loc_valid. apply N.eqb_neq in Ha, Hb. rewrite Ha, Hb. reflexivity. Qed.
Lemma before_low p b : p <> 0%N -> loc_before p b = false <-> (b = 0 \/ b <= p)%N.
Proof.
  intros Hp. destruct (N.eq_dec b 0) as [->|Hb]; [unfold loc_before, loc_valid; cbn; tauto|].
  rewrite before_valid by assumption. rewrite N.ltb_ge. lia.
Qed.
Lemma before_high p e : p <> 0%N -> loc_before e p = false <-> (e = 0 \/ p <= e)%N.
Proof.
  intros Hp. destruct (N.eq_dec e 0) as [->|Hb]; [unfold loc_before, loc_valid; cbn; rewrite andb_false_r; tauto|].
  rewrite before_valid by assumption. rewrite N.ltb_ge. lia.
Qed.
Lemma ascending_filter f l : ascending l -> ascending (filter f l).
Proof.
  induction l as [|c l IH]; intros H; cbn [filter]; [constructor|]. apply StronglySorted_inv in H. destruct H as [H F].
  destruct (f c); [|auto]. constructor; [auto|]. rewrite Forall_forall in *. intros x I. apply filter_In in I. apply F. tauto.
Qed.
Lemma lower_filter b l : ascending l -> Forall (fun c => c_begin c <> 0%N) l ->
  lower l b = filter (fun c => negb (loc_before (c_begin c) b)) l.
Proof.
  induction l as [|c l IH]; intros S V; cbn [lower filter]; [reflexivity|]. apply StronglySorted_inv in S. destruct S as [S F].
  inversion V as [|? ? Hc V']; subst. destruct (loc_before (c_begin c) b) eqn:E; cbn [negb]; [apply IH; assumption|]. f_equal.
  symmetry. apply (proj1 (before_low _ b Hc)) in E. clear -E F V' Hc. induction l as [|d l IH]; [reflexivity|]. cbn [filter].
  inversion F; subst. inversion V'; subst. assert (E' : loc_before (c_begin d) b = false) by (apply before_low; [assumption|lia]).
  rewrite E'. cbn [negb]. f_equal. apply IH; assumption.
Qed.
Lemma upper_filter e l : ascending l -> Forall (fun c => c_begin c <> 0%N) l ->
  upper l e = filter (fun c => negb (loc_before e (c_begin c))) l.
Proof.
  induction l as [|c l IH]; intros S V; cbn [upper filter]; [reflexivity|]. apply StronglySorted_inv in S. destruct S as [S F].
  inversion V as [|? ? Hc V']; subst. destruct (loc_before e (c_begin c)) eqn:E; cbn [negb]; [|f_equal; apply IH; assumption].
  symmetry. clear IH. assert (Hn : ~ (e = 0 \/ c_begin c <= e)%N) by (intros H; apply before_high in H; [congruence|exact Hc]).
  clear S V E. induction l as [|d l IH]; [reflexivity|]. cbn [filter]. inversion F; subst. inversion V'; subst.
  destruct (loc_before e (c_begin d)) eqn:E'; cbn [negb]; [apply IH; assumption|]. apply before_high in E'; [|assumption]. exfalso. lia.
Qed.
Lemma insert_last c m : c_begin c <> 0%N -> Forall (fun x => c_begin x <> 0%N) m -> Forall (fun x => (c_begin x < c_begin c)%N) m ->
  map_insert c m = m ++ [c].
Proof.
  intros Hc. induction m as [|x m IH]; intros V F; cbn [map_insert app]; [reflexivity|]. inversion V; subst. inversion F; subst.
  rewrite !before_valid by assumption. replace (c_begin c <? c_begin x)%N with false by (symmetry; apply N.ltb_ge; lia).
  replace (c_begin x <? c_begin c)%N with true by (symmetry; apply N.ltb_lt; lia). rewrite IH by assumption. reflexivity.
Qed.
Lemma fold_insert l : forall m, ascending l -> Forall (fun c => c_begin c <> 0%N) l -> Forall (fun c => c_begin c <> 0%N) m ->
  Forall (fun c => Forall (fun x => (c_begin x < c_begin c)%N) m) l ->
  fold_left (fun m c => if c_filtered c then m else map_insert c m) l m = m ++ filter (fun c => negb (c_filtered c)) l.
Proof.
  induction l as [|c l IH]; intros m S V Vm L; cbn [fold_left filter]; [rewrite app_nil_r; reflexivity|].
  apply StronglySorted_inv in S. destruct S as [S F]. inversion V; subst. inversion L; subst.
  destruct (c_filtered c); cbn [negb]; [apply IH; assumption|]. rewrite insert_last by assumption.
  rewrite IH; try assumption; [rewrite <- app_assoc; reflexivity| |].
  - apply Forall_app. split; [assumption|]. constructor; [assumption|constructor].
  - rewrite Forall_forall in *. intros d I. apply Forall_app. split; [apply H4; exact I|]. constructor; [apply F; exact I|constructor].
Qed.
Lemma forall_filter {A} (P : A -> Prop) f l : Forall P l -> Forall P (filter f l).
Proof. rewrite !Forall_forall. intros H x I. apply filter_In in I. apply H. tauto. Qed.
Lemma comments_in_filter b e cs : comments_ok cs ->
  comments_in b e cs = filter (fun c => negb (c_filtered c)) (filter (fun c => negb (loc_before e (c_begin c))) (filter (fun c => negb (loc_before (c_begin c) b)) cs)).
Proof.
  intros [S V]. unfold comments_in. rewrite lower_filter by assumption.
  rewrite upper_filter by (try apply ascending_filter; try apply forall_filter; assumption).
  rewrite fold_insert; [reflexivity| | | |].
  - apply ascending_filter, ascending_filter. exact S.
  - apply forall_filter, forall_filter. exact V.
  - constructor.
  - apply Forall_forall. intros. constructor.
Qed.
Definition survives (d : decl) (c : comment) : bool :=
  (match d_comment d with Some k => loc_before (c_begin c) k || loc_before k (c_begin c) | None => true end)
  && (if loc_valid (d_loc d) then loc_before (c_begin c) (d_begin d) || loc_before (d_end d) (c_begin c) else true).
Lemma filter_filter {A} (f g : A -> bool) l : filter f (filter g l) = filter (fun x => g x && f x) l.
Proof. induction l as [|x l IH]; cbn [filter]; [reflexivity|]. destruct (g x); cbn [filter andb]; [destruct (f x)|]; rewrite IH; reflexivity. Qed.
Lemma filter_true {A} (l : list A) : filter (fun _ => true) l = l.
Proof. induction l as [|x l IH]; cbn [filter]; congruence. Qed.
Lemma erase_for_filter m d : erase_for m d = filter (survives d) m.
Proof.
  unfold erase_for, survives. destruct (d_comment d) as [k|], (loc_valid (d_loc d)); unfold erase_range, erase_key;
    rewrite ?filter_filter; try (apply filter_ext; intros; rewrite ?andb_true_r, ?andb_true_l; reflexivity).
  symmetry. apply filter_true.
Qed.
Lemma erase_all ds : forall m c, In c (fold_left erase_for ds m) <-> In c m /\ forall d, In d ds -> survives d c = true.
Proof.
  induction ds as [|d ds IH]; intros m c; cbn [fold_left]; [split; [intros H; split; [exact H|intros ? []]|tauto]|].
  rewrite IH, erase_for_filter, filter_In. split.
  - intros [[I E] H]. split; [exact I|]. intros d' [<-|I']; auto.
  - intros [I H]. split; [split; [exact I|apply H; left; reflexivity]|]. intros d' I'. apply H. right. exact I'.
Qed.
Lemma erase_ascending ds : forall m, ascending m -> ascending (fold_left erase_for ds m).
Proof. induction ds as [|d ds IH]; intros m H; cbn [fold_left]; [exact H|]. apply IH. rewrite erase_for_filter. apply ascending_filter. exact H. Qed.
Lemma survives_iff d c : c_begin c <> 0%N -> d_comment d <> Some 0%N -> survives d c = true <-> ~ belongs d c.
Proof.
  intros Hc Hd. unfold survives, belongs. rewrite andb_true_iff.
  assert (H1 : match d_comment d with Some k => loc_before (c_begin c) k || loc_before k (c_begin c) | None => true end = true
               <-> d_comment d <> Some (c_begin c)).
  { destruct (d_comment d) as [k|]; [|split; [discriminate|reflexivity]]. assert (k <> 0%N) by congruence.
    rewrite !before_valid by assumption. rewrite orb_true_iff, !N.ltb_lt. split; [intros H' [= E]; lia|].
    intros H'. destruct (N.lt_trichotomy (c_begin c) k) as [?|[E|?]]; [tauto| |tauto]. subst. congruence. }
  assert (H2 : (if loc_valid (d_loc d) then loc_before (c_begin c) (d_begin d) || loc_before (d_end d) (c_begin c) else true) = true
               <-> ~ (d_loc d <> 0%N /\ in_range (d_begin d) (d_end d) (c_begin c))).
  { unfold in_range. pose proof (before_low (c_begin c) (d_begin d) Hc) as B1. pose proof (before_high (c_begin c) (d_end d) Hc) as B2.
    unfold loc_valid. destruct (N.eqb_spec (d_loc d) 0); cbn [negb].
    - split; [intros _ [H _]; contradiction|reflexivity].
    - destruct (loc_before (c_begin c) (d_begin d)), (loc_before (d_end d) (c_begin c)); cbn [orb]; intuition congruence. }
  tauto.
Qed.
Lemma decl_comments_in b e cs ds c : comments_ok cs -> decls_ok ds ->
  In c (decl_comments b e cs ds) <-> free_comment b e cs ds c.
Proof.
  intros Hc Hd. unfold decl_comments, free_comment. rewrite erase_all, comments_in_filter by assumption.
  rewrite !filter_In, !negb_true_iff. destruct Hc as [S V]. rewrite Forall_forall in V. unfold decls_ok in Hd. rewrite Forall_forall in Hd.
  unfold in_range. split.
  - intros [[[[I L] H] F] K]. specialize (V c I). apply before_low in L; [|exact V]. apply before_high in H; [|exact V].
    split; [exact I|]. split; [exact F|]. split; [tauto|]. intros d Id. apply survives_iff; auto.
  - intros (I & F & [L H] & K). specialize (V c I). split; [|intros d Id; apply survives_iff; auto].
    split; [|exact F]. split; [|apply before_high; assumption]. split; [exact I|apply before_low; assumption].
Qed.
Lemma decl_comments_ascending b e cs ds : comments_ok cs -> ascending (decl_comments b e cs ds).
Proof.
  intros Hc. unfold decl_comments. apply erase_ascending. rewrite comments_in_filter by exact Hc. repeat apply ascending_filter. apply Hc.
Qed.
Lemma ascending_nodup l : ascending l -> NoDup l.
Proof.
  induction l as [|c l IH]; intros H; [constructor|]. apply StronglySorted_inv in H. destruct H as [H F]. constructor; [|auto].
  intros I. rewrite Forall_forall in F. specialize (F c I). lia.
Qed.

(** Children. *)
Lemma existsb_id i l : existsb (Z.eqb i) l = true <-> In i l.
Proof. rewrite existsb_exists. split; [intros (x & I & E); apply Z.eqb_eq in E; congruence|intros I; exists i; split; [exact I|apply Z.eqb_refl]]. Qed.
Lemma imported_in ds : forall v d, In d (imported_children ds v) <->
  exists pre post, ds = pre ++ d :: post /\ d_imported d = true /\ ~ In (d_id d) v /\
    forall d', In d' pre -> d_imported d' = true -> d_id d' <> d_id d.
Proof.
  induction ds as [|x ds IH]; intros v d; cbn [imported_children].
  - split; [intros []|intros ([|] & ? & E & _); discriminate].
  - assert (Skip : forall v', (d_imported x = true -> forall i, In i v' <-> In i v) -> (d_imported x = true -> In (d_id x) v) -> (d_imported x = false -> v' = v) ->
      (In d (imported_children ds v') <->
       exists pre post, x :: ds = pre ++ d :: post /\ d_imported d = true /\ ~ In (d_id d) v /\
         forall d', In d' pre -> d_imported d' = true -> d_id d' <> d_id d)).
    { intros v' H1 H2 H3. rewrite IH. assert (Hv : ~ In (d_id d) v' <-> ~ In (d_id d) v).
      { destruct (d_imported x); [rewrite (H1 eq_refl); reflexivity|rewrite (H3 eq_refl); reflexivity]. } split.
      - intros (pre & post & E & Hi & Nv & Hp). exists (x :: pre), post. rewrite E. split; [reflexivity|]. split; [exact Hi|]. split; [tauto|].
        intros d' [<-|I] Hd'; [|auto]. intros Ed. apply Hv in Nv. apply Nv. rewrite <- Ed. auto.
      - intros ([|y pre] & post & E & Hi & Nv & Hp).
        + cbn [app] in E. injection E as -> ->. exfalso. auto.
        + cbn [app] in E. injection E as -> ->. exists pre, post. split; [reflexivity|]. split; [exact Hi|]. split; [tauto|].
          intros d' I. apply Hp. right. exact I. }
    destruct (d_imported x) eqn:Ex.
    + destruct (existsb (Z.eqb (d_id x)) v) eqn:Ev.
      * apply existsb_id in Ev. apply Skip; intros; tauto.
      * assert (Nv : ~ In (d_id x) v) by (rewrite <- existsb_id; congruence). cbn [In]. rewrite IH. split.
        -- intros [<-|(pre & post & E & Hi & Nd & Hp)].
           ++ exists [], ds. cbn [app]. repeat split; try assumption. intros ? [].
           ++ exists (x :: pre), post. rewrite E. split; [reflexivity|]. split; [exact Hi|]. cbn [In] in Nd. split; [tauto|].
              intros d' [<-|I] Hd'; [tauto|auto].
        -- intros ([|y pre] & post & E & Hi & Nd & Hp).
           ++ cbn [app] in E. injection E as -> _. left. reflexivity.
           ++ cbn [app] in E. injection E as <- ->. right. exists pre, post. split; [reflexivity|]. split; [exact Hi|]. split.
              ** intros [E|I]; [|tauto]. apply (Hp x); [left; reflexivity|exact Ex|exact E].
              ** intros d' I. apply Hp. right. exact I.
    + apply Skip; intros; try discriminate; reflexivity.
Qed.
Lemma imported_first ds d : In d (imported_children ds []) <-> first_imported ds d.
Proof. rewrite imported_in. unfold first_imported. cbn [In]. split; intros (pre & post & H); exists pre, post; tauto. Qed.
Lemma imported_ids_nodup ds : forall v, NoDup (map d_id (imported_children ds v)) /\ forall d, In d (imported_children ds v) -> ~ In (d_id d) v.
Proof.
  induction ds as [|x ds IH]; intros v; cbn [imported_children]; [split; [constructor|intros ? []]|].
  destruct (d_imported x); [|apply IH]. destruct (existsb (Z.eqb (d_id x)) v) eqn:E; [apply IH|].
  assert (Nv : ~ In (d_id x) v) by (rewrite <- existsb_id; congruence).
  destruct (IH (d_id x :: v)) as [N H]. split.
  - cbn [map]. constructor; [|exact N]. intros I. apply in_map_iff in I. destruct I as (d & Ed & Id). apply (H d Id). left. symmetry. exact Ed.
  - intros d [<-|I]; [exact Nv|]. intros K. apply (H d I). right. exact K.
Qed.
Lemma ctx_eqb_iff a b : ctx_eqb a b = true <-> a = b.
Proof. destruct a, b; cbn; rewrite ?Z.eqb_eq; split; intros; try congruence; try discriminate. Qed.
Lemma child_kept_iff alien p d : child_kept alien p d = true <-> alien (d_id d) = false /\ ~ member_of_other_class p d.
Proof.
  unfold child_kept, member_of_other_class. destruct (alien (d_id d)); [split; [discriminate|intros [? _]; discriminate]|].
  rewrite negb_true_iff, andb_false_iff, negb_false_iff, ctx_eqb_iff. split.
  - intros H. split; [reflexivity|]. intros (q & Eq & Np). rewrite Eq in *. cbn in H. destruct H; [congruence|discriminate].
  - intros [_ H]. destruct (d_ctx d) as [|i|i] eqn:E; [right; reflexivity|right; reflexivity|]. left.
    destruct (ctx_eqb p (CRecord i)) eqn:Ep; [symmetry; apply ctx_eqb_iff; exact Ep|].
    exfalso. apply H. exists i. split; [reflexivity|]. intros K. apply ctx_eqb_iff in K. congruence.
Qed.
Lemma top_kept_iff d : top_kept d = true <-> ~ nested_class d.
Proof.
  unfold top_kept, nested_class, is_record_decl. rewrite negb_true_iff, andb_false_iff.
  assert (H1 : match d_kind d with Record | Specialization _ => true | _ => false end = false <-> ~ (d_kind d = Record \/ exists m, d_kind d = Specialization m)).
  { destruct (d_kind d); split; intros H; try discriminate; try reflexivity; try (intros [K|[? K]]; discriminate).
    - exfalso. apply H. left. reflexivity.
    - exfalso. apply H. right. eexists. reflexivity. }
  assert (H2 : ctx_is_record (d_ctx d) = false <-> ~ exists p, d_ctx d = CRecord p).
  { destruct (d_ctx d); cbn; split; intros H; try discriminate; try reflexivity; try (intros [? K]; discriminate).
    exfalso. apply H. eexists. reflexivity. }
  rewrite H1, H2. destruct (d_kind d) eqn:Ek, (d_ctx d) eqn:Ec; cbn in *; split; intros H; try tauto; try (left; intros [K|[? K]]; discriminate); try (right; intros [? K]; discriminate).
Qed.
