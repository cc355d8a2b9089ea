(** rebuildWithNullability. *)
From Coq Require Import List Bool Arith Lia.
From Verif.TypeNull Require Import Model Spec Proofs Proofs2.
Import ListNotations.

Definition everywhere : nat -> bool := fun _ => true.
Definition written (f : nat) (k : kind) : option kind * nat :=
  (match k with Unspecified => None | _ => Some k end, f).

Lemma fresh_nil : forall o sc, fresh o sc [].
Proof. intros. split; [constructor|]. intros d []. Qed.

Lemma plain_ok :
  (forall t, plain t -> tidy everywhere [] t /\ consistent [] t) /\
  (forall ts, plains ts -> tidys everywhere [] ts /\ consistents [] ts) /\
  (forall q : quals, True).
Proof.
  apply ty_mut; cbn [plain plains tidy tidys consistent consistents]; auto; try contradiction.
  - intros r H ps H0 [P Q]. split; split; try apply H; try apply H0; auto.
  - intros d smart encl H q _ isT dargs H0 [-> [-> [P [Z Q]]]]. cbn [decls tidyq scope_of app bind_shapes consistentq arity shapes_of].
    split.
    + split; [apply fresh_nil|]. split; auto. split; [apply H; auto|]. intros E. split; [apply H0; auto|reflexivity].
    + split; auto. split; [apply H; auto|]. intros E. split; [apply H0; auto|exact Logic.I].
  - intros t H ts H0 [P Q]. split; split; try apply H; try apply H0; auto.
Qed.

Lemma list_sum_app : forall a b, list_sum (a ++ b) = list_sum a + list_sum b.
Proof. induction a as [|x a IH]; intros b; auto. cbn [app]. change (list_sum (x :: a ++ b)) with (x + list_sum (a ++ b)).
  rewrite IH. change (list_sum (x :: a)) with (x + list_sum a). lia. Qed.

Lemma no_pointers : forall l, list_sum (map pointer_count (map erase l)) = 0 -> flat_map pointers l = [].
Proof.
  induction l as [|x l IH]; intros H; auto. cbn [map] in H.
  change (list_sum (pointer_count (erase x) :: map pointer_count (map erase l)))
    with (pointer_count (erase x) + list_sum (map pointer_count (map erase l))) in H.
  cbn [flat_map]. rewrite IH by lia. rewrite <- count_pointers in H. destruct (pointers x); cbn in H; [reflexivity|lia].
Qed.

Definition rebuilt (f : nat) (t t' : ty) (v : list kind) : Prop :=
  canonical t' = canonical t /\ tidy everywhere [] t' /\ pointers (meaning [] f t') = map (written f) v.

Lemma rebuild_ok : forall f,
  (forall t, plain t -> forall v w, length v = pointer_count (canonical t) ->
     exists t', rebuild t (v ++ w) = Some (t', w) /\ rebuilt f t t' v) /\
  (forall ts, plains ts -> forall v w, length v = list_sum (map pointer_count (canonicals ts)) ->
     exists ts', rebuilds ts (v ++ w) = Some (ts', w) /\
       canonicals ts' = canonicals ts /\ tidys everywhere [] ts' /\
       flat_map pointers (meanings [] f ts') = map (written f) v) /\
  (forall q : quals, True).
Proof.
  intros f. unfold rebuilt. apply ty_mut; cbn [plain plains]; try contradiction; auto.
  - intros _ v w L. destruct v; [|discriminate]. exists TBase. cbn. auto.
  - intros t H P v w L. cbn [canonical pointer_count map] in L.
    destruct v as [|k v]; [discriminate|].
    destruct (H P v w) as [t' [E [C [T M]]]].
    { cbn in L. lia. }
    cbn [app rebuild]. rewrite E.
    eexists. split; [reflexivity|].
    destruct k; cbn [canonical tidy meaning counted annotate pointers flat_map app map written];
      rewrite C, M, app_nil_r; auto.
  - intros t H P v w L. cbn [canonical pointer_count map] in L.
    destruct (H P v w) as [t' [E [C [T M]]]]; [cbn in L; lia|].
    cbn [rebuild]. rewrite E. eexists. split; [reflexivity|].
    cbn [canonical tidy meaning pointers flat_map app]. rewrite C, M, app_nil_r. auto.
  - intros t H P v w L. cbn [canonical pointer_count map] in L.
    destruct (H P v w) as [t' [E [C [T M]]]]; [cbn in L; lia|].
    cbn [rebuild]. rewrite E. eexists. split; [reflexivity|].
    cbn [canonical tidy meaning pointers flat_map app]. rewrite C, M, app_nil_r. auto.
  - intros r H ps H0 [P Q] v w L. cbn [canonical pointer_count map] in L.
    change (list_sum (pointer_count (canonical r) :: map pointer_count (canonicals ps)))
      with (pointer_count (canonical r) + list_sum (map pointer_count (canonicals ps))) in L.
    set (a := pointer_count (canonical r)) in *.
    destruct (H P (firstn a v) (skipn a v ++ w)) as [r' [E [C [T M]]]].
    { rewrite firstn_length. lia. }
    destruct (H0 Q (skipn a v) w) as [ps' [E2 [C2 [T2 M2]]]].
    { rewrite skipn_length. lia. }
    rewrite app_assoc, firstn_skipn in E.
    cbn [rebuild]. rewrite E, E2. eexists. split; [reflexivity|].
    cbn [canonical tidy meaning pointers flat_map app]. rewrite C, C2, M, M2, <- map_app, firstn_skipn. auto.
  - intros d smart encl H q _ isT dargs H0 P v w L.
    pose proof (proj1 plain_ok (TRec d smart encl q isT dargs) P) as [TD CN].
    destruct P as [-> [-> [P [Z Q]]]]. cbn [canonical pointer_count map] in L.
    destruct (proj1 (proj2 plain_ok) encl P) as [TE CE].
    assert (NP : flat_map pointers (meanings [] f encl) = []).
    { apply no_pointers. rewrite (proj1 (proj2 meaning_shape) encl [] f CE). exact Z. }
    rewrite map_app, list_sum_app, Z in L. cbn [rebuild].
    destruct isT.
    + destruct (H0 (Q eq_refl) v w) as [ds' [E2 [C2 [T2 M2]]]]; [cbn in L; lia|].
      rewrite E2. eexists. split; [reflexivity|].
      cbn [canonical canonicals tidy tidys tidyq decls scope_of app meaning meanings bind pointers].
      rewrite C2, app_nil_r. split; auto. split.
      { split; [apply fresh_nil|]. auto. }
      rewrite app_nil_r, flat_map_app, NP, M2. reflexivity.
    + destruct v; [|cbn in L; lia]. eexists. split; [reflexivity|]. split; auto. split; auto.
      cbn [meaning bind app pointers map]. rewrite app_nil_r. exact NP.
  - intros _ v w L. destruct v; [|discriminate]. exists TNil. cbn. auto.
  - intros t H ts H0 [P Q] v w L. cbn [canonicals map] in L.
    change (list_sum (pointer_count (canonical t) :: map pointer_count (canonicals ts)))
      with (pointer_count (canonical t) + list_sum (map pointer_count (canonicals ts))) in L.
    set (a := pointer_count (canonical t)) in *.
    destruct (H P (firstn a v) (skipn a v ++ w)) as [r' [E [C [T M]]]].
    { rewrite firstn_length. lia. }
    destruct (H0 Q (skipn a v) w) as [ps' [E2 [C2 [T2 M2]]]].
    { rewrite skipn_length. lia. }
    rewrite app_assoc, firstn_skipn in E.
    cbn [rebuilds]. rewrite E, E2. eexists. split; [reflexivity|].
    cbn [canonicals tidys meanings flat_map app]. rewrite C, C2, M, M2, <- map_app, firstn_skipn. auto.
Qed.

(** A vector that is too short or too long is a fatal error. *)
Lemma rebuild_consumes :
  (forall t, plain t -> forall v t' w, rebuild t v = Some (t', w) -> length v = pointer_count (canonical t) + length w) /\
  (forall ts, plains ts -> forall v ts' w, rebuilds ts v = Some (ts', w) ->
     length v = list_sum (map pointer_count (canonicals ts)) + length w) /\
  (forall q : quals, True).
Proof.
  apply ty_mut; cbn [plain plains]; try contradiction; auto.
  - intros _ v t' w E. injection E as <- <-. reflexivity.
  - intros t H P v t' w E. cbn [rebuild] in E. destruct v as [|k v]; [discriminate|].
    destruct (rebuild t v) as [[t1 v1]|] eqn:R; [|discriminate]. injection E as <- <-.
    apply H in R; auto. cbn. lia.
  - intros t H P v t' w E. cbn [rebuild] in E.
    destruct (rebuild t v) as [[t1 v1]|] eqn:R; [|discriminate]. injection E as <- <-.
    apply H in R; auto. cbn. lia.
  - intros t H P v t' w E. cbn [rebuild] in E.
    destruct (rebuild t v) as [[t1 v1]|] eqn:R; [|discriminate]. injection E as <- <-.
    apply H in R; auto. cbn. lia.
  - intros r H ps H0 [P Q] v t' w E. cbn [rebuild] in E.
    destruct (rebuild r v) as [[t1 v1]|] eqn:R; [|discriminate].
    destruct (rebuilds ps v1) as [[t2 v2]|] eqn:R2; [|discriminate]. injection E as <- <-.
    apply H in R; auto. apply H0 in R2; auto. cbn [canonical pointer_count map].
    change (list_sum (pointer_count (canonical r) :: map pointer_count (canonicals ps)))
      with (pointer_count (canonical r) + list_sum (map pointer_count (canonicals ps))). lia.
  - intros d smart encl H q _ isT dargs H0 [-> [-> [P [Z Q]]]] v t' w E. cbn [rebuild] in E.
    cbn [canonical pointer_count]. rewrite map_app, list_sum_app, Z. destruct isT.
    + destruct (rebuilds dargs v) as [[t2 v2]|] eqn:R2; [|discriminate]. injection E as <- <-.
      apply H0 in R2; auto.
    + injection E as <- <-. reflexivity.
  - intros _ v t' w E. injection E as <- <-. reflexivity.
  - intros r H ps H0 [P Q] v t' w E. cbn [rebuilds] in E.
    destruct (rebuild r v) as [[t1 v1]|] eqn:R; [|discriminate].
    destruct (rebuilds ps v1) as [[t2 v2]|] eqn:R2; [|discriminate]. injection E as <- <-.
    apply H in R; auto. apply H0 in R2; auto. cbn [canonicals map].
    change (list_sum (pointer_count (canonical r) :: map pointer_count (canonicals ps)))
      with (pointer_count (canonical r) + list_sum (map pointer_count (canonicals ps))). lia.
Qed.
