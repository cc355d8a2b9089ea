(** What the static assertions give. *)
From Coq Require Import List Arith ZArith Bool Lia ZifyNat.
From Verif Require Import RecordLayout.Model RecordLayout.Spec RecordLayout.Proofs RecordLayout.Chain RecordLayout.Struct RecordLayout.Union RecordLayout.NoPanic.
Import ListNotations.
Local Open Scope nat_scope.
Local Open Scope list_scope.

Definition ids_of (fs : list rs_field) : list nat := flat_map (fun f => match rf_id f with Some i => [i] | None => [] end) fs.
Definition item_ids (l : list item) : list nat := flat_map (fun i => match i_ir i with Some f => [f_id f] | None => [] end) l.

Lemma place_ids fs : forall pos, map fst (fst (place pos fs)) = ids_of fs.
Proof.
  induction fs as [|f fs IH]; intros pos; [reflexivity|]. cbn [place]. specialize (IH (round_up pos (rf_align f) + rf_size f)).
  destruct (place (round_up pos (rf_align f) + rf_size f) fs) as [offs e]. cbn [fst] in *. unfold ids_of in *. cbn [flat_map]. destruct (rf_id f); cbn [map fst app]; now rewrite IH.
Qed.
Lemma ids_app a b : ids_of (a ++ b) = ids_of a ++ ids_of b.
Proof. unfold ids_of. now rewrite flat_map_app. Qed.

Lemma field_definition_ids r cur pe fi fs o : field_definition r cur pe fi = Some (fs, o) ->
  ids_of fs = match i_ir cur with Some f => [f_id f] | None => [] end.
Proof.
  unfold field_definition. destruct (if is_union r then _ else _) as [pad|]; [|discriminate]. cbv zeta.
  assert (PD : ids_of (if pad =? 0 then [] else [blob None pad]) = []) by (destruct (pad =? 0); reflexivity).
  destruct (i_ir cur) as [f|].
  - destruct (type_for_layout r f).
    + intros [= <- <-]. rewrite ids_app, PD. reflexivity.
    + destruct (subtract fi (f_offset f)) as [[|n]|]; try discriminate. intros [= <- <-]. rewrite ids_app, PD. reflexivity.
  - destruct (subtract fi (i_offset cur)) as [[|n]|]; try discriminate. intros [= <- <-]. rewrite ids_app, PD. reflexivity.
Qed.
Lemma definitions_ids r l : forall prev fs o, definitions r prev l = Some (fs, o) -> ids_of fs = item_ids l.
Proof.
  induction l as [|i l IH]; intros prev fs o; cbn [definitions]; [intros [= <- <-]; reflexivity|]. cbv zeta.
  destruct (match prev with Some _ => _ | None => true end); [|discriminate].
  destruct (field_definition r i _ _) as [[f1 o1]|] eqn:E1; [|discriminate]. destruct (definitions r (Some i) l) as [[f2 o2]|] eqn:E2; [|discriminate].
  intros [= <- <-]. rewrite ids_app, (field_definition_ids _ _ _ _ _ _ E1), (IH _ _ _ E2). reflexivity.
Qed.
Lemma head_ids r : ids_of (head_padding r) = [].
Proof. unfold head_padding. destruct (_ || _); reflexivity. Qed.

Lemma union_ids fs : map fst (u_offsets fs) = ids_of fs.
Proof. unfold u_offsets, ids_of. induction fs as [|g l IH]; [reflexivity|]. cbn [flat_map]. rewrite map_app, IH. destruct (rf_id g); reflexivity. Qed.
Lemma layout_ids r s a offs : thread_safe r = false -> layout r = Some (s, a, offs) -> map fst offs = item_ids (coalesce (to_items r (fields r))).
Proof.
  intros TS. unfold layout, generate. destruct (definitions r None _) as [[fs o]|] eqn:D; [|discriminate]. rewrite TS.
  destruct (byte_offsets _); [|discriminate]. rewrite <- (definitions_ids _ _ _ _ _ D).
  replace (ids_of fs) with (ids_of (head_padding r ++ fs)) by now rewrite ids_app, head_ids.
  destruct (is_union r).
  - unfold rs_union. destruct (head_padding r ++ fs) as [|f l]; [discriminate|]. intros E. inversion E. exact (union_ids (f :: l)).
  - unfold rs_struct. pose proof (place_ids (head_padding r ++ fs) 0) as P. destruct (place 0 (head_padding r ++ fs)) as [of e]. intros [= <- <- <-]. exact P.
Qed.

Lemma item_ids_coalesce rest : forall cur, item_ids (coalesce_from cur rest) = item_ids (cur :: rest).
Proof.
  induction rest as [|j rest IH]; intros cur; cbn [coalesce_from]; [reflexivity|].
  unfold item_ids in *. destruct (i_ir cur) as [f|] eqn:C; [|destruct (i_ir j) as [g|] eqn:J].
  - cbn [flat_map]. rewrite IH. reflexivity.
  - cbn [flat_map]. rewrite IH. reflexivity.
  - rewrite IH. cbn [flat_map i_ir]. now rewrite C, J.
Qed.
Lemma asserted_coalesce rest : forall cur,
  flat_map (fun i => match i_ir i with Some f => [(f_id f, f_offset f / 8)] | None => [] end) (coalesce_from cur rest) =
  flat_map (fun i => match i_ir i with Some f => [(f_id f, f_offset f / 8)] | None => [] end) (cur :: rest).
Proof.
  induction rest as [|j rest IH]; intros cur; cbn [coalesce_from]; [reflexivity|].
  destruct (i_ir cur) as [f|] eqn:C; [|destruct (i_ir j) as [g|] eqn:J].
  - cbn [flat_map]. rewrite IH. reflexivity.
  - cbn [flat_map]. rewrite IH. reflexivity.
  - rewrite IH. cbn [flat_map i_ir]. now rewrite C, J.
Qed.

(** The assertions and the fields, from the members. *)
Section Any.
Variable r : record.
Variable c : class.
Hypothesis FE : fields r = map import_field (c_data c).
Hypothesis SZ : Forall sized_ok (c_data c).

Lemma to_items_ir ds : Forall sized_ok ds -> exists its, to_items r (map import_field ds) = its /\
  map i_ir its = map (fun d => if is_bits d then None else Some (import_field d)) (filter sized ds).
Proof.
  induction 1 as [|d ds O _ (its & E & M)]; [exists []; split; reflexivity|]. cbn [map to_items filter]. rewrite E.
  assert (Z : f_size (import_field d) =? 0 = negb (sized d)).
  { unfold sized, zero_size, sized_ok, import_field in *. destruct (d_member d); cbn [f_size negb]; try reflexivity; apply Nat.eqb_neq; lia. }
  assert (B : f_bitfield (import_field d) = match d_member d with Bits _ _ | ZeroBits _ => true | _ => false end) by (unfold import_field; destruct (d_member d); reflexivity).
  unfold to_item. rewrite Z. destruct (sized d) eqn:S; cbn [negb].
  - eexists. split; [reflexivity|]. cbn [map i_ir]. rewrite M, B. f_equal. unfold sized, zero_size, is_bits in *. destruct (d_member d); try discriminate; reflexivity.
  - exists its. split; [reflexivity|exact M].
Qed.
Lemma asserted_eq : thread_safe r = false -> asserted_offsets r = visible_offsets (c_data c).
Proof.
  intros TS. unfold asserted_offsets. rewrite TS, FE. destruct (to_items_ir (c_data c) SZ) as (its & -> & M).
  assert (E : flat_map (fun i => match i_ir i with Some f => [(f_id f, f_offset f / 8)] | None => [] end) (coalesce its) =
              flat_map (fun o => match o with Some f => [(f_id f, f_offset f / 8)] | None => [] end) (map i_ir its)).
  { destruct its as [|i its]; [reflexivity|]. cbn [coalesce]. rewrite asserted_coalesce. generalize (i :: its). intros l. induction l as [|x l IH]; [reflexivity|]. cbn [map flat_map]. now rewrite IH. }
  rewrite E, M. unfold visible_offsets. clear. induction (c_data c) as [|d ds IH]; [reflexivity|]. cbn [filter flat_map]. unfold sized at 1.
  destruct (zero_size d); cbn [negb orb app]; [exact IH|]. cbn [map flat_map]. rewrite IH. destruct (is_bits d); cbn [app]; [reflexivity|].
  unfold import_field. destruct (d_member d); reflexivity.
Qed.
Lemma item_ids_eq : item_ids (coalesce (to_items r (fields r))) = map fst (visible_offsets (c_data c)).
Proof.
  rewrite FE. destruct (to_items_ir (c_data c) SZ) as (its & -> & M).
  assert (E : item_ids (coalesce its) = flat_map (fun o => match o with Some f => [f_id f] | None => [] end) (map i_ir its)).
  { destruct its as [|i its]; [reflexivity|]. cbn [coalesce]. rewrite item_ids_coalesce. unfold item_ids. generalize (i :: its). intros l. induction l as [|x l IH]; [reflexivity|]. cbn [map flat_map]. now rewrite IH. }
  rewrite E, M. unfold visible_offsets. clear. induction (c_data c) as [|d ds IH]; [reflexivity|]. cbn [filter flat_map]. unfold sized at 1.
  destruct (zero_size d); cbn [negb orb app]; [exact IH|]. cbn [map flat_map]. rewrite IH. destruct (is_bits d); cbn [app map fst]; [reflexivity|].
  unfold import_field. destruct (d_member d); reflexivity.
Qed.

Lemma visible_in d : In d (c_data c) -> addressable d -> In (d_id d, d_offset d / 8) (visible_offsets (c_data c)).
Proof. intros I [Z B]. apply in_flat_map. exists d. split; [exact I|]. rewrite Z, B. now left. Qed.
Lemma visible_nodup ds : NoDup (map d_id ds) -> NoDup (map fst (visible_offsets ds)).
Proof.
  unfold visible_offsets. induction ds as [|d ds IH]; cbn [map flat_map]; [constructor|]. intros N. inversion N as [|? ? N1 N2]; subst.
  destruct (zero_size d || is_bits d); cbn [app map fst]; [now apply IH|]. constructor; [|now apply IH].
  intros I. apply N1. apply in_map_iff in I. destruct I as ([x o] & E & I). apply in_flat_map in I. destruct I as (d' & I1 & I2).
  cbn [fst] in E. subst x. destruct (zero_size d' || is_bits d'); [contradiction|]. destruct I2 as [I2|[]]. inversion I2. apply in_map_iff. now exists d'.
Qed.

Lemma nodup_fst {A B} (l : list (A * B)) x y z : NoDup (map fst l) -> In (x, y) l -> In (x, z) l -> y = z.
Proof.
  induction l as [|[a b] l IH]; [contradiction|]. cbn [map fst]. intros N. inversion N as [|? ? N1 N2]; subst. intros [E1|I1] [E2|I2].
  - congruence.
  - inversion E1; subst. elim N1. apply in_map_iff. now exists (x, z).
  - inversion E2; subst. elim N1. apply in_map_iff. now exists (x, y).
  - now apply IH.
Qed.

Lemma accepted_in_place l : thread_safe r = false -> NoDup (map d_id (c_data c)) -> accepted r l ->
  forall d, In d (c_data c) -> addressable d -> in_place (snd l) d.
Proof.
  intros TS N A d I AD. destruct l as [[s a] offs]. destruct A as (L & _ & _ & H). rewrite (asserted_eq TS) in H.
  pose proof (layout_ids r s a offs TS L) as E. rewrite item_ids_eq in E.
  assert (N' : NoDup (map fst offs)) by (rewrite E; now apply visible_nodup).
  pose proof (H _ (visible_in d I AD)) as I'. cbn [snd]. intros o. split; [|intros ->; exact I']. intros Io. apply (nodup_fst offs (d_id d)); auto.
Qed.
End Any.
