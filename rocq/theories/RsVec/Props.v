(** C65, C66. *)
From Coq Require Import List Arith Bool Lia.
From Verif.RsVec Require Import Model Spec.
Import ListNotations.
Local Open Scope list_scope.

Section TyInd.
Context (P : ty -> Prop) (Hr : P RawPtr) (Hu : P Usize) (Hp : forall t, P t -> P (Pat t)) (Hs : forall fs, (forall off t, In (off, t) fs -> P t) -> P (Struct fs)) (He : P Enum) (Ho : P Opaque).
Fixpoint ty_ind' (t : ty) : P t :=
  match t with
  | RawPtr => Hr | Usize => Hu | Enum => He | Opaque => Ho
  | Pat t' => Hp t' (ty_ind' t')
  | Struct fs => Hs fs ((fix go (fs : list (nat * ty)) : forall off t, In (off, t) fs -> P t :=
      match fs with
      | [] => fun _ _ I => match I with end
      | (off0, t0) :: fs' => fun off t I => match I with or_introl E => eq_ind t0 P (ty_ind' t0) t (f_equal snd E) | or_intror I' => go fs' off t I' end
      end) fs)
  end.
End TyInd.
Fixpoint find_fields (current : nat) (fs : list (nat * ty)) : option nat :=
  match fs with [] => None | (off, ft) :: fs' => match find_pointer ft (current + off) with Some o => Some o | None => find_fields current fs' end end.
Lemma find_struct fs current : find_pointer (Struct fs) current = find_fields current fs.
Proof. cbn [find_pointer]. induction fs as [|[off t] fs IH]; [reflexivity|]. cbn [find_fields]. now rewrite IH. Qed.
(** The fields of a struct. *)
Lemma find_fields_ok all current fs : (forall off t, In (off, t) fs -> forall c, (forall o, find_pointer t c = Some o -> exists k, o = c + k /\ pointer_at t k) /\ (find_pointer t c = None -> forall k, ~ pointer_at t k)) ->
  (forall x, In x fs -> In x all) ->
  (forall o, find_fields current fs = Some o -> exists k, o = current + k /\ pointer_at (Struct all) k) /\ (find_fields current fs = None -> forall off t k, In (off, t) fs -> ~ pointer_at t k).
Proof.
  induction fs as [|[off t] fs IHf]; intros IH Sub; cbn [find_fields]; [split; [discriminate|intros _ ? ? ? []]|].
  destruct (IH off t (or_introl eq_refl) (current + off)) as [A B]. destruct (find_pointer t (current + off)) as [n|].
  - split; [|discriminate]. intros o E. injection E as <-. destruct (A n eq_refl) as (k & -> & H). exists (off + k). split; [lia|]. apply (pa_field _ off t k); [apply Sub; now left|exact H].
  - destruct IHf as [C D]; [intros off' t' I; apply (IH off' t'); now right|intros x I; apply Sub; now right|]. split; [exact C|]. intros E off' t' k [I|I]; [injection I as <- <-; now apply B|now apply (D E off')].
Qed.
Lemma find_ok t : forall current, (forall o, find_pointer t current = Some o -> exists k, o = current + k /\ pointer_at t k) /\ (find_pointer t current = None -> forall k, ~ pointer_at t k).
Proof.
  induction t as [| |t IH|fs IH| |] using ty_ind'; intro current.
  - cbn. split; [|discriminate]. intros o E. injection E as <-. exists 0. split; [lia|constructor].
  - split; [discriminate|]. intros _ k H. inversion H.
  - cbn [find_pointer]. destruct (IH current) as [A B]. split.
    + intros o E. destruct (A o E) as (k & -> & H). exists k. split; [reflexivity|now constructor].
    + intros E k H. inversion H; subst. now apply (B E k).
  - rewrite find_struct. destruct (find_fields_ok fs current fs IH (fun x I => I)) as [A B]. split; [exact A|]. intros E k H. inversion H; subst. now apply (B E off t o).
  - split; [discriminate|]. intros _ k H. inversion H.
  - split; [discriminate|]. intros _ k H. inversion H.
Qed.
Lemma step_ok p l fields : forall acc,
  (forall off, In (off, Usize) fields -> off = l) -> (forall off t o, In (off, t) fields -> pointer_at t o -> off + o = p) ->
  (fst acc = None \/ fst acc = Some p) -> (snd acc = None \/ snd acc = Some l) ->
  let r := fold_left vec_offsets_step fields acc in
  (fst r = None \/ fst r = Some p) /\ (snd r = None \/ snd r = Some l) /\
  ((exists off, In (off, Usize) fields) \/ snd acc <> None -> snd r = Some l) /\ ((exists off t o, In (off, t) fields /\ pointer_at t o) \/ fst acc <> None -> fst r = Some p).
Proof.
  induction fields as [|[off t] fields IH]; intros [a b] Hl Hp Ha Hb; cbn [fold_left fst snd] in *.
  - split; [exact Ha|]. split; [exact Hb|]. split; [intros [(? & [])|N]; destruct Hb; congruence|intros [(? & ? & ? & [] & _)|N]; destruct Ha; congruence].
  - assert (Hl' : forall off, In (off, Usize) fields -> off = l) by (intros; apply Hl; now right). assert (Hp' : forall off t o, In (off, t) fields -> pointer_at t o -> off + o = p) by (intros ? ? ? I; apply Hp; now right).
    remember (vec_offsets_step (a, b) (off, t)) as acc eqn:Ea. destruct (find_ok t 0) as [Fs Fn].
    assert (Fst : fst acc = match find_pointer t 0 with Some o => Some (off + o) | None => a end) by (subst acc; unfold vec_offsets_step; cbn [fst snd]; destruct t; try reflexivity; destruct (find_pointer _ 0); reflexivity).
    assert (Snd : snd acc = match t with Usize => Some off | _ => b end) by (subst acc; unfold vec_offsets_step; cbn [fst snd]; destruct t; try reflexivity; destruct (find_pointer _ 0); reflexivity).
    assert (Ha' : fst acc = None \/ fst acc = Some p). { rewrite Fst. destruct (find_pointer t 0) as [o|]; [|exact Ha]. right. f_equal. destruct (Fs o eq_refl) as (k & -> & H). cbn. apply (Hp off t k (or_introl eq_refl) H). }
    assert (Hb' : snd acc = None \/ snd acc = Some l). { rewrite Snd. destruct t; try exact Hb. right. f_equal. apply Hl. now left. }
    destruct (IH acc Hl' Hp' Ha' Hb') as (R1 & R2 & R3 & R4). split; [exact R1|]. split; [exact R2|]. split.
    + intro C. apply R3. rewrite Snd. destruct C as [(o & [E|I])|N]; [injection E as -> ->; right; discriminate|left; eauto|]. right. destruct t; try exact N. discriminate.
    + intro C. apply R4. rewrite Fst. destruct C as [(o & t' & k & [E|I] & H)|N]; [injection E as -> ->; right|left; eauto|right; destruct (find_pointer t 0); [discriminate|exact N]]. destruct (find_pointer t' 0) as [x|]; [discriminate|]. exfalso. now apply (Fn eq_refl k).
Qed.
(** C65: for every type with one [usize] field and one raw pointer in the others, the generator finds exactly their offsets. *)
Theorem C65_vec_offsets fields p l : vec_like fields p l -> vec_offsets fields = Some (p, l).
Proof.
  intros [Hl Hp]. destruct (step_ok p l fields (None, None)) as (_ & _ & R3 & R4); [intros off I; now apply Hl|intros off t o I H; apply Hp; now apply (pa_field _ off t)|now left|now left|]. unfold vec_offsets. destruct (fold_left vec_offsets_step fields (None, None)) as [a b]. cbn [fst snd] in *.
  rewrite R3 by (left; exists l; now apply Hl). rewrite R4; [reflexivity|]. left. assert (H : pointer_at (Struct fields) p) by now apply Hp. inversion H; subst. eauto.
Qed.
Print Assumptions C65_vec_offsets.
(** Whatever the type, offsets that are found are those of a [usize] and of a raw pointer; it gives up only if one is missing. *)
Theorem C65_vec_offsets_sound fields p l : vec_offsets fields = Some (p, l) -> In (l, Usize) fields /\ pointer_at (Struct fields) p.
Proof.
  assert (G : forall all fs acc, (forall x, In x fs -> In x all) -> (forall o, fst acc = Some o -> pointer_at (Struct all) o) -> (forall o, snd acc = Some o -> In (o, Usize) all) ->
    let r := fold_left vec_offsets_step fs acc in (forall o, fst r = Some o -> pointer_at (Struct all) o) /\ (forall o, snd r = Some o -> In (o, Usize) all)).
  { intros all. induction fs as [|[off t] fs IH]; intros [a b] Sub Ha Hb; cbn [fold_left fst snd] in *; [auto|]. apply IH; [intros x I; apply Sub; now right| |].
    - intros o. assert (P : forall n, find_pointer t 0 = Some n -> pointer_at (Struct all) (off + n)). { intros n F. destruct (find_ok t 0) as [Fs _]. destruct (Fs n F) as (k & -> & H). apply (pa_field _ off t k); [apply Sub; now left|exact H]. }
      unfold vec_offsets_step. cbn [fst snd]. destruct t; try (apply Ha); destruct (find_pointer _ 0) eqn:F; try (apply Ha); intro E; injection E as <-; now apply P.
    - intros o. unfold vec_offsets_step. cbn [fst snd]. destruct t; try (destruct (find_pointer _ 0); apply Hb). intro E. injection E as <-. apply Sub. now left. }
  unfold vec_offsets. intro E. destruct (G fields fields (None, None) (fun x I => I)) as [A B]; [discriminate|discriminate|]. destruct (fold_left vec_offsets_step fields (None, None)) as [[a|] [b|]]; try discriminate. injection E as -> ->. cbn [fst snd] in *. auto.
Qed.
Print Assumptions C65_vec_offsets_sound.
(** With the words Rust stores there, [v\[i\]] is the address of element [i] for [i] below the length and a failed check
    otherwise, and a loop from [begin] to [end] visits the elements once, in order. *)
Theorem C65_vec_accessors word ptr_off len_off width p n : 0 < width -> word ptr_off = p -> word len_off = n ->
  (forall i, i < n -> at_index word ptr_off len_off width i = Some (p + i * width)) /\ (forall i, n <= i -> at_index word ptr_off len_off width i = None) /\
  loop word ptr_off len_off width n (begin_ word ptr_off) = map (fun i => p + i * width) (seq 0 n).
Proof.
  intros Hw <- <-. set (p := word ptr_off). set (n := word len_off). unfold at_index, size, data. fold p n. split; [intros i Hi; destruct (Nat.ltb_spec i n); [reflexivity|lia]|]. split; [intros i Hi; destruct (Nat.ltb_spec i n); [lia|reflexivity]|].
  assert (G : forall k j, j + k = n -> loop word ptr_off len_off width k (p + j * width) = map (fun i => p + i * width) (seq j k)).
  { induction k as [|k IH]; intros j Hj; cbn [loop seq map]; unfold end_, data, size; fold p n.
    - destruct (Nat.eqb_spec (p + j * width) (p + n * width)) as [_|N]; [reflexivity|]. exfalso. apply N. replace j with n by lia. reflexivity.
    - destruct (Nat.eqb_spec (p + j * width) (p + n * width)) as [E|_]; [exfalso; assert (j < n) by lia; nia|]. f_equal. replace (p + j * width + width) with (p + S j * width) by lia. apply IH. lia. }
  unfold begin_, data. fold p. rewrite <- (G n 0 eq_refl). f_equal. lia.
Qed.
Print Assumptions C65_vec_accessors.
(** Today's [Vec]: a length, and a [RawVec] holding a capacity and a pointer. *)
Example vec_today : vec_like [(0, Struct [(8, Struct [(0, Pat Usize)]); (0, Struct [(8, Struct [(0, RawPtr)])])]); (16, Usize)] 8 16.
Proof.
  split.
  - intro off. cbn. split; [intros [E|[E|[]]]; congruence|intros ->; auto].
  - intro o. split.
    + assert (F : forall fs o, pointer_at (Struct fs) o -> exists off t k, In (off, t) fs /\ pointer_at t k /\ o = off + k) by (intros fs x H; inversion H; subst; eauto 6).
      assert (U : forall k, ~ pointer_at Usize k) by (intros k H; inversion H). assert (R : forall k, pointer_at RawPtr k -> k = 0) by (intros k H; now inversion H).
      intro H. apply F in H as (o1 & t1 & k1 & [E|[E|[]]] & H & ->); injection E as <- <-; [|now apply U in H]. apply F in H as (o2 & t2 & k2 & [E|[E|[]]] & H & ->); injection E as <- <-.
      * apply F in H as (o3 & t3 & k3 & [E|[]] & H & ->). injection E as <- <-. inversion H as [|? ? H2|]; subst. now apply U in H2.
      * apply F in H as (o3 & t3 & k3 & [E|[]] & H & ->). injection E as <- <-. apply F in H as (o4 & t4 & k4 & [E|[]] & H & ->). injection E as <- <-. apply R in H. subst. reflexivity.
    + intros ->. apply (pa_field _ 0 (Struct [(8, Struct [(0, Pat Usize)]); (0, Struct [(8, Struct [(0, RawPtr)])])]) 8); [now left|]. apply (pa_field _ 0 (Struct [(8, Struct [(0, RawPtr)])]) 8); [right; now left|]. apply (pa_field _ 8 (Struct [(0, RawPtr)]) 0); [now left|]. apply (pa_field _ 0 RawPtr 0); [now left|constructor].
Qed.

(** * Tuples (C66) *)
Lemma get_ext m m' off n : (forall a, off <= a < off + n -> m a = m' a) -> get m off n = get m' off n.
Proof. intro H. unfold get. apply map_ext_in. intros i I. apply in_seq in I. apply H. lia. Qed.
Lemma get_put m off bs : get (put m off bs) off (length bs) = bs.
Proof.
  apply nth_ext with (d := 0) (d' := 0); [unfold get; now rewrite map_length, seq_length|]. intros i I. unfold get in *. rewrite map_length, seq_length in I. rewrite (nth_indep _ 0 (put m off bs (off + 0))) by (rewrite map_length, seq_length; lia). rewrite (map_nth (fun i => put m off bs (off + i)) (seq 0 (length bs)) 0 i), seq_nth by lia.
  unfold put. destruct (Nat.leb_spec off (off + (0 + i))), (Nat.ltb_spec (off + (0 + i)) (off + length bs)); try lia. cbn. f_equal. lia.
Qed.
Lemma get_put_apart m off bs o n : apart (o, n) (off, length bs) -> get (put m off bs) o n = get m o n.
Proof. intro A. apply get_ext. intros a Ha. unfold put. unfold apart in A. cbn in A. destruct (Nat.leb_spec off a), (Nat.ltb_spec a (off + length bs)); cbn; try reflexivity. lia. Qed.
Lemma set_nth_mid l x l' b : set_nth (length l) b (l ++ x :: l') = l ++ b :: l'.
Proof. induction l as [|y l IH]; cbn; [|rewrite IH]; reflexivity. Qed.
Lemma nth_mid (l : list bool) x l' d : nth (length l) (l ++ x :: l') d = x.
Proof. rewrite app_nth2 by lia. now rewrite Nat.sub_diag. Qed.
Lemma layout_split pre e es : tuple_layout (pre ++ e :: es) -> Forall (fun x => apart x e) pre /\ Forall (apart e) es.
Proof.
  unfold tuple_layout. induction pre as [|x pre IH]; cbn; intro H; inversion H; subst; [auto|]. destruct (IH H3) as [A B]. split; [|exact B]. constructor; [|exact A]. rewrite Forall_forall in H2. apply H2. apply in_or_app. right. now left.
Qed.
Lemma construct_ok es : forall pre pvals vs t, tuple_layout (pre ++ es) -> alive t = map (fun _ => true) pre ++ map (fun _ => false) es ->
  Forall2 (fun e v => get (mem t) (fst e) (snd e) = v) pre pvals -> Forall2 (fun e v => snd e = length v) es vs ->
  exists t', construct (length pre) es vs t = Some t' /\ tuple_holds (pre ++ es) t' (pvals ++ vs).
Proof.
  induction es as [|[off n] es IH]; intros pre pvals vs t Ly Al Hp Hs; inversion Hs; subst.
  - exists t. cbn [map] in Al. rewrite !app_nil_r in *. split; [reflexivity|split; assumption].
  - cbn [construct]. rewrite Al. cbn [map]. rewrite <- (map_length (fun _ => true) pre), nth_mid, set_nth_mid, map_length. cbn in H1. subst n. destruct (layout_split _ _ _ Ly) as [A _].
    destruct (IH (pre ++ [(off, length y)]) (pvals ++ [y]) l' (Tuple (put (mem t) off y) (map (fun _ => true) pre ++ true :: map (fun _ => false) es))) as (t' & E & H).
    + now rewrite <- app_assoc.
    + cbn [alive]. rewrite map_app, <- app_assoc. reflexivity.
    + cbn [mem]. apply Forall2_app; [|constructor; [apply get_put|constructor]]. clear - Hp A. induction Hp as [|[o n] v pre pvals E _ IH]; [constructor|]. inversion A; subst. constructor; [|now apply IH]. cbn [fst snd] in *. now apply get_put_apart.
    + assumption.
    + exists t'. rewrite app_length in E. cbn [length] in E. rewrite Nat.add_1_r in E. rewrite <- !app_assoc in H. split; [exact E|exact H].
Qed.
(** C66: a tuple made from a [std::tuple] holds its elements where Rust expects them, each constructed once; ... *)
Theorem C66_tuple_construct elems vals m : tuple_layout elems -> Forall2 (fun e v => snd e = length v) elems vals ->
  exists t, construct 0 elems vals (Tuple m (map (fun _ => false) elems)) = Some t /\ tuple_holds elems t vals.
Proof. intros Ly Hs. apply (construct_ok elems [] [] vals (Tuple m (map (fun _ => false) elems))); auto. Qed.
Print Assumptions C66_tuple_construct.
Lemma convert_ok moved es : (forall v, length (moved v) = length v) -> forall pre vals t, tuple_layout es -> alive t = map (fun _ => true) (pre ++ es) ->
  Forall2 (fun e v => get (mem t) (fst e) (snd e) = v) es vals -> exists t', convert moved (length pre) es t = Some (vals, t') /\ alive t' = alive t.
Proof.
  intro Hm. induction es as [|[off n] es IH]; intros pre vals t Ly Al Hp; inversion Hp; subst; [exists t; auto|]. cbn [convert fst snd].
  assert (N : nth (length pre) (alive t) false = true) by (rewrite Al, map_app; cbn [map]; pose proof (nth_mid (map (fun _ => true) pre) true (map (fun _ => true) es) false) as N; rewrite map_length in N; exact N). rewrite N.
  inversion Ly as [|? ? A Ly']; subst. destruct (IH (pre ++ [(off, n)]) l' (Tuple (put (mem t) off (moved (get (mem t) off n))) (alive t))) as (t' & E & Al').
  - exact Ly'.
  - cbn [alive]. now rewrite <- app_assoc.
  - cbn [mem]. clear - H3 A Hm. induction H3 as [|[o k] v es vals E _ IH]; [constructor|]. inversion A; subst. constructor; [|now apply IH]. cbn [fst snd] in *. apply get_put_apart. rewrite Hm. unfold get. rewrite map_length, seq_length. unfold apart in *. cbn in *. lia.
  - rewrite app_length in E. cbn [length] in E. rewrite Nat.add_1_r in E. rewrite E. exists t'. split; [reflexivity|]. rewrite Al'. reflexivity.
Qed.
(** ... converting it back gives the elements, and leaves every element alive; ... *)
Theorem C66_tuple_convert moved elems vals t : (forall v, length (moved v) = length v) -> tuple_layout elems -> tuple_holds elems t vals ->
  exists t', convert moved 0 elems t = Some (vals, t') /\ alive t' = map (fun _ => true) elems.
Proof. intros Hm Ly [H Al]. destruct (convert_ok moved elems Hm [] vals t Ly Al H) as (t' & E & Al'). exists t'. split; [exact E|congruence]. Qed.
Print Assumptions C66_tuple_convert.
(** ... and the destructor ends each element once. *)
Theorem C66_tuple_destroy (elems : list (nat * nat)) t : alive t = map (fun _ => true) elems -> exists t', destroy 0 elems t = Some t' /\ alive t' = map (fun _ => false) elems.
Proof.
  assert (G : forall es pre t, alive t = map (fun _ => false) pre ++ map (fun _ => true) es -> exists t', destroy (length pre) es t = Some t' /\ alive t' = map (fun (_ : nat * nat) => false) (pre ++ es)).
  { induction es as [|e es IH]; intros pre t' Al; [exists t'; rewrite map_app; auto|]. cbn [destroy map] in *.
    assert (N : nth (length pre) (alive t') false = true) by (rewrite Al; pose proof (nth_mid (map (fun _ => false) pre) true (map (fun _ => true) es) false) as N; rewrite map_length in N; exact N).
    assert (N' : set_nth (length pre) false (alive t') = map (fun _ => false) pre ++ false :: map (fun _ => true) es) by (rewrite Al; pose proof (set_nth_mid (map (fun _ => false) pre) true (map (fun _ => true) es) false) as N'; rewrite map_length in N'; exact N'). rewrite N, N'.
    destruct (IH (pre ++ [e]) (Tuple (mem t') (map (fun _ => false) pre ++ false :: map (fun _ => true) es))) as (t'' & E & Al'); [cbn [alive]; now rewrite map_app, <- app_assoc|]. rewrite app_length in E. cbn [length] in E. rewrite Nat.add_1_r in E. rewrite <- app_assoc in Al'. eauto. }
  intro Al. apply (G elems [] t Al).
Qed.
Print Assumptions C66_tuple_destroy.
(** [(u8, u32)], the byte after the word. *)
Example tuple_u8_u32 : tuple_layout [(4, 1); (0, 4)] /\ exists t, construct 0 [(4, 1); (0, 4)] [[7]; [1; 2; 3; 4]] (Tuple (fun _ => 0) [false; false]) = Some t /\ get (mem t) 0 5 = [1; 2; 3; 4; 7].
Proof. split; [repeat constructor; unfold apart; cbn; lia|]. eexists. split; [reflexivity|reflexivity]. Qed.
