(** Proofs about the names of generated C++ locals. *)
From Coq Require Import List Arith ZArith Bool String Ascii DecimalString DecimalNat Lia.
From Verif Require Import Thunk.Model Thunk.Spec Thunk.Proofs.
Import ListNotations.
Local Open Scope string_scope.
Local Open Scope list_scope.

(** * Decimal numbers *)
Definition is_digit (c : ascii) : bool := ((48 <=? nat_of_ascii c) && (nat_of_ascii c <=? 57))%nat.
Fixpoint digits (s : string) : bool := match s with EmptyString => true | String c s1 => is_digit c && digits s1 end.

Lemma number_inj i j : number i = number j -> i = j.
Proof.
  assert (H : forall n, option_map Nat.of_uint (NilZero.uint_of_string (number n)) = Some n).
  { intro n. unfold number. rewrite <- (Unsigned.of_to n) at 2. destruct (Nat.to_uint n); [reflexivity|..]; rewrite NilZero.usu by discriminate; reflexivity. }
  intros E. pose proof (H i) as Hi. rewrite E, H in Hi. congruence.
Qed.
Lemma number_digits i : digits (number i) = true /\ number i <> "".
Proof.
  unfold number. assert (D : forall d, digits (NilEmpty.string_of_uint d) = true) by (induction d; cbn; auto).
  destruct (Nat.to_uint i) as [|d|d|d|d|d|d|d|d|d|d]; split; try discriminate; try reflexivity; exact (D d).
Qed.

(** * Strings *)
Lemma sapp_assoc (a b c : string) : ((a ++ b) ++ c = a ++ (b ++ c))%string.
Proof. induction a as [|x a IH]; cbn; [reflexivity|now rewrite IH]. Qed.
Lemma sapp_nil (a : string) : (a ++ "")%string = a.
Proof. induction a as [|x a IH]; cbn; [reflexivity|now rewrite IH]. Qed.
Lemma sapp_inv_head (a b c : string) : (a ++ b = a ++ c)%string -> b = c.
Proof. induction a as [|x a IH]; cbn; [auto|]. intros H. injection H as H. auto. Qed.

Definition not_digit_first (s : string) : bool := match s with EmptyString => true | String c _ => negb (is_digit c) end.
Lemma digits_split (d1 : string) : forall d2 s1 s2, digits d1 = true -> digits d2 = true ->
  not_digit_first s1 = true -> not_digit_first s2 = true -> (d1 ++ s1 = d2 ++ s2)%string -> d1 = d2 /\ s1 = s2.
Proof.
  induction d1 as [|c d1 IH]; intros d2 s1 s2 D1 D2 N1 N2 E.
  - destruct d2 as [|c d2]; [auto|]. cbn in E. subst s1. cbn in N1, D2. destruct (is_digit c); discriminate.
  - destruct d2 as [|c2 d2]; cbn in E.
    + subst s2. cbn in N2, D1. destruct (is_digit c); discriminate.
    + injection E as -> E. cbn in D1, D2. apply andb_true_iff in D1, D2.
      destruct (IH d2 s1 s2) as [-> ->]; tauto.
Qed.

(** Numbers, each after an underscore. *)
Fixpoint etext (l : list nat) : string := match l with [] => "" | i :: l1 => ("_" ++ number i ++ etext l1)%string end.
(** What may follow: nothing, or an underscore and something that is no number. *)
Definition tail_ok (s : string) : bool :=
  match s with EmptyString => true | String u (String c _) => Ascii.eqb u "_" && negb (is_digit c) | _ => false end.
Lemma etext_first l s : tail_ok s = true -> not_digit_first (etext l ++ s) = true.
Proof.
  intros T. destruct l; [|reflexivity]. cbn. destruct s as [|u [|c s]]; [reflexivity|discriminate|].
  cbn in T. apply andb_true_iff in T. destruct T as [T _]. apply Ascii.eqb_eq in T. subst u. reflexivity.
Qed.
Lemma etext_inj l : forall l' s s', tail_ok s = true -> tail_ok s' = true -> (etext l ++ s = etext l' ++ s')%string -> l = l' /\ s = s'.
Proof.
  assert (X : forall i l (s s' : string), tail_ok s' = true -> (etext (i :: l) ++ s)%string = s' -> False).
  { intros i l0 s s' T E. subst s'. cbn in T. destruct (number_digits i) as [D N].
    destruct (number i) as [|c n]; [contradiction|]. cbn in D, T. destruct (is_digit c); discriminate. }
  induction l as [|i l IH]; intros l' s s' T T' E.
  - destruct l' as [|j l']; [auto|]. cbn [etext String.append] in E. exfalso. eapply (X j l' s' s T). symmetry. exact E.
  - destruct l' as [|j l'].
    + exfalso. eapply (X i l s s' T' E).
    + cbn [etext] in E. rewrite !sapp_assoc in E. apply sapp_inv_head in E.
      apply digits_split in E; try apply number_digits; try (apply etext_first; assumption).
      destruct E as [E1 E2]. apply number_inj in E1. subst j. destruct (IH l' s s' T T' E2) as [-> ->]. auto.
Qed.

(** * Paths *)
Definition terminal (s : seg) : bool := match s with Elem _ => false | _ => true end.
Definition tail_text (o : option seg) : string := match o with Some s => seg_text s | None => "" end.
Definition opt_list (o : option seg) : list seg := match o with Some s => [s] | None => [] end.
(** Element numbers, then at most one other suffix. *)
Definition wfp (p : list seg) : Prop := exists l o, p = map Elem l ++ opt_list o /\ match o with Some s => terminal s = true | None => True end.

Lemma tail_text_ok o : match o with Some s => terminal s = true | None => True end -> tail_ok (tail_text o) = true.
Proof. destruct o as [[| | | |]|]; intros H; try discriminate H; reflexivity. Qed.
Lemma tail_text_inj o o' : match o with Some s => terminal s = true | None => True end -> match o' with Some s => terminal s = true | None => True end ->
  tail_text o = tail_text o' -> o = o'.
Proof.
  destruct o as [[i| | | |i]|], o' as [[j| | | |j]|]; intros H H' E; try discriminate H; try discriminate H'; try reflexivity; try discriminate E.
  cbn in E. injection E as E. apply number_inj in E. now subst.
Qed.
Lemma path_text_app p q : path_text (p ++ q) = (path_text p ++ path_text q)%string.
Proof. induction p as [|s p IH]; cbn [path_text app]; [reflexivity|]. rewrite IH, sapp_assoc. reflexivity. Qed.
Lemma path_text_elems l : path_text (map Elem l) = etext l.
Proof. induction l as [|i l IH]; [reflexivity|]. cbn [map path_text etext seg_text]. rewrite IH, sapp_assoc. reflexivity. Qed.
Lemma path_text_wfp l o : path_text (map Elem l ++ opt_list o) = (etext l ++ tail_text o)%string.
Proof. rewrite path_text_app, path_text_elems. destruct o; [cbn; now rewrite sapp_nil|reflexivity]. Qed.

Lemma path_text_inj p q : wfp p -> wfp q -> path_text p = path_text q -> p = q.
Proof.
  intros (l & o & -> & T) (l' & o' & -> & T'). rewrite !path_text_wfp. intros E.
  apply etext_inj in E; try (apply tail_text_ok; assumption). destruct E as [-> E]. apply tail_text_inj in E; try assumption. now subst.
Qed.
Lemma path_text_first p : wfp p -> p <> [] -> exists s, path_text p = String "_" s.
Proof.
  intros (l & o & -> & T) N. rewrite path_text_wfp. destruct l as [|i l]; cbn; [|eauto].
  destruct o as [[| | | |]|]; try discriminate T; cbn; eauto. contradiction.
Qed.

Lemma NoDup_app_intro' {A} (l l' : list A) : NoDup l -> NoDup l' -> (forall a, In a l -> In a l' -> False) -> NoDup (l ++ l').
Proof.
  intros N N' D. induction N as [|a l Ha N IH]; [exact N'|]. cbn. constructor.
  - rewrite in_app_iff. intros [H|H]; [contradiction|]. eapply D; [now left|exact H].
  - apply IH. intros b Hb. apply D. now right.
Qed.

(** * Declared names *)
Section Decl.
Variable cfg : config.
Variable cpp_to_rust : nat -> rval -> rval.

Definition below (nm : name) (d : name) : Prop := exists p, d = (fst nm, snd nm ++ p) /\ p <> [] /\ wfp p.
Lemma wfp_cons i p : wfp p -> wfp (Elem i :: p).
Proof. intros (l & o & -> & T). exists (i :: l), o. auto. Qed.
Lemma wfp_nil : wfp [].
Proof. exists [], None. auto. Qed.
Lemma wfp_term s : terminal s = true -> wfp [s].
Proof. exists [], (Some s). auto. Qed.
Lemma below_elem nm i d : below (app_seg nm (Elem i)) d -> exists p, d = (fst nm, snd nm ++ Elem i :: p) /\ p <> [] /\ wfp p.
Proof. intros (p & -> & N & W). exists p. cbn. rewrite <- app_assoc. auto. Qed.

Definition names_good (t : ty) : Prop := forall nm x h ds e h', cc_param cfg cpp_to_rust t nm x h = Some (ds, e, h') -> NoDup ds /\ Forall (below nm) ds.

Definition from (nm : name) (i : nat) (d : name) : Prop :=
  exists j, i <= j /\ ((exists p, d = (fst nm, snd nm ++ Elem j :: p) /\ wfp p) \/ d = (fst nm, snd nm ++ [CabiElem j])).

Lemma elements_names ts : Forall names_good ts -> forall nm i xs h ds cs h',
  cc_elements cfg cpp_to_rust nm ts i xs h = Some (ds, cs, h') -> NoDup ds /\ Forall (from nm i) ds.
Proof.
  intros G. induction G as [|t ts Gt _ IH]; intros nm i xs h ds cs h' E; destruct xs as [|y ys]; try discriminate E.
  - cbn in E. injection E as <- _ _. split; constructor.
  - cbn [cc_elements] in E.
    destruct (cc_param cfg cpp_to_rust t (app_seg nm (Elem i)) y h) as [[[ds1 ex] h1]|] eqn:E1; [|discriminate].
    destruct (bind t h1 ex) as [[c h2]|]; [|discriminate].
    destruct (cc_elements cfg cpp_to_rust nm ts (S i) ys h2) as [[[ds2 cs2] h3]|] eqn:E2; [|discriminate].
    injection E as <- _ _.
    destruct (Gt _ _ _ _ _ _ E1) as [N1 F1]. destruct (IH _ _ _ _ _ _ _ E2) as [N2 F2]. rewrite Forall_forall in F1, F2.
    assert (D1 : forall d, In d ds1 -> exists p, d = (fst nm, snd nm ++ Elem i :: p) /\ p <> [] /\ wfp p) by (intros d Hd; apply below_elem; auto).
    assert (NE : forall (p q : list seg) (s s' : seg), s <> s' -> (fst nm, snd nm ++ s :: p) <> (fst nm, snd nm ++ s' :: q)).
    { intros p q s s' Hs E. injection E as E. apply app_inv_head in E. congruence. }
    split.
    + constructor.
      { rewrite in_app_iff. cbn. intros [H|[H|H]].
        - destruct (D1 _ H) as (p & Ep & Np & _). unfold app_seg in Ep. injection Ep as Ep. apply app_inv_head in Ep. congruence.
        - unfold app_seg in H. revert H. apply NE. discriminate.
        - destruct (F2 _ H) as (j & Hj & [(p & Ep & _)|Ep]); unfold app_seg in Ep; revert Ep; apply NE; [|discriminate]. intros Ej. injection Ej. lia. }
      apply NoDup_app_intro'; [exact N1| |].
      { constructor; [|exact N2]. intros H. destruct (F2 _ H) as (j & Hj & [(p & Ep & _)|Ep]); unfold app_seg in Ep; revert Ep; apply NE; [discriminate|]. intros Ej. injection Ej. lia. }
      intros d H1 [<-|H2]; destruct (D1 _ H1) as (p & Ep & _ & _).
      * unfold app_seg in Ep. revert Ep. apply NE. discriminate.
      * destruct (F2 _ H2) as (j & Hj & [(q & Eq & _)|Eq]); rewrite Ep in Eq; revert Eq; apply NE; [|discriminate]. intros Ej. injection Ej. lia.
    + constructor.
      { exists i. split; [lia|]. left. exists []. split; [reflexivity|apply wfp_nil]. }
      apply Forall_app. split; [|constructor].
      * apply Forall_forall. intros d Hd. destruct (D1 _ Hd) as (p & -> & _ & W). exists i. split; [lia|]. left. eauto.
      * exists i. split; [lia|]. right. reflexivity.
      * apply Forall_forall. intros d Hd. destruct (F2 _ Hd) as (j & Hj & R). exists j. split; [lia|exact R].
Qed.

Lemma one_name nm s : terminal s = true -> NoDup [app_seg nm s] /\ Forall (below nm) [app_seg nm s].
Proof.
  intros T. split; [repeat constructor; auto|]. constructor; [|constructor]. exists [s]. split; [reflexivity|]. split; [discriminate|].
  now apply wfp_term.
Qed.
Lemma no_name nm : NoDup ([] : list name) /\ Forall (below nm) [].
Proof. split; constructor. Qed.

Lemma other_names t nm x (h : heap) ds e h' :
  (if negb (needs_drop t) then Some ([], PV (CPtr x), h)
   else let (s, h1) := slot_from t h x in Some ([app_seg nm SlotName], PV (CPtr s), h1)) = Some (ds, e, h') ->
  NoDup ds /\ Forall (below nm) ds.
Proof.
  destruct (negb (needs_drop t)).
  - intros E. injection E as <- _ _. apply no_name.
  - destruct (slot_from t h x). intros E. injection E as <- _ _. now apply one_name.
Qed.

Lemma cc_param_names t : names_good t.
Proof.
  induction t as [| | | |ts IH|t IH|a|a t IH] using ty_ind'; intros nm x h ds e h' E.
  - cbn in E. injection E as <- _ _. apply no_name.
  - cbn in E. injection E as <- _ _. apply no_name.
  - cbn [cc_param is_bridged adt_of] in E. destruct (by_value cfg Char); [injection E as <- _ _; apply no_name|].
    exact (other_names Char nm x h ds e h' E).
  - cbn [cc_param is_bridged adt_of] in E. destruct (by_value cfg Fat); [injection E as <- _ _; apply no_name|].
    exact (other_names Fat nm x h ds e h' E).
  - destruct ts as [|t0 ts]; [cbn in E; injection E as <- _ _; apply no_name|].
    destruct (layout_compat_tuple cfg) eqn:L.
    + cbn [cc_param is_bridged adt_of by_value] in E. rewrite L in E. exact (other_names (Tuple (t0 :: ts)) nm x h ds e h' E).
    + rewrite cc_param_tuple in E by exact L. destruct (fst h x); try discriminate.
      destruct (cc_elements cfg cpp_to_rust nm (t0 :: ts) 0 xs h) as [[[ds1 cs] h1]|] eqn:E1; [|discriminate].
      unfold alloc in E. injection E as <- _ _.
      destruct (elements_names _ IH _ _ _ _ _ _ _ E1) as [N F]. rewrite Forall_forall in F. split.
      * apply NoDup_app_intro'; [exact N|repeat constructor; auto|].
        intros d Hd [<-|[]]. destruct (F _ Hd) as (j & _ & [(p & Ep & _)|Ep]); unfold app_seg in Ep; injection Ep as Ep; apply app_inv_head in Ep; discriminate.
      * apply Forall_app. split; [|apply one_name; reflexivity].
        apply Forall_forall. intros d Hd. destruct (F _ Hd) as (j & _ & [(p & -> & W)| ->]).
        -- exists (Elem j :: p). split; [reflexivity|]. split; [discriminate|now apply wfp_cons].
        -- exists [CabiElem j]. split; [reflexivity|]. split; [discriminate|now apply wfp_term].
  - cbn [cc_param is_bridged adt_of by_value] in E. exact (other_names (Array t) nm x h ds e h' E).
  - cbn [cc_param] in E. destruct (is_bridged (Adt a)) as [[[|]|[|]|]|].
    1,3: injection E as <- _ _; apply no_name.
    1,2: exact (other_names (Adt a) nm x h ds e h' E).
    + destruct (fst h x); try discriminate. unfold alloc in E. injection E as <- _ _. now apply one_name.
    + destruct (by_value cfg (Adt a)); [injection E as <- _ _; apply no_name|]. exact (other_names (Adt a) nm x h ds e h' E).
  - cbn [cc_param] in E. destruct (is_bridged (Newtype a t)) as [[[|]|[|]|]|].
    1,3: injection E as <- _ _; apply no_name.
    1,2: exact (other_names (Newtype a t) nm x h ds e h' E).
    + destruct (fst h x); try discriminate. unfold alloc in E. injection E as <- _ _. now apply one_name.
    + destruct (by_value cfg (Newtype a t)); [injection E as <- _ _; apply no_name|]. exact (other_names (Newtype a t) nm x h ds e h' E).
Qed.

(** All parameters: the names declared and the parameters' own. *)
Lemma cc_params_names ts : forall i xs h ds es h', cc_params cfg cpp_to_rust i ts xs h = Some (ds, es, h') ->
  NoDup ds /\ Forall (fun d => i <= fst d < i + List.length ts /\ snd d <> [] /\ wfp (snd d)) ds.
Proof.
  induction ts as [|t ts IH]; intros i xs h ds es h' E; destruct xs as [|x xs]; try discriminate E.
  - cbn in E. injection E as <- _ _. split; constructor.
  - cbn [cc_params] in E. destruct (cc_param cfg cpp_to_rust t (i, []) x h) as [[[ds1 e] h1]|] eqn:E1; [|discriminate].
    destruct (cc_params cfg cpp_to_rust (S i) ts xs h1) as [[[ds2 es2] h2]|] eqn:E2; [|discriminate]. injection E as <- _ _.
    destruct (cc_param_names t _ _ _ _ _ _ E1) as [N1 F1]. destruct (IH _ _ _ _ _ _ E2) as [N2 F2].
    rewrite Forall_forall in F1, F2.
    assert (D1 : forall d, In d ds1 -> fst d = i /\ snd d <> [] /\ wfp (snd d)).
    { intros d Hd. destruct (F1 d Hd) as (p & -> & Np & W). cbn. auto. }
    split.
    + apply NoDup_app_intro'; [exact N1|exact N2|]. intros d H1 H2. destruct (D1 d H1) as [H _]. destruct (F2 d H2) as [H' _]. lia.
    + apply Forall_app. cbn [List.length]. split; apply Forall_forall; intros d Hd.
      * destruct (D1 d Hd) as (H & H'). split; [lia|exact H'].
      * destruct (F2 d Hd) as (H & H'). split; [lia|exact H'].
Qed.
End Decl.

(** * Storage of the return value *)
Section Stor.
Variable cfg : config.
Definition suffixes : list string := ["_storage"; "_ret_val_holder"; "_crubit_return_union"].
Definition sbelow (base : string) (d : string) : Prop := exists l k, In k suffixes /\ d = ("__" ++ base ++ etext l ++ k)%string.
Definition sfrom (base : string) (i : nat) (d : string) : Prop :=
  exists j l k, i <= j /\ In k suffixes /\ d = ("__" ++ base ++ etext (j :: l) ++ k)%string.
Definition snames_good (t : ty) : Prop := forall base, NoDup (storage_names cfg base t) /\ Forall (sbelow base) (storage_names cfg base t).

Lemma suffix_tail k : In k suffixes -> tail_ok k = true.
Proof. intros [<-|[<-|[<-|[]]]]; reflexivity. Qed.
Lemma sname_inj base l k l' k' : In k suffixes -> In k' suffixes ->
  ("__" ++ base ++ etext l ++ k)%string = ("__" ++ base ++ etext l' ++ k')%string -> l = l' /\ k = k'.
Proof.
  intros H H' E. apply sapp_inv_head in E. apply sapp_inv_head in E. apply etext_inj in E; auto using suffix_tail.
Qed.

Fixpoint selements (ident : string) (ts : list ty) (i : nat) {struct ts} : list string :=
  match ts with [] => [] | e :: ts1 => storage_names cfg (ident ++ "_" ++ number i)%string e ++ selements ident ts1 (S i) end.
Lemma storage_names_tuple t0 ts ident : layout_compat_tuple cfg = false ->
  storage_names cfg ident (Tuple (t0 :: ts)) = selements ident (t0 :: ts) 0 ++ [("__" ++ ident ++ "_storage")%string].
Proof.
  intros L. assert (B : by_value cfg (Tuple (t0 :: ts)) = false) by reflexivity. revert B. generalize (t0 :: ts). clear t0 ts. intros ts B.
  cbn [storage_names is_bridged adt_of]. rewrite B, L. f_equal. generalize 0. clear B.
  induction ts as [|t ts IH]; intros i; [reflexivity|]. cbn [selements]. rewrite <- IH.
  reflexivity.
Qed.

Lemma sbelow_elem base i d : sbelow (base ++ "_" ++ number i)%string d -> exists l k, In k suffixes /\ d = ("__" ++ base ++ etext (i :: l) ++ k)%string.
Proof. intros (l & k & H & ->). exists l, k. split; [exact H|]. cbn [etext]. rewrite !sapp_assoc. reflexivity. Qed.

Lemma sfrom_not base i d : sfrom base (S i) d -> forall l k, In k suffixes -> d = ("__" ++ base ++ etext (i :: l) ++ k)%string -> False.
Proof.
  intros (j & l' & k' & Hj & K' & ->) l k K E. destruct (sname_inj _ _ _ _ _ K' K E) as [El _]. injection El. lia.
Qed.

Lemma sapp_nil_sfx base k : ("__" ++ base ++ k)%string = ("__" ++ base ++ etext [] ++ k)%string.
Proof. reflexivity. Qed.

Lemma selements_names ts : Forall snames_good ts -> forall ident i,
  NoDup (selements ident ts i) /\ Forall (sfrom ident i) (selements ident ts i).
Proof.
  intros G. induction G as [|t ts Gt _ IH]; intros ident i; [split; constructor|]. cbn [selements].
  destruct (Gt (ident ++ "_" ++ number i)%string) as [N1 F1]. destruct (IH ident (S i)) as [N2 F2].
  rewrite Forall_forall in F1, F2. split.
  - apply NoDup_app_intro'; [exact N1|exact N2|]. intros d H1 H2.
    destruct (sbelow_elem _ _ _ (F1 d H1)) as (l & k & K & E). exact (sfrom_not _ _ _ (F2 d H2) l k K E).
  - apply Forall_app. split; apply Forall_forall; intros d Hd.
    + destruct (sbelow_elem _ _ _ (F1 d Hd)) as (l & k & K & E). exists i, l, k. auto.
    + destruct (F2 d Hd) as (j & l & k & Hj & R). exists j, l, k. split; [lia|exact R].
Qed.

Lemma two_names base : NoDup [("__" ++ base ++ "_ret_val_holder")%string; ("__" ++ base ++ "_storage")%string] /\
  Forall (sbelow base) [("__" ++ base ++ "_ret_val_holder")%string; ("__" ++ base ++ "_storage")%string].
Proof.
  split.
  - constructor; [|constructor; [intros []|constructor]]. intros [E|[]].
    apply sapp_inv_head in E. apply sapp_inv_head in E. discriminate.
  - constructor; [|constructor; [|constructor]]; [exists [], "_ret_val_holder"|exists [], "_storage"]; split; cbn; auto.
Qed.
Lemma three_names base : let l := [("__" ++ base ++ "_crubit_return_union")%string; ("__" ++ base ++ "_ret_val_holder")%string; ("__" ++ base ++ "_storage")%string] in
  NoDup l /\ Forall (sbelow base) l.
Proof.
  destruct (two_names base) as [N F]. split.
  - constructor; [|exact N]. intros [E|[E|[]]]; apply sapp_inv_head in E; apply sapp_inv_head in E; discriminate.
  - constructor; [|exact F]. exists [], "_crubit_return_union". cbn. auto.
Qed.

Lemma storage_names_good t : snames_good t.
Proof.
  assert (ONE : forall base, NoDup [("__" ++ base ++ "_storage")%string] /\ Forall (sbelow base) [("__" ++ base ++ "_storage")%string]).
  { intros base. split; [constructor; [intros []|constructor]|]. constructor; [|constructor]. exists [], "_storage". cbn. auto. }
  induction t as [| | | |ts IH|t IH|a|a t IH] using ty_ind'; intros base.
  - exact (two_names base).
  - exact (two_names base).
  - cbn [storage_names is_bridged adt_of]. destruct (by_value cfg Char); exact (two_names base).
  - cbn [storage_names is_bridged adt_of]. destruct (by_value cfg Fat); exact (two_names base).
  - destruct ts as [|t0 ts]; [exact (two_names base)|]. destruct (layout_compat_tuple cfg) eqn:L.
    + cbn [storage_names is_bridged adt_of by_value]. rewrite L. exact (two_names base).
    + rewrite storage_names_tuple by exact L. destruct (selements_names _ IH base 0) as [N F]. rewrite Forall_forall in F. split.
      * apply NoDup_app_intro'; [exact N|apply ONE|]. intros d Hd [<-|[]]. destruct (F _ Hd) as (j & l & k & _ & K & E).
        rewrite sapp_nil_sfx in E. apply sname_inj in E; [destruct E; discriminate|cbn; auto|exact K].
      * apply Forall_app. split; [|apply ONE]. apply Forall_forall. intros d Hd. destruct (F _ Hd) as (j & l & k & _ & K & E).
        exists (j :: l), k. auto.
  - exact (two_names base).
  - cbn [storage_names]. destruct (is_bridged (Adt a)) as [[b|b|]|].
    1,2: destruct (needs_drop (Adt a)); [exact (two_names base)|exact (three_names base)].
    + apply ONE.
    + destruct (by_value cfg (Adt a)); exact (two_names base).
  - cbn [storage_names]. destruct (is_bridged (Newtype a t)) as [[b|b|]|].
    1,2: destruct (needs_drop (Newtype a t)); [exact (two_names base)|exact (three_names base)].
    + apply ONE.
    + destruct (by_value cfg (Newtype a t)); exact (two_names base).
Qed.

Lemma return_names_good t : NoDup (return_names cfg t) /\ Forall (fun d => exists s, d = String "_" (String "_" (String "r" s))) (return_names cfg t).
Proof.
  unfold return_names. destruct (call_return cfg t) as [[?|] ?]; [split; constructor|].
  destruct (storage_names_good t "return_value") as [N F]. split; [exact N|].
  eapply Forall_impl; [|exact F]. intros d (l & k & _ & ->). cbn. eauto.
Qed.
End Stor.

(** * All names in the wrapper *)
Lemma path_text_second p : wfp p -> p <> [] -> exists c s, path_text p = String "_" (String c s) /\ c <> "_"%char /\ c <> "r"%char.
Proof.
  intros (l & o & -> & T) N. rewrite path_text_wfp. destruct l as [|i l].
  - destruct o as [[| | | |]|]; try discriminate T; [..|contradiction]; cbn; eexists _, _; (split; [reflexivity|]); split; discriminate.
  - cbn [etext]. destruct (number_digits i) as [D Ne]. destruct (number i) as [|c s]; [contradiction|]. cbn. eexists c, _. split; [reflexivity|].
    cbn in D. split; intros ->; cbn in D; discriminate.
Qed.

Definition starts (pre s : string) : Prop := exists r, s = (pre ++ r)%string.

Lemma sapp_cases (a : string) : forall b c d, (a ++ b = c ++ d)%string -> (exists u, c = (a ++ u)%string /\ b = (u ++ d)%string) \/ (exists u, a = (c ++ u)%string /\ d = (u ++ b)%string).
Proof.
  induction a as [|x a IH]; intros b c d E; [left; exists c; auto|].
  destruct c as [|y c]; [right; exists (String x a); auto|]. cbn in E. injection E as -> E.
  destruct (IH b c d E) as [(u & -> & ->)|(u & -> & ->)]; [left|right]; exists u; auto.
Qed.

Section All.
Variable params : nat -> string.
Variable n : nat.
Hypothesis distinct : forall i j, i < n -> j < n -> params i = params j -> i = j.
Hypothesis no_suffix : forall i j, i < n -> j < n -> ~ starts (params i ++ "_") (params j).
Hypothesis not_ret : forall i, i < n -> ~ starts "__r" (params i).

Lemma text_inj d d' : fst d < n -> fst d' < n -> wfp (snd d) -> wfp (snd d') -> text params d = text params d' -> d = d'.
Proof.
  assert (X : forall i j p q u, i < n -> j < n -> wfp p -> wfp q ->
    params j = (params i ++ u)%string -> path_text p = (u ++ path_text q)%string -> (i, p) = (j, q)).
  { intros i j p q u Hi Hj Wp Wq Ej Ep. destruct u as [|c u].
    - rewrite sapp_nil in Ej. apply distinct in Ej; auto. subst j. f_equal. apply path_text_inj; auto.
    - exfalso. destruct p as [|s p]; [discriminate Ep|].
      destruct (path_text_first (s :: p) Wp ltac:(discriminate)) as [r Er]. rewrite Er in Ep. cbn in Ep. injection Ep as <- _.
      apply (no_suffix i j Hi Hj). exists u. rewrite Ej, sapp_assoc. reflexivity. }
  destruct d as [i p], d' as [j q]. unfold text. cbn. intros Hi Hj Wp Wq E.
  destruct (sapp_cases _ _ _ _ E) as [(u & E1 & E2)|(u & E1 & E2)].
  - eapply X; eauto.
  - symmetry. eapply X; eauto.
Qed.

Lemma text_not_ret d s : fst d < n -> wfp (snd d) -> text params d = String "_" (String "_" (String "r" s)) -> False.
Proof.
  destruct d as [i p]. unfold text. cbn. intros Hi W E. pose proof (not_ret i Hi) as NR.
  destruct p as [|sg p].
  - cbn in E. rewrite sapp_nil in E. apply NR. exists s. rewrite E. reflexivity.
  - destruct (path_text_second (sg :: p) W ltac:(discriminate)) as (c & r & Ep & C1 & C2). rewrite Ep in E.
    destruct (params i) as [|a [|b [|c3 r3]]]; cbn in E.
    + injection E. intros. congruence.
    + injection E. intros. congruence.
    + injection E. intros. congruence.
    + injection E as -> -> -> _. apply NR. exists r3. reflexivity.
Qed.
End All.
