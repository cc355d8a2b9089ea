(** Creation of lifetimes: places in order. *)
From Coq Require Import List NArith ZArith Ascii String Bool Lia.
From Verif.Lifetimes Require Import Model.
From Verif.FnLifetimes Require Import Model.
From Verif.LifetimeDecl Require Import Model Spec Proofs.
Import ListNotations.
Local Open Scope N_scope.
Local Open Scope list_scope.

Scheme ty_ind4 := Induction for ty Sort Prop with oty_ind4 := Induction for oty Sort Prop
  with tys_ind4 := Induction for tys Sort Prop with fty_ind4 := Induction for fty Sort Prop.
Combined Scheme ty_all from ty_ind4, oty_ind4, tys_ind4, fty_ind4.
Scheme anv_ind3 := Minimality for AnnotatedV Sort Prop with ana_ind3 := Minimality for AnnotatedA Sort Prop
  with anf_ind3 := Minimality for AnnotatedF Sort Prop.
Combined Scheme an_all from anv_ind3, ana_ind3, anf_ind3.

Lemma attribute_written an : attribute_lifetimes an = match written an with Some ns => Ok ns | None => Err Other end.
Proof. now destruct an as [|ns [|? ?]]. Qed.
Lemma is_fun_spec t : reflect (as_fun t) (is_fun t).
Proof. destruct t; constructor; try (intros (x & y & E); discriminate). now exists an, f. Qed.

Section Source.
  Context {S : Type} (fac : option text -> S -> result (lifetime * S)).

  Lemma supply_app a b st : supply fac (a ++ b) st =
    match supply fac a st with
    | Err e => Err e
    | Ok (l, st1) => match supply fac b st1 with Err e => Err e | Ok (l', st2) => Ok (l ++ l', st2) end
    end.
  Proof.
    revert st. induction a as [|n a IH]; intro st; cbn [supply app].
    - now destruct (supply fac b st) as [[l s]|].
    - destruct (fac n st) as [[l s]|]; [|reflexivity]. rewrite IH. destruct (supply fac a s) as [[l1 s1]|]; [|reflexivity].
      now destruct (supply fac b s1) as [[l2 s2]|].
  Qed.
  Lemma create_lps_supply : forall ps ns st,
    match supply fac (padded (List.length ps) ns) st with
    | Err e => create_lps fac ps ns st = Err e
    | Ok (ls, st') => exists lps : list (bool * lifetime), create_lps fac ps ns st = Ok (lps, st') /\ map fst lps = ps /\ map snd lps = ls
    end.
  Proof.
    induction ps as [|b ps IH]; intros ns st; cbn [List.length padded supply create_lps].
    - now exists [].
    - destruct ns as [|n ns]; cbn [hd_error tl].
      + destruct (fac None st) as [[l s]|]; [|reflexivity]. specialize (IH [] s). destruct (supply fac (padded (List.length ps) []) s) as [[ls s']|].
        * destruct IH as (lps & -> & A & B). exists ((b, l) :: lps). cbn. rewrite A, B. auto.
        * now rewrite IH.
      + destruct (fac (Some n) st) as [[l s]|]; [|reflexivity]. specialize (IH ns s). destruct (supply fac (padded (List.length ps) ns) s) as [[ls s']|].
        * destruct IH as (lps & -> & A & B). exists ((b, l) :: lps). cbn. rewrite A, B. auto.
        * now rewrite IH.
  Qed.


  Lemma cv_plain q an st : create_v fac (TPlain q an) st =
    match attribute_lifetimes an with Err e => Err e | Ok [] => Ok (VPlain q, st) | Ok (_ :: _) => Err Other end.
  Proof. reflexivity. Qed.
  Lemma cv_ptr q an t st : create_v fac (TPtr q an t) st =
    match attribute_lifetimes an with
    | Err e => Err e
    | Ok names =>
        if is_fun t && negb (Nat.eqb (List.length names) 0) then Err Other
        else match create_v fac t st with
             | Err e => Err e
             | Ok (v, st1) =>
                 if is_fun t then Ok (VPtr q Static v, st1)
                 else if Nat.ltb 1 (List.length names) then Err Other
                 else match fac (match names with n :: _ => Some n | [] => None end) st1 with
                      | Err e => Err e
                      | Ok (l, st2) => Ok (VPtr q l v, st2)
                      end
             end
    end.
  Proof. reflexivity. Qed.
  Lemma cv_rec q ps ta an st : create_v fac (TRec q ps ta an) st =
    match attribute_lifetimes an with
    | Err e => Err e
    | Ok names =>
        if bad_arity ps names then Err Other
        else match create_lps fac ps names st with
             | Err e => Err e
             | Ok (lps, st1) =>
                 match create_args fac ta st1 with
                 | Err e => Err e
                 | Ok (a, st2) => match ps, names with [], _ :: _ => Err Other | _, _ => Ok (VRec q a lps, st2) end
                 end
             end
    end.
  Proof. reflexivity. Qed.
  Lemma cv_fun an f st : create_v fac (TFun an f) st =
    match attribute_lifetimes an with
    | Err e => Err e
    | Ok _ => match create_f fac f st with Err e => Err e | Ok (g, st1) => Ok (VFun g, st1) end
    end.
  Proof. reflexivity. Qed.
  Lemma co_some t st : create_o fac (TSome t) st = match create_v fac t st with Err e => Err e | Ok (v, st1) => Ok (OSome v, st1) end.
  Proof. reflexivity. Qed.
  Lemma co_none st : create_o fac TNone st = Ok (ONone, st).
  Proof. reflexivity. Qed.
  Lemma ca_cons o r st : create_args fac (TCons o r) st =
    match create_o fac o st with
    | Err e => Err e
    | Ok (v, st1) => match create_args fac r st1 with Err e => Err e | Ok (vs, st2) => Ok (ACons v vs, st2) end
    end.
  Proof. reflexivity. Qed.
  Lemma cf_ft ps r st : create_f fac (FT ps r) st =
    match create_args fac ps st with
    | Err e => Err e
    | Ok (a, st1) => match create_v fac r st1 with Err e => Err e | Ok (v, st2) => Ok (FL a v ONone, st2) end
    end.
  Proof. reflexivity. Qed.
  Lemma sv_plain q an : slots_v (TPlain q an) = []. Proof. reflexivity. Qed.
  Lemma sv_fptr q an an' f : slots_v (TPtr q an (TFun an' f)) = slots_f f. Proof. reflexivity. Qed.
  Lemma sv_rec q ps ta an : slots_v (TRec q ps ta an) = padded (List.length ps) (names_of an) ++ slots_args ta. Proof. reflexivity. Qed.
  Lemma sv_fun an f : slots_v (TFun an f) = slots_f f. Proof. reflexivity. Qed.
  Lemma sa_some t r : slots_args (TCons (TSome t) r) = slots_v t ++ slots_args r. Proof. reflexivity. Qed.
  Lemma sa_none r : slots_args (TCons TNone r) = slots_args r. Proof. reflexivity. Qed.
  Lemma sf_ft ps r : slots_f (FT ps r) = slots_args ps ++ slots_v r. Proof. reflexivity. Qed.
  Ltac simp := rewrite ?cv_plain, ?cv_ptr, ?cv_rec, ?cv_fun, ?ca_cons, ?co_some, ?co_none, ?cf_ft,
    ?sv_plain, ?sv_fptr, ?sv_rec, ?sv_fun, ?sa_some, ?sa_none, ?sf_ft in *.

  Lemma create_annotated :
    (forall t st v st', create_v fac t st = Ok (v, st') -> AnnotatedV t) /\
    (forall o st v st', create_o fac o st = Ok (v, st') -> match o with TNone => True | TSome t => AnnotatedV t end) /\
    (forall a st v st', create_args fac a st = Ok (v, st') -> AnnotatedA a) /\
    (forall f st v st', create_f fac f st = Ok (v, st') -> AnnotatedF f).
  Proof.
    apply ty_all.
    - intros q an st v st' E. simp. rewrite attribute_written in E. destruct (written an) as [[|n ns]|] eqn:W; try discriminate. now apply an_plain.
    - intros q an t IH st v st' E. simp. rewrite attribute_written in E. destruct (written an) as [ns|] eqn:W; [|discriminate].
      destruct (is_fun_spec t) as [F|F]; cbn [andb] in E.
      + destruct ns; cbn in E; [|discriminate]. destruct (create_v fac t st) as [[v1 s1]|] eqn:E1; [|discriminate].
        destruct F as (an' & f & ->). apply an_fptr; [exact W|exact (IH _ _ _ E1)].
      + destruct (create_v fac t st) as [[v1 s1]|] eqn:E1; [|discriminate].
        destruct (Nat.ltb_spec 1 (List.length ns)) as [L|L]; [discriminate|]. apply (an_ptr q an t ns W L F (IH _ _ _ E1)).
    - intros q ps ta IH an st v st' E. simp. rewrite attribute_written in E. destruct (written an) as [ns|] eqn:W; [|discriminate].
      destruct (bad_arity ps ns) eqn:B; [discriminate|]. destruct (create_lps fac ps ns st) as [[lps s1]|]; [|discriminate].
      destruct (create_args fac ta s1) as [[a s2]|] eqn:E1; [|discriminate]. apply (an_rec q ps ta an ns W); [|exact (IH _ _ _ E1)].
      destruct ns as [|n ns]; [auto|]. destruct ps as [|p ps]; [discriminate E|]. right. unfold bad_arity in B.
      apply Bool.negb_false_iff in B. now apply Nat.eqb_eq in B.
    - intros an f IH st v st' E. simp. rewrite attribute_written in E. destruct (written an) as [ns|] eqn:W; [|discriminate].
      destruct (create_f fac f st) as [[g s1]|] eqn:E1; [|discriminate]. apply (an_fun an ns f W (IH _ _ _ E1)).
    - auto.
    - intros t IH st v st' E. simp. destruct (create_v fac t st) as [[v1 s1]|] eqn:E1; [|discriminate]. exact (IH _ _ _ E1).
    - intros. apply an_nil.
    - intros o IHo r IHr st v st' E. simp. destruct (create_o fac o st) as [[v1 s1]|] eqn:E1; [|discriminate].
      destruct (create_args fac r s1) as [[v2 s2]|] eqn:E2; [|discriminate]. apply IHo in E1. apply IHr in E2. destruct o; [now apply an_none|now apply an_some].
    - intros ps IHp r IHr st v st' E. simp. destruct (create_args fac ps st) as [[v1 s1]|] eqn:E1; [|discriminate].
      destruct (create_v fac r s1) as [[v2 s2]|] eqn:E2; [|discriminate]. apply IHp in E1. apply IHr in E2. now apply an_ft.
  Qed.

  Definition agrees {V} (r : result (V * S)) (s : result (list lifetime * S)) (fits : V -> list lifetime -> Prop) : Prop :=
    match s with Err e => r = Err e | Ok (ls, st') => exists v, r = Ok (v, st') /\ fits v ls end.

  Lemma create_supply :
    (forall t, AnnotatedV t -> forall st, agrees (create_v fac t st) (supply fac (slots_v t) st) (Fits t)) /\
    (forall a, AnnotatedA a -> forall st, agrees (create_args fac a st) (supply fac (slots_args a) st) (Fits_args a)) /\
    (forall f, AnnotatedF f -> forall st, agrees (create_f fac f st) (supply fac (slots_f f) st) (Fits_f f)).
  Proof.
    apply an_all; unfold agrees.
    - intros q an W st. simp; cbn [supply]. rewrite attribute_written, W. exists (VPlain q). split; [reflexivity|apply fits_plain].
    - intros q an t ns W L F _ IH st. assert (E : slots_v (TPtr q an t) = slots_v t ++ [first_name an]) by (destruct t; try reflexivity; exfalso; apply F; now exists an0, f).
      rewrite E, supply_app. simp. rewrite attribute_written, W. destruct (is_fun_spec t) as [F'|_]; [contradiction|]. cbn [andb].
      specialize (IH st). destruct (supply fac (slots_v t) st) as [[ls s]|]; [|now rewrite IH]. destruct IH as (v & -> & Fv).
      destruct (Nat.ltb_spec 1 (List.length ns)) as [L'|_]; [lia|]. cbn [supply]. unfold first_name, names_of. rewrite W.
      destruct ns as [|n ns]; cbn [hd_error].
      + destruct (fac None s) as [[l s']|]; [|reflexivity]. exists (VPtr q l v). split; [reflexivity|now apply fits_ptr].
      + destruct (fac (Some n) s) as [[l s']|]; [|reflexivity]. exists (VPtr q l v). split; [reflexivity|now apply fits_ptr].
    - intros q an an' f W _ IH st. specialize (IH st). simp. rewrite attribute_written, W. cbn [is_fun List.length Nat.eqb negb andb].
      destruct (supply fac (slots_f f) st) as [[ls s]|]; [|now rewrite IH]. destruct IH as (v & -> & Fv). exists (VPtr q Static v). split; [reflexivity|].
      inversion Fv; subst. now apply fits_fptr.
    - intros q ps ta an ns W L _ IH st. simp. rewrite attribute_written, W, supply_app. unfold names_of. rewrite W.
      assert (B : bad_arity ps ns = false). { destruct ps; [reflexivity|]. destruct ns; [reflexivity|]. destruct L as [L|L]; [discriminate|]. unfold bad_arity. now rewrite L, Nat.eqb_refl. }
      rewrite B. pose proof (create_lps_supply ps ns st) as C. destruct (supply fac (padded (List.length ps) ns) st) as [[ls s]|]; [|now rewrite C].
      destruct C as (lps & -> & A1 & A2). specialize (IH s). destruct (supply fac (slots_args ta) s) as [[ls' s']|]; [|now rewrite IH].
      destruct IH as (a & -> & Fa). exists (VRec q a lps). split.
      + destruct ps; [|reflexivity]. destruct ns; [reflexivity|]. destruct L as [L|L]; discriminate L.
      + rewrite <- A2. now apply fits_rec.
    - intros an ns f W _ IH st. specialize (IH st). simp. rewrite attribute_written, W.
      destruct (supply fac (slots_f f) st) as [[ls s]|]; [|now rewrite IH]. destruct IH as (g & -> & Fg). exists (VFun g). split; [reflexivity|now apply fits_fun].
    - intros st. exists ANil. split; [reflexivity|apply fits_nil].
    - intros r _ IH st. specialize (IH st). simp; cbn [app].
      destruct (supply fac (slots_args r) st) as [[ls s]|]; [|now rewrite IH]. destruct IH as (a & -> & Fa). exists (ACons ONone a). split; [reflexivity|].
      apply (fits_cons TNone ONone [] r a ls fits_none Fa).
    - intros t r _ IHt _ IHr st. specialize (IHt st). simp. rewrite supply_app.
      destruct (supply fac (slots_v t) st) as [[ls s]|]; [|now rewrite IHt]. destruct IHt as (v & -> & Fv). specialize (IHr s).
      destruct (supply fac (slots_args r) s) as [[ls' s']|]; [|now rewrite IHr]. destruct IHr as (a & -> & Fa). exists (ACons (OSome v) a). split; [reflexivity|].
      apply fits_cons; [now apply fits_some|exact Fa].
    - intros ps r _ IHp _ IHr st. specialize (IHp st). simp. rewrite supply_app.
      destruct (supply fac (slots_args ps) st) as [[ls s]|]; [|now rewrite IHp]. destruct IHp as (a & -> & Fa). specialize (IHr s).
      destruct (supply fac (slots_v r) s) as [[ls' s']|]; [|now rewrite IHr]. destruct IHr as (v & -> & Fv). exists (FL a v ONone). split; [reflexivity|].
      now apply fits_ft.
  Qed.

  (** [this] *)
  Definition this_slots_for (named : bool) (d : decl) : list (option text) :=
    match d_this d with None => [] | Some t => slots_v t ++ [if named then first_name (d_this_an d) else None] end.
  Definition this_ok (d : decl) : Prop :=
    exists ns, written (d_this_an d) = Some ns /\
      match d_this d with None => ns = [] | Some t => (List.length ns <= 1)%nat /\ AnnotatedV t end.
  Lemma create_this_annotated named d st v st' : create_this fac named d st = Ok (v, st') -> this_ok d.
  Proof.
    unfold create_this, this_ok. rewrite attribute_written. destruct (written (d_this_an d)) as [ns|]; [|discriminate]. intro E. exists ns. split; [reflexivity|].
    destruct (d_this d) as [t|].
    - destruct (Nat.ltb_spec 1 (List.length ns)) as [L|L]; [discriminate|]. split; [exact L|].
      destruct (create_v fac t st) as [[v1 s1]|] eqn:E1; [|discriminate]. exact (proj1 create_annotated _ _ _ _ E1).
    - destruct ns; [reflexivity|discriminate].
  Qed.
  Lemma create_this_supply named d st : this_ok d ->
    agrees (create_this fac named d st) (supply fac (this_slots_for named d) st) (FitsThis (d_this d)).
  Proof.
    intros (ns & W & H). unfold agrees, create_this, this_slots_for. rewrite attribute_written, W. destruct (d_this d) as [t|].
    - destruct H as (L & A). destruct (Nat.ltb_spec 1 (List.length ns)) as [L'|_]; [lia|]. rewrite supply_app.
      pose proof (proj1 create_supply t A st) as IH. unfold agrees in IH. destruct (supply fac (slots_v t) st) as [[ls s]|]; [|now rewrite IH].
      destruct IH as (v & -> & Fv). cbn [supply].
      assert (E : (if named then match ns with n :: _ => Some n | [] => None end else None) = (if named then first_name (d_this_an d) else None)).
      { unfold first_name, names_of. rewrite W. now destruct ns. }
      rewrite E. destruct (fac (if named then first_name (d_this_an d) else None) s) as [[l s']|]; [|reflexivity].
      exists (OSome (VPtr false l v)). split; [reflexivity|now apply ft_some].
    - subst ns. cbn [supply]. exists ONone. split; [reflexivity|apply ft_none].
  Qed.
End Source.

Lemma create_decl_annotated {S} (fac : option text -> S -> _) named ret d st f st' : create_decl fac named ret d st = Ok (f, st') -> AnnotatedD d.
Proof.
  unfold create_decl. destruct (create_this fac named d st) as [[th s1]|] eqn:E1; [|discriminate].
  destruct (create_args fac (d_params d) s1) as [[ps s2]|] eqn:E2; [|discriminate].
  destruct (create_v (ret th ps) (d_return d) s2) as [[r s3]|] eqn:E3; [|discriminate]. intros _. split; [exact (create_this_annotated fac named d st th s1 E1)|].
  split; [exact (proj1 (proj2 (proj2 (create_annotated fac))) _ _ _ _ E2)|exact (proj1 (create_annotated (ret th ps)) _ _ _ _ E3)].
Qed.
