(** Declarations; annotation strings. *)
From Coq Require Import List NArith ZArith Ascii String Bool Lia.
From Verif.Lifetimes Require Import Model.
From Verif.FnLifetimes Require Import Model.
From Verif.LifetimeDecl Require Import Model Spec Proofs Proofs2 Proofs3.
Import ListNotations.
Local Open Scope N_scope.
Local Open Scope list_scope.

Lemma create_decl_supply {S} (fac : option text -> S -> result (lifetime * S)) named ret d st : AnnotatedD d ->
  match supply fac (this_slots_for named d) st with
  | Err e => create_decl fac named ret d st = Err e
  | Ok (la, s1) => exists th, FitsThis (d_this d) th la /\
      match supply fac (slots_args (d_params d)) s1 with
      | Err e => create_decl fac named ret d st = Err e
      | Ok (lb, s2) => exists ps, Fits_args (d_params d) ps lb /\
          match supply (ret th ps) (slots_v (d_return d)) s2 with
          | Err e => create_decl fac named ret d st = Err e
          | Ok (lc, s3) => exists r, Fits (d_return d) r lc /\ create_decl fac named ret d st = Ok (FL ps r th, s3)
          end
      end
  end.
Proof.
  intros (A & B & C). unfold create_decl. pose proof (create_this_supply fac named d st A) as H. unfold agrees in H.
  destruct (supply fac (this_slots_for named d) st) as [[la s1]|]; [|now rewrite H]. destruct H as (th & -> & F1). exists th. split; [exact F1|].
  pose proof (proj1 (proj2 (create_supply fac)) _ B s1) as H. unfold agrees in H.
  destruct (supply fac (slots_args (d_params d)) s1) as [[lb s2]|]; [|now rewrite H]. destruct H as (ps & -> & F2). exists ps. split; [exact F2|].
  pose proof (proj1 (create_supply (ret th ps)) _ C s2) as H. unfold agrees in H.
  destruct (supply (ret th ps) (slots_v (d_return d)) s2) as [[lc s3]|]; [|now rewrite H]. destruct H as (r & -> & F3). exists r. split; [exact F3|reflexivity].
Qed.

Lemma supply_length {S} (fac : option text -> S -> result (lifetime * S)) : forall slots st ls st', supply fac slots st = Ok (ls, st') -> List.length ls = List.length slots.
Proof.
  induction slots as [|n slots IH]; intros st ls st' E; cbn [supply] in E; [injection E as <- <-; reflexivity|].
  destruct (fac n st) as [[l s]|]; [|discriminate]. destruct (supply fac slots s) as [[ls1 s1]|] eqn:E1; [|discriminate]. injection E as <- <-.
  cbn [List.length]. f_equal. exact (IH _ _ _ E1).
Qed.

(** ** Strings *)
Lemma separator_spec t : reflect (is_separator t) (separator t).
Proof.
  unfold separator, is_separator. destruct (existsb (text_eqb t) _) eqn:E; constructor.
  - apply existsb_exists in E. destruct E as (x & I & E). destruct (text_eqb_spec t x) as [->|]; [exact I|discriminate].
  - intro I. apply Bool.not_true_iff_false in E. apply E, existsb_exists. exists t. split; [exact I|apply text_eqb_refl].
Qed.
Lemma skip_names ts ns : Names ts ns -> match ns with [] => skip ts = None | n :: ns' => exists r, skip ts = Some (n, r) /\ Names r ns' end.
Proof.
  induction 1 as [|t ts ns S N IH|t ts ns S N IH]; cbn [skip]; [reflexivity| |].
  - destruct (separator_spec t); [exact IH|contradiction].
  - destruct (separator_spec t); [contradiction|]. now exists ts.
Qed.
Lemma names_total ts : exists ns, Names ts ns.
Proof.
  induction ts as [|t ts (ns & N)]; [exists []; constructor|]. destruct (separator_spec t) as [S|S]; [exists ns; now apply nm_sep|exists (t :: ns); now apply nm_name].
Qed.
Lemma names_det ts ns ns' : Names ts ns -> Names ts ns' -> ns = ns'.
Proof.
  intro N. revert ns'. induction N as [|t ts ns S N IH|t ts ns S N IH]; intros ns' M; inversion M; subst; try contradiction; auto. f_equal. auto.
Qed.

Lemma lifetime_for_spec n t c l t' c' : lifetime_for n t c = (l, t', c') -> lookup_name t' n = Some l /\ extends [n] t c t' c'.
Proof.
  intro E. pose proof (lifetime_for_keeps t c n l t' c') as K. unfold lifetime_for in E. destruct (text_eqb_spec n static_name) as [->|N].
  { injection E as <- <- <-. split; [reflexivity|]. split; [auto|]. split; [auto|lia]. }
  destruct (find_name n (n2l t)) as [x|] eqn:F.
  { injection E as <- <- <-. split; [unfold lookup_name; destruct (text_eqb_spec n static_name); [contradiction|exact F]|]. split; [auto|]. split; [auto|lia]. }
  injection E as <- <- <-. split.
  { unfold lookup_name. destruct (text_eqb_spec n static_name); [contradiction|]. cbn [n2l find_name]. now rewrite text_eqb_refl. }
  split; [|split; [|lia]].
  - intros m x. apply K. unfold lifetime_for. destruct (text_eqb_spec n static_name); [contradiction|]. now rewrite F.
  - intros m x. unfold lookup_name. cbn [n2l find_name]. destruct (text_eqb m static_name); [auto|]. destruct (text_eqb_spec m n) as [->|_]; [|auto].
    intro E. injection E as <-. right. split; [now left|lia].
Qed.
Lemma extends_refl t c : extends [] t c t c.
Proof. split; [auto|]. split; [auto|lia]. Qed.
Lemma extends_trans ns ms t c t1 c1 t2 c2 : extends ns t c t1 c1 -> extends ms t1 c1 t2 c2 -> extends (ns ++ ms) t c t2 c2.
Proof.
  intros (A & B & C) (A' & B' & C'). split; [auto|]. split; [|lia]. intros n l L. destruct (B' n l L) as [H|(I & H)].
  - destruct (B n l H) as [?|(I & ?)]; [auto|]. right. split; [apply in_or_app; auto|lia].
  - right. split; [apply in_or_app; auto|lia].
Qed.

Definition bound (ns : list text) (ls : list lifetime) t c t' c' : Prop :=
  Forall2 (fun n l => lookup_name t' n = Some l) ns ls /\ extends ns t c t' c' /\ (uses t c -> uses t' c') /\
  (Forall (fun n => lookup_name t n <> None) ns -> t' = t /\ c' = c).
Lemma forall2_imp {A B} (P Q : A -> B -> Prop) l m : (forall a b, P a b -> Q a b) -> Forall2 P l m -> Forall2 Q l m.
Proof. induction 2; constructor; auto. Qed.
Lemma bound_app ns ls t c t1 c1 ms ls' t2 c2 : bound ns ls t c t1 c1 -> bound ms ls' t1 c1 t2 c2 -> bound (ns ++ ms) (ls ++ ls') t c t2 c2.
Proof.
  intros (A & B & C & D) (A' & B' & C' & D'). split; [|split; [exact (extends_trans _ _ _ _ _ _ _ _ B B')|split; [auto|]]].
  2:{ intro F. apply Forall_app in F. destruct F as (F & F'). destruct (D F) as (-> & ->). exact (D' F'). }
  apply Forall2_app; [|exact A']. apply (forall2_imp (fun n l => lookup_name t1 n = Some l)); [|exact A]. intros a b. apply B'.
Qed.

Lemma supply_string : forall slots ts ns t c, Names ts ns ->
  if Nat.leb (List.length slots) (List.length ns)
  then exists ls ts' t' c', supply string_factory slots (PState ts t c) = Ok (ls, PState ts' t' c') /\
       Names ts' (skipn (List.length slots) ns) /\ bound (firstn (List.length slots) ns) ls t c t' c'
  else supply string_factory slots (PState ts t c) = Err Other.
Proof.
  induction slots as [|o slots IH]; intros ts ns t c N; cbn [List.length supply].
  - cbn [Nat.leb skipn firstn]. exists [], ts, t, c. split; [reflexivity|]. split; [exact N|]. split; [constructor|]. split; [apply extends_refl|]. split; auto.
  - pose proof (skip_names ts ns N) as K. unfold string_factory at 1 3. cbn [toks ptab pcounter]. destruct ns as [|n ns].
    + cbn [List.length Nat.leb]. now rewrite K.
    + destruct K as (r & -> & N'). cbn [List.length Nat.leb skipn firstn]. destruct (lifetime_for n t c) as [[l t1] c1] eqn:E.
      specialize (IH r ns t1 c1 N'). destruct (Nat.leb (List.length slots) (List.length ns)).
      * destruct IH as (ls & ts' & t' & c' & -> & A & B). exists (l :: ls), ts', t', c'. split; [reflexivity|]. split; [exact A|].
        change (n :: firstn (List.length slots) ns) with ([n] ++ firstn (List.length slots) ns). change (l :: ls) with ([l] ++ ls).
        apply (bound_app _ _ _ _ t1 c1); [|exact B]. destruct (lifetime_for_spec _ _ _ _ _ _ E) as (L & X). split; [constructor; [exact L|constructor]|].
        split; [exact X|]. split; [intro U; apply (u_name t c n l t1 c1 U E)|].
        intro F. inversion F as [|? ? F1 _]; subst. unfold lifetime_for, lookup_name in *. destruct (text_eqb n static_name); [injection E as _ <- <-; auto|].
        destruct (find_name n (n2l t)); [injection E as _ <- <-; auto|congruence].
      * now rewrite IH.
Qed.

Lemma all_slots_length d : List.length (this_slots_for false d ++ slots_args (d_params d) ++ slots_v (d_return d)) = List.length (all_slots d).
Proof. unfold all_slots, this_slots, this_slots_for. rewrite !app_length. destruct (d_this d); [rewrite !app_length; reflexivity|reflexivity]. Qed.

Lemma parse_spec d s st ns : Names (lex [] s) ns ->
  (forall f st', parse d s st = Ok (f, st') -> AnnotatedD d /\ List.length ns = List.length (all_slots d)) /\
  (AnnotatedD d -> List.length ns = List.length (all_slots d) -> exists f la lb lc st',
     parse d s st = Ok (f, st') /\ FitsDecl d f la lb lc /\ bound ns (la ++ lb ++ lc) (tab st) (counter st) (tab st') (counter st')).
Proof.
  intro N. assert (H : AnnotatedD d ->
    if Nat.eqb (List.length ns) (List.length (all_slots d))
    then exists f la lb lc st', parse d s st = Ok (f, st') /\ FitsDecl d f la lb lc /\ bound ns (la ++ lb ++ lc) (tab st) (counter st) (tab st') (counter st')
    else parse d s st = Err Other).
  { intro A. rewrite <- all_slots_length, !app_length. unfold parse.
    pose proof (create_decl_supply string_factory false (fun _ _ => string_factory) d (PState (lex [] s) (tab st) (counter st)) A) as D.
    pose proof (supply_string (this_slots_for false d) (lex [] s) ns (tab st) (counter st) N) as S1.
    destruct (Nat.leb_spec (List.length (this_slots_for false d)) (List.length ns)) as [L1|L1].
    2:{ rewrite S1 in D. rewrite D. destruct (Nat.eqb_spec (List.length ns) (List.length (this_slots_for false d) + (List.length (slots_args (d_params d)) + List.length (slots_v (d_return d))))); [lia|reflexivity]. }
    destruct S1 as (la & ts1 & t1 & c1 & E1 & N1 & B1). rewrite E1 in D. destruct D as (th & F1 & D).
    pose proof (supply_string (slots_args (d_params d)) ts1 _ t1 c1 N1) as S2. rewrite skipn_length in S2.
    destruct (Nat.leb_spec (List.length (slots_args (d_params d))) (List.length ns - List.length (this_slots_for false d))) as [L2|L2].
    2:{ rewrite S2 in D. rewrite D. destruct (Nat.eqb_spec (List.length ns) (List.length (this_slots_for false d) + (List.length (slots_args (d_params d)) + List.length (slots_v (d_return d))))); [lia|reflexivity]. }
    destruct S2 as (lb & ts2 & t2 & c2 & E2 & N2 & B2). rewrite E2 in D. destruct D as (ps & F2 & D).
    pose proof (supply_string (slots_v (d_return d)) ts2 _ t2 c2 N2) as S3. rewrite !skipn_length in S3.
    destruct (Nat.leb_spec (List.length (slots_v (d_return d))) (List.length ns - List.length (this_slots_for false d) - List.length (slots_args (d_params d)))) as [L3|L3].
    2:{ rewrite S3 in D. rewrite D. destruct (Nat.eqb_spec (List.length ns) (List.length (this_slots_for false d) + (List.length (slots_args (d_params d)) + List.length (slots_v (d_return d))))); [lia|reflexivity]. }
    destruct S3 as (lc & ts3 & t3 & c3 & E3 & N3 & B3). rewrite E3 in D. destruct D as (r & F3 & D). rewrite D. cbn [toks ptab pcounter].
    remember (skipn (List.length (this_slots_for false d)) ns) as ns1 eqn:Q1. remember (skipn (List.length (slots_args (d_params d))) ns1) as ns2 eqn:Q2.
    remember (skipn (List.length (slots_v (d_return d))) ns2) as ns3 eqn:Q3.
    assert (L : List.length ns3 = (List.length ns - List.length (this_slots_for false d) - List.length (slots_args (d_params d)) - List.length (slots_v (d_return d)))%nat)
      by (subst; now rewrite !skipn_length).
    apply skip_names in N3. destruct (Nat.eqb_spec (List.length ns) (List.length (this_slots_for false d) + (List.length (slots_args (d_params d)) + List.length (slots_v (d_return d))))) as [E|E].
    - destruct ns3; [|cbn in L; lia]. rewrite N3. eexists _, la, lb, lc, (State t3 c3). split; [reflexivity|]. split; [split; [exact F1|split; [exact F2|exact F3]]|].
      cbn [tab counter]. assert (En : ns = firstn (List.length (this_slots_for false d)) ns ++ firstn (List.length (slots_args (d_params d))) ns1 ++ firstn (List.length (slots_v (d_return d))) ns2).
      { rewrite <- (firstn_skipn (List.length (this_slots_for false d)) ns) at 1. f_equal. rewrite <- Q1.
        rewrite <- (firstn_skipn (List.length (slots_args (d_params d))) ns1) at 1. f_equal. rewrite <- Q2.
        rewrite <- (firstn_skipn (List.length (slots_v (d_return d))) ns2) at 1. rewrite <- Q3. apply app_nil_r. }
      rewrite En. exact (bound_app _ _ _ _ _ _ _ _ _ _ B1 (bound_app _ _ _ _ _ _ _ _ _ _ B2 B3)).
    - destruct ns3 as [|n ns3]; [cbn in L; lia|]. destruct N3 as (r' & -> & _). reflexivity. }
  split.
  - intros f st' E. assert (A : AnnotatedD d).
    { unfold parse in E. destruct (create_decl string_factory false _ d _) as [[f1 ps]|] eqn:E1; [|discriminate]. exact (create_decl_annotated _ _ _ _ _ _ _ E1). }
    split; [exact A|]. specialize (H A). destruct (Nat.eqb_spec (List.length ns) (List.length (all_slots d))) as [|]; [assumption|congruence].
  - intros A L. specialize (H A). now rewrite L, Nat.eqb_refl in H.
Qed.
