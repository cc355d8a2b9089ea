(** Printed lifetimes read back. *)
From Coq Require Import List NArith ZArith Ascii String Bool Lia.
From Verif.Lifetimes Require Import Model.
From Verif.FnLifetimes Require Import Model.
From Verif.FnLifetimes Require Proofs.
From Verif.LifetimeDecl Require Import Model Spec Proofs Proofs3 Proofs4.
Import ListNotations.
Local Open Scope list_scope.

(** ** The lexer on texts that are put together *)
Definition ok_join (c d : ascii) : Prop := alnum c && alnum d = false /\ pair_tok c d = false.
Lemma lex_flush w b : match b with [] => True | d :: _ => alnum d = false end -> lex w b = flush w ++ lex [] b.
Proof. destruct b as [|d b]; intro H; cbn [lex flush app]; [now rewrite app_nil_r|]. now rewrite H. Qed.
Lemma lex_app_w : forall k a w b, (List.length a <= k)%nat -> a <> [] -> match b with [] => True | d :: _ => ok_join (last a " "%char) d end ->
  lex w (a ++ b) = lex w a ++ lex [] b.
Proof.
  induction k as [|k IH]; intros a w b L N H; [destruct a; [congruence|cbn in L; lia]|].
  destruct a as [|c a]; [congruence|]. destruct a as [|c2 a].
  - cbn [app last] in *. cbn [lex]. destruct (alnum c) eqn:A.
    + rewrite (lex_flush (c :: w) b); [reflexivity|]. destruct b as [|d b]; [exact Logic.I|]. destruct H as (H & _). now rewrite A in H.
    + destruct (blank c); [now rewrite app_nil_r|]. destruct b as [|d b].
      * now rewrite app_nil_r.
      * destruct H as (_ & ->). now rewrite <- app_assoc.
  - change (last (c :: c2 :: a) " "%char) with (last (c2 :: a) " "%char) in H. cbn [List.length] in L.
    change ((c :: c2 :: a) ++ b) with (c :: ((c2 :: a) ++ b)).
    change (lex w (c :: c2 :: a)) with (if alnum c then lex (c :: w) (c2 :: a) else flush w ++ (if blank c then lex [] (c2 :: a)
      else if pair_tok c c2 then [c; c2] :: lex [] a else [c] :: lex [] (c2 :: a))).
    change (lex w (c :: ((c2 :: a) ++ b))) with (if alnum c then lex (c :: w) ((c2 :: a) ++ b) else flush w ++ (if blank c then lex [] ((c2 :: a) ++ b)
      else if pair_tok c c2 then [c; c2] :: lex [] (a ++ b) else [c] :: lex [] ((c2 :: a) ++ b))).
    destruct (alnum c); [apply IH; [cbn [List.length]; lia|discriminate|exact H]|]. rewrite <- app_assoc. f_equal.
    destruct (blank c); [apply IH; [cbn [List.length]; lia|discriminate|exact H]|].
    destruct (pair_tok c c2).
    + cbn [app]. f_equal. destruct a as [|c3 a]; [reflexivity|]. apply IH; [cbn [List.length] in *; lia|discriminate|exact H].
    + cbn [app]. f_equal. apply (IH (c2 :: a)); [cbn [List.length]; lia|discriminate|exact H].
Qed.
Lemma lex_app a b : a = [] \/ match b with [] => True | d :: _ => ok_join (last a " "%char) d end -> lex [] (a ++ b) = lex [] a ++ lex [] b.
Proof. intros H. destruct a as [|c a]; [reflexivity|]. destruct H as [H|H]; [discriminate|]. apply (lex_app_w (List.length (c :: a))); [lia|discriminate|exact H]. Qed.
Lemma names_app ts ns ts' ns' : Names ts ns -> Names ts' ns' -> Names (ts ++ ts') (ns ++ ns').
Proof. induction 1; intro M; cbn [app]; [exact M|now apply nm_sep; auto|apply nm_name; auto]. Qed.
Lemma last_app (a s : text) d : s <> [] -> last (a ++ s) d = last s d.
Proof.
  intro N. induction a as [|c a IH]; [reflexivity|]. cbn [app]. destruct (a ++ s) as [|x y] eqn:E; [destruct a; [cbn in E; congruence|discriminate]|]. exact IH.
Qed.

Definition opens (b : bool) (c : ascii) : Prop := alnum c = true \/ c = "("%char \/ c = "["%char \/ (b = true /\ c = "<"%char) \/ c = "-"%char.
Definition closes (b : bool) (c : ascii) : Prop := alnum c = true \/ c = ")"%char \/ c = "]"%char \/ (b = true /\ c = ">"%char).
Record gives (b : bool) (s : text) (ns : list text) : Prop := {
  gi_open : exists c r, s = c :: r /\ opens b c;
  gi_close : closes b (last s " "%char);
  gi_names : Names (lex [] s) ns }.
Lemma gives_nonempty b s ns : gives b s ns -> s <> [].
Proof. intros [(c & r & -> & _) _ _]. discriminate. Qed.
Lemma gives_weak s ns b : gives false s ns -> gives b s ns.
Proof.
  intros [(c & r & E & O) C N]. split; [exists c, r; split; [exact E|]| |exact N].
  - destruct O as [O|[O|[O|[(O & _)|O]]]]; [left; exact O|right; left; exact O|right; right; left; exact O|discriminate|right; right; right; right; exact O].
  - destruct C as [C|[C|[C|(C & _)]]]; [left|right; left|right; right; left|discriminate]; exact C.
Qed.
Lemma alnum_pair c d : alnum c = true -> pair_tok c d = false.
Proof.
  intro A. unfold pair_tok. destruct (Ascii.eqb_spec c "-") as [->|_]; [discriminate|]. destruct (Ascii.eqb_spec c "<") as [->|_]; [discriminate|].
  destruct (Ascii.eqb_spec c ">") as [->|_]; [discriminate|]. destruct (Ascii.eqb_spec c ":") as [->|_]; [discriminate|]. reflexivity.
Qed.
Lemma pair_alnum c d : alnum d = true -> pair_tok c d = false.
Proof.
  intro A. unfold pair_tok. destruct (Ascii.eqb_spec d ">") as [->|_]; [discriminate|]. destruct (Ascii.eqb_spec d "<") as [->|_]; [discriminate|].
  destruct (Ascii.eqb_spec d ":") as [->|_]; [discriminate|]. now rewrite !Bool.andb_false_r.
Qed.
Lemma after_close b s ns g d : gives b s ns -> In d (T ", ):]") \/ (b = false /\ d = ">"%char) -> lex [] (s ++ d :: g) = lex [] s ++ lex [] (d :: g).
Proof.
  intros [_ C _] D. apply lex_app. right. unfold ok_join.
  assert (A : alnum d = false). { destruct D as [D|(_ & ->)]; [|reflexivity]. cbn in D. destruct D as [<-|[<-|[<-|[<-|[<-|[]]]]]]; reflexivity. }
  split; [rewrite A; apply Bool.andb_false_r|]. destruct C as [C|[->|[->|(-> & ->)]]]; [now apply alnum_pair|reflexivity|reflexivity|].
  destruct D as [D|(D & _)]; [|discriminate]. cbn in D. destruct D as [<-|[<-|[<-|[<-|[<-|[]]]]]]; reflexivity.
Qed.
Lemma before_open b s ns g c : gives b s ns -> In c (T " ([") \/ (b = false /\ c = "<"%char) -> lex [] ((g ++ [c]) ++ s) = lex [] (g ++ [c]) ++ lex [] s.
Proof.
  intros [(d & r & -> & O) _ _] D. apply lex_app. right. rewrite last_app by discriminate. cbn [last]. unfold ok_join.
  assert (A : alnum c = false). { destruct D as [D|(_ & ->)]; [|reflexivity]. cbn in D. destruct D as [<-|[<-|[<-|[]]]]; reflexivity. }
  split; [now rewrite A|]. destruct O as [O|[->|[->|[(-> & ->)| ->]]]].
  - now apply pair_alnum.
  - destruct D as [D|(_ & ->)]; [|reflexivity]. cbn in D. destruct D as [<-|[<-|[<-|[]]]]; reflexivity.
  - destruct D as [D|(_ & ->)]; [|reflexivity]. cbn in D. destruct D as [<-|[<-|[<-|[]]]]; reflexivity.
  - destruct D as [D|(D & _)]; [|discriminate]. cbn in D. destruct D as [<-|[<-|[<-|[]]]]; reflexivity.
  - destruct D as [D|(_ & ->)]; [|reflexivity]. cbn in D. destruct D as [<-|[<-|[<-|[]]]]; reflexivity.
Qed.
Lemma sep_names ts : Forall is_separator ts -> Names ts [].
Proof. induction 1; [constructor|now apply nm_sep]. Qed.
Ltac seps := apply sep_names; repeat constructor; unfold is_separator; cbn; tauto.

Lemma gives_glue b s ns g s' ns' : gives b s ns -> gives b s' ns' ->
  (exists d g', g = d :: g' /\ In d (T ", ):]")) -> (exists g', g = g' ++ [" "%char]) -> Names (lex [] g) [] -> gives b (s ++ g ++ s') (ns ++ ns').
Proof.
  intros G G' (d & g' & Eg & D) (g2 & Eg2) N. split.
  - destruct G as [(c & r & -> & O) _ _]. exists c, (r ++ g ++ s'). split; [reflexivity|exact O].
  - pose proof (gives_nonempty _ _ _ G') as N'. rewrite last_app; [|rewrite Eg; discriminate]. rewrite last_app; [apply G'|exact N'].
  - assert (E : lex [] (s ++ g ++ s') = lex [] s ++ lex [] (g ++ s')). { rewrite Eg. exact (after_close b s ns (g' ++ s') d G (or_introl D)). }
    rewrite E. apply names_app; [apply G|]. rewrite Eg2. rewrite (before_open b s' ns' g2 " "%char G') by (left; cbn; auto). rewrite <- Eg2.
    apply (names_app _ [] _ ns'); [exact N|apply G'].
Qed.
Lemma gives_comma b s ns s' ns' : gives b s ns -> gives b s' ns' -> gives b (s ++ T ", " ++ s') (ns ++ ns').
Proof.
  intros G G'. apply gives_glue; auto; [exists ","%char, [" "%char]; split; [reflexivity|cbn; auto]|now exists [","%char]|seps].
Qed.
Lemma gives_result b s ns s' ns' : gives b s ns -> gives b s' ns' -> gives b (s ++ T " " ++ T "-> " ++ s') (ns ++ ns').
Proof.
  intros G G'. apply (gives_glue b s ns (T " -> ") s' ns' G G'); [exists " "%char, (T "-> "); split; [reflexivity|cbn; auto]|now exists (T " ->")|seps].
Qed.
Lemma gives_result0 b s' ns' : gives b s' ns' -> gives b (T "-> " ++ s') ns'.
Proof.
  intros G'. split.
  - exists "-"%char, (T "> " ++ s'). split; [reflexivity|]. unfold opens. tauto.
  - rewrite last_app; [apply G'|apply (gives_nonempty _ _ _ G')].
  - change (T "-> ") with (T "->" ++ [" "%char]). rewrite (before_open b s' ns' (T "->") " "%char G') by (left; cbn; auto). apply (names_app _ [] _ ns'); [seps|apply G'].
Qed.
Lemma gives_wrap b b' s ns o c : gives b s ns -> (o = "("%char /\ c = ")"%char) \/ (o = "["%char /\ c = "]"%char) \/ (b = false /\ b' = true /\ o = "<"%char /\ c = ">"%char) ->
  gives b' ([o] ++ s ++ [c]) ns.
Proof.
  intros G H. split.
  - exists o, (s ++ [c]). split; [reflexivity|]. unfold opens. destruct H as [(-> & _)|[(-> & _)|(_ & -> & -> & _)]]; tauto.
  - rewrite app_assoc, last_app by discriminate. cbn [last]. unfold closes. destruct H as [(_ & ->)|[(_ & ->)|(_ & -> & _ & ->)]]; tauto.
  - rewrite app_assoc. assert (E : lex [] (([o] ++ s) ++ [c]) = lex [] ([o] ++ s) ++ lex [] [c]).
    { apply lex_app. right. rewrite last_app by apply (gives_nonempty _ _ _ G). pose proof (gi_close _ _ _ G) as C. unfold ok_join, closes in *.
      destruct H as [(_ & ->)|[(_ & ->)|(-> & _ & _ & ->)]].
      - split; [apply Bool.andb_false_r|]. destruct C as [C|[->|[->|(_ & ->)]]]; [now apply alnum_pair|reflexivity|reflexivity|reflexivity].
      - split; [apply Bool.andb_false_r|]. destruct C as [C|[->|[->|(_ & ->)]]]; [now apply alnum_pair|reflexivity|reflexivity|reflexivity].
      - split; [apply Bool.andb_false_r|]. destruct C as [C|[->|[->|(C & _)]]]; [now apply alnum_pair|reflexivity|reflexivity|discriminate]. }
    rewrite E. assert (E' : lex [] ([o] ++ s) = lex [] [o] ++ lex [] s).
    { change ([o] ++ s) with (([] ++ [o]) ++ s). apply (before_open b s ns [] o G). destruct H as [(-> & _)|[(-> & _)|(-> & _ & -> & _)]]; [left; cbn; auto|left; cbn; auto|right; auto]. }
    rewrite E'. rewrite <- (app_nil_r ns). apply names_app; [apply (names_app _ [] _ ns); [|apply G]|].
    + destruct H as [(-> & _)|[(-> & _)|(_ & _ & -> & _)]]; seps.
    + destruct H as [(_ & ->)|[(_ & ->)|(_ & _ & _ & ->)]]; seps.
Qed.
Lemma lex_word : forall n w, Forall name_char n -> lex w n = flush (rev n ++ w).
Proof.
  induction n as [|c n IH]; intros w F; [reflexivity|]. inversion F as [|? ? A F']; subst. cbn [lex]. unfold name_char in A. rewrite A, IH by exact F'.
  cbn [rev]. now rewrite <- app_assoc.
Qed.
Lemma gives_name b n : name_like n -> gives b n [n].
Proof.
  intros (N & F). destruct n as [|c n]; [congruence|]. split.
  - exists c, n. split; [reflexivity|]. left. now inversion F.
  - left. destruct (exists_last N) as (n' & d & E). rewrite E in F |- *. rewrite last_app by discriminate. apply Forall_app in F. destruct F as (_ & F). now inversion F.
  - rewrite lex_word by exact F. rewrite app_nil_r. unfold flush. destruct (rev (c :: n)) eqn:R; [apply (f_equal (@List.length ascii)) in R; rewrite rev_length in R; discriminate|].
    rewrite <- R, rev_involutive. apply nm_name; [|constructor]. inversion F as [|? ? A _]; subst. unfold name_char in A. intro S. unfold is_separator in S. cbn [In] in S.
    repeat (destruct S as [S|S]; [injection S as <- _; discriminate A|]). destruct S.
Qed.
Lemma gives_join b : forall ss nss, Forall2 (gives b) ss nss -> ss <> [] -> gives b (join_text (T ", ") ss) (List.concat nss).
Proof.
  induction 1 as [|s ns ss nss G F IH]; intro N; [congruence|]. destruct ss as [|s' ss].
  - inversion F; subst. cbn. now rewrite app_nil_r.
  - change (join_text (T ", ") (s :: s' :: ss)) with (s ++ T ", " ++ join_text (T ", ") (s' :: ss)). cbn [List.concat]. apply gives_comma; [exact G|apply IH; discriminate].
Qed.
(** Nothing, or a text with names. *)
Definition shows (b : bool) (s : text) (ns : list text) : Prop := (s = [] /\ ns = []) \/ gives b s ns.
Lemma shows_parens b s ns : shows b s ns -> gives b (parens s) ns.
Proof.
  intros [(-> & ->)|G].
  - split; [exists "("%char, [")"%char]; split; [reflexivity|unfold opens; tauto]|unfold closes; cbn; tauto|seps].
  - unfold parens. destruct ((has_delim s || match s with [] => true | _ :: _ => false end) && negb (wrapped s)); [|exact G]. apply (gives_wrap b b s ns "(" ")" G). auto.
Qed.
Lemma shows_filter b : forall ss nss, Forall2 (shows b) ss nss -> exists nss', Forall2 (gives b) (nonempty ss) nss' /\ List.concat nss' = List.concat nss.
Proof.
  induction 1 as [|s ns ss nss H F (nss' & A & B)]; [exists []; split; constructor|]. destruct H as [(-> & ->)|G].
  - exists nss'. split; [exact A|exact B].
  - exists (ns :: nss'). pose proof (gives_nonempty _ _ _ G) as N. cbn [nonempty filter]. destruct s; [congruence|]. split; [constructor; assumption|cbn; now rewrite B].
Qed.

(** ** Fits *)
Scheme fv_ind4 := Minimality for Fits Sort Prop with fo_ind4 := Minimality for Fits_o Sort Prop
  with fa_ind4 := Minimality for Fits_args Sort Prop with ff_ind4 := Minimality for Fits_f Sort Prop.
Combined Scheme fits_all from fv_ind4, fo_ind4, fa_ind4, ff_ind4.

Lemma no_lifetimes :
  (forall t v ls, Fits t v ls -> has_v (fun _ => true) v = false -> ls = []) /\
  (forall o v ls, Fits_o o v ls -> has_o (fun _ => true) v = false -> ls = []) /\
  (forall a v ls, Fits_args a v ls -> has_args (fun _ => true) v = false -> ls = []) /\
  (forall f v ls, Fits_f f v ls -> has_f (fun _ => true) v = false -> ls = []).
Proof.
  apply fits_all.
  - reflexivity.
  - intros q an t v l ls _ _ _ H. discriminate.
  - intros q an an' f g ls _ _ H. discriminate.
  - intros q ps ta an a lps ls E _ IH H. cbn [has_v] in H. apply Bool.orb_false_elim in H. destruct H as (H1 & H2). rewrite (IH H1). destruct lps as [|p lps]; [reflexivity|discriminate].
  - intros an f g ls _ IH H. exact (IH H).
  - reflexivity.
  - intros t v ls _ IH H. exact (IH H).
  - reflexivity.
  - intros o v ls r a ls' _ IHo _ IHr H. cbn [has_args] in H. apply Bool.orb_false_elim in H. destruct H as (H1 & H2). now rewrite (IHo H1), (IHr H2).
  - intros ps a ls r v ls' _ IHp _ IHr H. cbn [has_f has_o] in H. rewrite Bool.orb_false_r in H. apply Bool.orb_false_elim in H. destruct H as (H1 & H2). now rewrite (IHp H1), (IHr H2).
Qed.

Section Print.
  Variable fmt : lifetime -> text.
  Notation names ls := (map fmt ls).
  Notation proper ls := (Forall (fun l => name_like (fmt l)) ls).

  Lemma trivial_nothing :
    (forall t v ls, Fits t v ls -> trivial_v v -> print_v fmt v = [] /\ ls = []) /\
    (forall o v ls, Fits_o o v ls -> trivial_o v -> print_o fmt v = [] /\ ls = []) /\
    (forall a v ls, Fits_args a v ls -> trivial_args v -> nonempty (print_targs fmt v) = [] /\ ls = []) /\
    (forall f v ls, Fits_f f v ls -> True).
  Proof.
    apply fits_all.
    - auto.
    - intros q an t v l ls _ _ _ [].
    - intros q an an' f g ls _ _ [].
    - intros q ps ta an a lps ls E _ IH (H & ->). destruct (IH H) as (A & ->). split; [|reflexivity].
      change (print_v fmt (VRec q a [])) with (print_rec (nonempty (print_targs fmt a)) []). now rewrite A.
    - intros an f g ls _ _ [].
    - auto.
    - intros t v ls _ IH H. exact (IH H).
    - auto.
    - intros o v ls r a ls' _ IHo _ IHr (H1 & H2). destruct (IHo H1) as (A & ->), (IHr H2) as (B & ->). split; [|reflexivity].
      change (print_targs fmt (ACons v a)) with (print_o fmt v :: print_targs fmt a). rewrite A. exact B.
    - auto.
  Qed.

  Definition level_v (b : bool) (v : vl) : Prop := if b then one_level_v v else untemplated_v v.
  Definition level_o (b : bool) (o : ovl) : Prop := if b then one_level_o o else untemplated_o o.
  Definition level_args (b : bool) (a : args) : Prop := if b then one_level_args a else untemplated_args a.
  Definition level_f (b : bool) (f : fl) : Prop := if b then one_level_f f else untemplated_f f.

  Lemma gives_lps b lps : lps <> [] -> proper (map snd lps) -> gives b (print_rec [] (map (fun p : bool * lifetime => fmt (snd p)) lps)) (names (map snd lps)).
  Proof.
    intros N P. assert (F : Forall2 (gives b) (map (fun p : bool * lifetime => fmt (snd p)) lps) (map (fun p => [fmt (snd p)]) lps)).
    { clear N. induction lps as [|p lps IH]; [constructor|]. inversion P; subst. constructor; [now apply gives_name|now apply IH]. }
    assert (E : List.concat (map (fun p : bool * lifetime => [fmt (snd p)]) lps) = names (map snd lps)) by (clear; induction lps; cbn; congruence).
    destruct lps as [|p [|p' lps]]; [congruence|inversion P; subst; now apply gives_name|].
    rewrite <- E. apply (gives_wrap b b _ _ "[" "]"); [|auto]. apply gives_join; [exact F|discriminate].
  Qed.
  Lemma print_fun f : print_v fmt (VFun f) = match print_f fmt f with [] => [] | s => T "(" ++ s ++ T ")" end.
  Proof. reflexivity. Qed.

  Definition parts (this : text) (params : list text) (res : option text) : text :=
    let r0 := this ++ (match this, params with _ :: _, _ :: _ => T " " | _, _ => [] end) ++ join_text (T ", ") params in
    match res with Some s => r0 ++ (match r0 with [] => [] | _ => T " " end) ++ T "-> " ++ s | None => r0 end.
  Lemma print_fl ps r th : print_f fmt (FL ps r th) =
    parts (match th with ONone => [] | OSome v => parens (print_v fmt v) ++ T ":" end) (map parens (print_targs fmt ps))
      (if has_lifetimes r then Some (parens (print_v fmt r)) else None).
  Proof. unfold parts, has_lifetimes. destruct (has_v (fun _ => true) r) eqn:H; cbn [print_f]; unfold has_lifetimes; rewrite H; reflexivity. Qed.

  Lemma print_gives :
    (forall t v ls, Fits t v ls -> forall b, level_v b v -> proper ls -> shows b (print_v fmt v) (names ls)) /\
    (forall o v ls, Fits_o o v ls -> forall b, level_o b v -> proper ls -> shows b (print_o fmt v) (names ls)) /\
    (forall a v ls, Fits_args a v ls -> forall b, level_args b v -> proper ls ->
       exists nss, Forall2 (shows b) (print_targs fmt v) nss /\ List.concat nss = names ls) /\
    (forall f g ls, Fits_f f g ls -> forall b, level_f b g -> proper ls -> shows b (print_f fmt g) (names ls)).
  Proof.
    apply fits_all.
    - intros q an b _ _. left. auto.
    - intros q an t v l ls F Fv IH b L P. apply Forall_app in P. destruct P as (P1 & P2). inversion P2 as [|? ? P3 _]; subst. right.
      assert (Lv : level_v b v) by (destruct b; exact L).
      assert (E : print_v fmt (VPtr q l v) = match print_v fmt v with [] => fmt l | s => s ++ T ", " ++ fmt l end).
      { destruct v; try reflexivity. exfalso. apply F. inversion Fv; subst. now exists an0, f0. }
      rewrite E, map_app. destruct (IH b Lv P1) as [(-> & ->)|G]; [now apply gives_name|].
      pose proof (gives_nonempty _ _ _ G) as N. destruct (print_v fmt v) as [|c s] eqn:Q; [congruence|]. apply gives_comma; [exact G|now apply gives_name].
    - intros q an an' f g ls _ IH b L P. assert (Lg : level_f b g) by (destruct b; exact L).
      change (print_v fmt (VPtr q Static (VFun g))) with (match print_f fmt g with [] => [] | s => T "(" ++ s ++ T ")" end).
      destruct (IH b Lg P) as [(-> & ->)|G]; [left; auto|]. right. pose proof (gives_nonempty _ _ _ G) as N. destruct (print_f fmt g) as [|c s] eqn:Q; [congruence|].
      apply (gives_wrap b b _ _ "(" ")" G). auto.
    - intros q ps ta an a lps ls _ Fa IH b L P. apply Forall_app in P. destruct P as (P1 & P2).
      change (print_v fmt (VRec q a lps)) with (print_rec (nonempty (print_targs fmt a)) (map (fun p => fmt (snd p)) lps)).
      assert (Triv : trivial_args a -> shows b (print_rec (nonempty (print_targs fmt a)) (map (fun p => fmt (snd p)) lps)) (names (map snd lps ++ ls))).
      { intro Tr. destruct (proj1 (proj2 (proj2 trivial_nothing)) _ _ _ Fa Tr) as (-> & ->). rewrite app_nil_r. destruct lps as [|p lps]; [left; auto|]. right.
        apply gives_lps; [discriminate|exact P1]. }
      destruct b; [|exact (Triv L)]. destruct L as [L|(L & ->)]; [exact (Triv L)|]. cbn [map app].
      destruct (IH false L P2) as (nss & F2 & E). rewrite <- E. destruct (shows_filter false _ _ F2) as (nss' & F3 & <-).
      destruct (nonempty (print_targs fmt a)) as [|s [|s' ss]]; inversion F3 as [|? n1 ? n2 G1 G2]; subst; [left; auto| |].
      + inversion G2; subst. right. cbn. rewrite app_nil_r. now apply gives_weak.
      + right. apply (gives_wrap false true _ _ "<" ">"); [|auto 6]. apply gives_join; [exact F3|discriminate].
    - intros an f g ls _ IH b L P. assert (Lg : level_f b g) by (destruct b; exact L). rewrite print_fun.
      destruct (IH b Lg P) as [(-> & ->)|G]; [left; auto|]. right. pose proof (gives_nonempty _ _ _ G) as N. destruct (print_f fmt g) as [|c s] eqn:Q; [congruence|].
      apply (gives_wrap b b _ _ "(" ")" G). auto.
    - intros b _ _. left. auto.
    - intros t v ls _ IH b L P. apply IH; [destruct b; exact L|exact P].
    - intros b _ _. exists []. split; [constructor|reflexivity].
    - intros o v ls r a ls' _ IHo _ IHr b L P. apply Forall_app in P. destruct P as (P1 & P2). assert (L' : level_o b v /\ level_args b a) by (destruct b; exact L).
      destruct L' as (L1 & L2). destruct (IHr b L2 P2) as (nss & F & E). exists (names ls :: nss). split; [constructor; [exact (IHo b L1 P1)|exact F]|]. cbn. now rewrite E, map_app.
    - intros ps a ls r v ls' _ IHp Fr IHr b L P. apply Forall_app in P. destruct P as (P1 & P2).
      assert (L' : level_args b a /\ level_v b v) by (destruct b; destruct L as (? & ? & _); split; assumption). destruct L' as (L1 & L2).
      destruct (IHp b L1 P1) as (nss & F & E). specialize (IHr b L2 P2). rewrite map_app, <- E.
      assert (G : Forall2 (gives b) (map parens (print_targs fmt a)) nss) by (clear - F; induction F; cbn; constructor; [now apply shows_parens|assumption]).
      rewrite print_fl. unfold parts. cbn [app]. remember (map parens (print_targs fmt a)) as params eqn:Ep.
      assert (J : shows b (join_text (T ", ") params) (List.concat nss)).
      { destruct params as [|s ss]; [inversion G; subst; left; auto|]. right. apply gives_join; [exact G|discriminate]. }
      unfold has_lifetimes. destruct (has_v (fun _ => true) v) eqn:Hv.
      + right. pose proof (shows_parens b _ _ IHr) as Gr.
        destruct J as [(-> & ->)|J]; [now apply gives_result0|]. pose proof (gives_nonempty _ _ _ J) as N. destruct (join_text (T ", ") params) as [|c s] eqn:Q; [congruence|].
        now apply gives_result.
      + rewrite (proj1 no_lifetimes _ _ _ Fr Hv). cbn [map]. rewrite app_nil_r. exact J.
  Qed.

  Lemma print_names d f la lb lc : FitsDecl d f la lb lc -> match d_this d with Some t => ~ as_fun t | None => True end ->
    one_level_f f -> proper (la ++ lb ++ lc) -> Names (lex [] (print_f fmt f)) (names (la ++ lb ++ lc)).
  Proof.
    destruct f as [ps r th]. intros (Ft & Fa & Fr) Nf (L1 & L2 & L3) P. apply Forall_app in P. destruct P as (P1 & P). apply Forall_app in P. destruct P as (P2 & P3).
    rewrite print_fl, !map_app. destruct (proj1 (proj2 (proj2 print_gives)) _ _ _ Fa true L1 P2) as (nss & F & <-).
    assert (G : Forall2 (gives true) (map parens (print_targs fmt ps)) nss) by (clear - F; induction F; cbn; constructor; [now apply shows_parens|assumption]).
    remember (map parens (print_targs fmt ps)) as params eqn:Ep. clear Ep F.
    pose proof (shows_parens true _ _ (proj1 print_gives _ _ _ Fr true L2 P3)) as Gr.
    assert (Nr : has_lifetimes r = false -> lc = []) by (apply (proj1 no_lifetimes _ _ _ Fr)).
    inversion Ft as [Q1 Q2 Q3|t v l ls Fv Q1 Q2 Q3]; subst.
    - cbn [map app]. unfold parts. cbn [app]. destruct params as [|s ss].
      + inversion G; subst. destruct (has_lifetimes r); [apply (gives_result0 true _ _ Gr)|]. rewrite (Nr eq_refl). constructor.
      + assert (J : gives true (join_text (T ", ") (s :: ss)) (List.concat nss)) by (apply gives_join; [exact G|discriminate]).
        pose proof (gives_nonempty _ _ _ J) as N. destruct (join_text (T ", ") (s :: ss)) as [|c x] eqn:Q; [congruence|].
        destruct (has_lifetimes r); [apply (gives_result true _ _ _ _ J Gr)|]. rewrite (Nr eq_refl). cbn [map]. rewrite app_nil_r. apply J.
    - rewrite <- Q1 in Nf.
      assert (Gt : gives true (parens (print_v fmt (VPtr false l v))) (names (ls ++ [l]))).
      { apply shows_parens. refine (proj1 print_gives _ _ _ (fits_ptr false [] t v l ls Nf Fv) true _ P1). exact L3. }
      remember (parens (print_v fmt (VPtr false l v))) as tt eqn:Et. clear Et.
      pose proof (gives_nonempty _ _ _ Gt) as Nt. unfold parts.
      assert (Ne : exists c x, tt ++ T ":" = c :: x) by (destruct tt; [congruence|eexists _, _; reflexivity]). destruct Ne as (c & x & Ne). rewrite Ne.
      destruct params as [|s ss].
      + inversion G; subst. cbn [List.concat app join_text]. rewrite app_nil_r. destruct (has_lifetimes r).
        * match goal with |- Names (lex [] ?A) _ => change A with ((c :: x) ++ T " -> " ++ parens (print_v fmt r)) end. rewrite <- Ne, <- app_assoc.
          change (T ":" ++ T " -> " ++ parens (print_v fmt r)) with (T ": -> " ++ parens (print_v fmt r)).
          apply (gives_glue true _ _ (T ": -> ") _ _ Gt Gr); [exists ":"%char, (T " -> "); split; [reflexivity|cbn; auto 6]|now exists (T ": ->")|seps].
        * rewrite (Nr eq_refl). cbn [map]. rewrite <- Ne. change (T ":") with (":"%char :: []). rewrite (after_close true tt _ [] ":"%char Gt) by (left; cbn; auto 6).
          apply names_app; [apply Gt|seps].
      + assert (J : gives true (join_text (T ", ") (s :: ss)) (List.concat nss)) by (apply gives_join; [exact G|discriminate]).
        remember (join_text (T ", ") (s :: ss)) as js eqn:Ej. clear Ej.
        assert (J' : gives true (tt ++ T ": " ++ js) (names (ls ++ [l]) ++ List.concat nss)).
        { apply (gives_glue true _ _ (T ": ") _ _ Gt J); [exists ":"%char, (T " "); split; [reflexivity|cbn; auto 6]|now exists (T ":")|seps]. }
        assert (E : (c :: x) ++ T " " ++ js = tt ++ T ": " ++ js) by (rewrite <- Ne, <- app_assoc; reflexivity). rewrite E.
        pose proof (gives_nonempty _ _ _ J') as N. rewrite (app_assoc (names (ls ++ [l]))).
        destruct (has_lifetimes r); [|rewrite (Nr eq_refl); cbn [map]; rewrite app_nil_r; apply J'].
        remember (tt ++ T ": " ++ js) as r0 eqn:E0. destruct r0; [congruence|]. apply (gives_result true _ _ _ _ J' Gr).
  Qed.
End Print.

(** ** A type with lifetimes at its places is determined *)
Lemma fits_length :
  (forall t v ls, Fits t v ls -> List.length ls = List.length (slots_v t)) /\
  (forall o v ls, Fits_o o v ls -> List.length ls = List.length (slots_o o)) /\
  (forall a v ls, Fits_args a v ls -> List.length ls = List.length (slots_args a)) /\
  (forall f v ls, Fits_f f v ls -> List.length ls = List.length (slots_f f)).
Proof.
  assert (Pad : forall n ns, List.length (padded n ns) = n) by (induction n as [|n IH]; intro ns; [reflexivity|cbn; now rewrite IH]).
  apply fits_all.
  - reflexivity.
  - intros q an t v l ls F _ IH. assert (E : slots_v (TPtr q an t) = slots_v t ++ [first_name an]) by (destruct t; try reflexivity; exfalso; apply F; now exists an0, f).
    rewrite E, !app_length, IH. reflexivity.
  - intros q an an' f g ls _ IH. exact IH.
  - intros q ps ta an a lps ls E _ IH. rewrite sv_rec, !app_length, Pad, IH, map_length, <- E, map_length. reflexivity.
  - intros an f g ls _ IH. exact IH.
  - reflexivity.
  - intros t v ls _ IH. exact IH.
  - reflexivity.
  - intros o v ls r a ls' _ IHo _ IHr. change (slots_args (TCons o r)) with (slots_o o ++ slots_args r). rewrite !app_length. congruence.
  - intros ps a ls r v ls' _ IHp _ IHr. rewrite sf_ft, !app_length. congruence.
Qed.
Lemma app_eq {A} (a b c d : list A) : a ++ b = c ++ d -> List.length a = List.length c -> a = c /\ b = d.
Proof.
  revert c. induction a as [|x a IH]; intros [|y c] E L; cbn in *; try discriminate; auto. injection E as -> E. injection L as L. destruct (IH c E L) as (-> & ->). auto.
Qed.
Lemma pairs_eq {A B} (l m : list (A * B)) : map fst l = map fst m -> map snd l = map snd m -> l = m.
Proof.
  revert m. induction l as [|[a b] l IH]; intros [|[c d] m] E F; cbn in *; try discriminate; auto. injection E as -> E. injection F as -> F. f_equal. auto.
Qed.
Lemma fits_unique :
  (forall t v ls, Fits t v ls -> forall v', Fits t v' ls -> v = v') /\
  (forall o v ls, Fits_o o v ls -> forall v', Fits_o o v' ls -> v = v') /\
  (forall a v ls, Fits_args a v ls -> forall v', Fits_args a v' ls -> v = v') /\
  (forall f v ls, Fits_f f v ls -> forall v', Fits_f f v' ls -> v = v').
Proof.
  apply fits_all.
  - intros q an v' F. now inversion F.
  - intros q an t v l ls N _ IH v' F. inversion F as [|? ? ? v2 l2 ls2 N2 F2 Q1 Q2 Q3| | |]; subst; [|exfalso; apply N; eexists _, _; reflexivity].
    apply app_inj_tail in Q3. destruct Q3 as (-> & ->). now rewrite (IH _ F2).
  - intros q an an' f g ls _ IH v' F. inversion F as [|? ? ? v2 l2 ls2 N2 F2 Q1 Q2 Q3| | |]; subst; [exfalso; apply N2; eexists _, _; reflexivity|]. f_equal. f_equal. auto.
  - intros q ps ta an a lps ls E Fa IH v' F. inversion F as [| | |? ? ? ? a2 lps2 ls2 E2 F2 Q1 Q2 Q3|]; subst.
    apply app_eq in Q3; [|rewrite !map_length, <- (map_length fst lps), <- (map_length fst lps2); congruence]. destruct Q3 as (Q3 & ->).
    rewrite (IH _ F2). f_equal. symmetry. apply pairs_eq; [exact E2|exact Q3].
  - intros an f g ls _ IH v' F. inversion F; subst. f_equal. auto.
  - intros v' F. now inversion F.
  - intros t v ls _ IH v' F. inversion F; subst. f_equal. auto.
  - intros v' F. now inversion F.
  - intros o v ls r a ls' Fo IHo Fr IHr v' F. inversion F as [|? v2 l2 ? a2 l2' Fo2 Fr2 Q1 Q2 Q3]; subst.
    apply app_eq in Q3; [|rewrite (proj1 (proj2 fits_length) _ _ _ Fo), (proj1 (proj2 fits_length) _ _ _ Fo2); reflexivity]. destruct Q3 as (-> & ->). f_equal; auto.
  - intros ps a ls r v ls' Fp IHp Fr IHr v' F. inversion F as [? a2 l2 ? v2 l2' Fp2 Fr2 Q1 Q2 Q3]; subst.
    apply app_eq in Q3; [|rewrite (proj1 (proj2 (proj2 fits_length)) _ _ _ Fp), (proj1 (proj2 (proj2 fits_length)) _ _ _ Fp2); reflexivity]. destruct Q3 as (-> & ->). f_equal; auto.
Qed.
