(** Property theorems for the lossy formatter (C26, C27) and the lossy display (C45). *)
From Coq Require Import List NArith Bool Arith Lia.
From Verif.Lossy Require Import Model Spec Proofs Ops.
Import ListNotations.
Local Open Scope N_scope.
Local Open Scope list_scope.

(** ** Observing a sink does not change what the calls do *)
Section Sim.
  Variable W : Type.
  Variable wr : W -> bytes -> W * bool.
  Notation owr := (observe wr).
  Lemma sim_wr (s : seen W) t : owr s t = (fst (owr s t), snd (wr (sink s) t)) /\ sink (fst (owr s t)) = fst (wr (sink s) t).
  Proof. unfold observe. destruct (wr (sink s) t). split; reflexivity. Qed.
  Definition forget {A} (r : option (bytes * seen W * A)) : option (bytes * W * A) :=
    match r with Some (i, s, a) => Some (i, sink s, a) | None => None end.
  Definition forget2 (r : seen W * bool) : W * bool := (sink (fst r), snd r).
  Lemma sim_owr s t : forget2 (owr s t) = wr (sink s) t.
  Proof. unfold forget2, observe. destruct (wr (sink s) t). reflexivity. Qed.
  Lemma sim_two s a b : forget2 (write_two _ owr s a b) = write_two _ wr (sink s) a b.
  Proof.
    unfold write_two. pose proof (sim_owr s a) as H. unfold forget2 in H at 1. destruct (owr s a) as [s1 ok]. cbn in H. rewrite <- H. destruct ok; [apply sim_owr|reflexivity].
  Qed.
  Lemma sim_byte inc s b : forget (write_byte _ owr inc s b) = write_byte _ wr inc (sink s) b.
  Proof.
    unfold write_byte. destruct (push inc b) as [[p inc']|]; [|reflexivity].
    assert (X : forall r r', forget2 r = r' -> forget (let '(w', ok) := r in Some (inc', w', ok)) = (let '(w', ok) := r' in Some (inc', w', ok))).
    { intros [s1 ok] r' <-. reflexivity. }
    apply X. destruct p; [reflexivity|apply sim_owr|apply sim_owr|apply sim_two|apply sim_two].
  Qed.
  Lemma sim_feed data : forall inc s p,
    match feed _ owr inc s p data with Some (i, s', q, r) => Some (i, sink s', q, r) | None => None end = feed _ wr inc (sink s) p data.
  Proof.
    induction data as [|b data IH]; intros [|x inc] s p; try reflexivity. cbn [feed]. rewrite <- sim_byte. destruct (write_byte _ owr (x :: inc) s b) as [[[i s1] [|]]|]; cbn [forget]; [apply IH|reflexivity|reflexivity].
  Qed.
  Lemma sim_chunks chs : forall inc s p, forget (write_chunks _ owr inc s p chs) = write_chunks _ wr inc (sink s) p chs.
  Proof.
    induction chs as [|[v i] chs IH]; intros inc s p; [reflexivity|]. cbn [write_chunks]. rewrite <- sim_owr. unfold forget2. destruct (owr s v) as [s1 ok]. cbn [fst snd].
    destruct ok; [|reflexivity]. cbn [negb]. destruct (from_utf8 i) as [e|]; [|destruct i; [apply IH|reflexivity]].
    destruct (_ || e)%bool; [|destruct (copy_from_slice i); [apply IH|reflexivity]]. rewrite <- sim_owr. unfold forget2. destruct (owr s1 REPL) as [s2 ok2]. cbn [fst snd].
    destruct ok2; [apply IH|reflexivity].
  Qed.
  Lemma sim_slice inc s d : forget (write_slice _ owr inc s d) = write_slice _ wr inc (sink s) d.
  Proof. unfold write_slice. rewrite <- sim_feed. destruct (feed _ owr inc s 0 d) as [[[[i s1] p] [r|]]|]; [apply sim_chunks|reflexivity|reflexivity]. Qed.
  Lemma sim_fill_bytes b n : forall inc s k, forget (fill_bytes _ owr inc s k n b) = fill_bytes _ wr inc (sink s) k n b.
  Proof.
    induction n as [|n IH]; intros inc s k; [reflexivity|]. cbn [fill_bytes]. rewrite <- sim_byte. destruct (write_byte _ owr inc s b) as [[[i s1] [|]]|]; cbn [forget]; [apply IH|reflexivity|reflexivity].
  Qed.
  Lemma sim_fill_ascii b n : forall s k, (let (s', m) := fill_ascii _ owr s k n b in (sink s', m)) = fill_ascii _ wr (sink s) k n b.
  Proof.
    induction n as [|n IH]; intros s k; [reflexivity|]. cbn [fill_ascii]. rewrite <- sim_owr. unfold forget2. destruct (owr s [b]) as [s1 [|]]; cbn [fst snd]; [apply IH|reflexivity].
  Qed.
  Lemma sim_fill inc s n b : forget (write_fill _ owr inc s n b) = write_fill _ wr inc (sink s) n b.
  Proof.
    unfold write_fill. destruct (negb (b <? 128)); [apply sim_fill_bytes|]. destruct n as [|n]; [reflexivity|]. destruct inc as [|x inc].
    - rewrite <- sim_fill_ascii. destruct (fill_ascii _ owr s 0 (S n) b). reflexivity.
    - rewrite <- sim_owr. unfold forget2. destruct (owr s REPL) as [s1 [|]]; cbn [fst snd negb]; [|reflexivity]. rewrite <- sim_fill_ascii. destruct (fill_ascii _ owr s1 0 (S n) b). reflexivity.
  Qed.
  Lemma sim_step inc s o : forget (step _ owr inc s o) = step _ wr inc (sink s) o.
  Proof.
    destruct o as [d|b|n b|]; cbn [step].
    - rewrite <- sim_slice. destruct (write_slice _ owr inc s d) as [[[i s1] n]|]; reflexivity.
    - rewrite <- sim_byte. destruct (write_byte _ owr inc s b) as [[[i s1] n]|]; reflexivity.
    - rewrite <- sim_fill. destruct (write_fill _ owr inc s n b) as [[[i s1] m]|]; reflexivity.
    - unfold flush. destruct inc; [reflexivity|]. rewrite <- sim_owr. unfold forget2. destruct (owr s REPL). reflexivity.
  Qed.
End Sim.

(** One call, from any good buffer, on any sink. *)
Lemma step_effect W (wr : W -> bytes -> W * bool) inc (s : seen W) o : good inc -> failed s = false ->
  exists inc' s' asked got t, step _ (observe wr) inc s o = Some (inc', s', (asked, got)) /\ accepted s' = accepted s ++ t /\
    (got <= asked)%nat /\ (failed s' = true <-> got < asked)%nat /\ good inc' /\
    (match o with
     | Flush => inc' = [] /\ (got = asked -> lossy inc t) /\ (got < asked -> t = [])%nat
     | _ => effect inc (delivered o) inc' t (failed s')
     end).
Proof.
  intros G F. destruct o as [d|b|n b|]; cbn [step delivered].
  - destruct (write_slice_effect W wr inc s d G F) as (inc' & s' & n & t & -> & A & L & Fs & H). exists inc', s', (List.length d), n, t. split; [reflexivity|]. split; [exact A|]. split; [exact L|]. split; [exact Fs|]. split; [apply H|exact H].
  - destruct (write_byte_effect W wr inc s b G F) as (inc' & s' & ok & t & -> & A & Fs & H). exists inc', s', 1%nat, (one ok), t. rewrite Fs.
    split; [reflexivity|]. split; [exact A|]. split; [destruct ok; cbn; lia|]. split; [destruct ok; cbn; split; try discriminate; lia || auto|]. split; [apply H|exact H].
  - destruct (write_fill_effect W wr inc s n b G F) as (inc' & s' & m & t & -> & A & L & Fs & H). exists inc', s', n, m, t. split; [reflexivity|]. split; [exact A|]. split; [exact L|]. split; [exact Fs|]. split; [apply H|exact H].
  - destruct (flush_effect W wr inc s G F) as (s' & ok & t & -> & A & Fs & H1 & H2). exists [], s', 1%nat, (one ok), t. rewrite Fs. split; [reflexivity|]. split; [exact A|].
    split; [destruct ok; cbn; lia|]. split; [destruct ok; cbn; split; try discriminate; lia || auto|]. split; [now left|]. split; [reflexivity|]. destruct ok; cbn; split; intro; try lia; auto.
Qed.

(** ** C26: the output does not depend on the splitting into calls *)
Definition complete (a : answer) : Prop := snd a = fst a.
(** Any calls, on any sink: if every call and a final flush report success, the accepted text is the
    standard lossy decoding of the bytes delivered (separately for the parts between flushes). *)
Theorem C26_output_is_lossy_decoding : forall W (wr : W -> bytes -> W * bool) w0 ops inc s answers,
  run _ (observe wr) [] (Seen w0 [] false) (ops ++ [Flush]) = Some (inc, s, answers) ->
  Forall complete answers ->
  exists outs, Forall2 lossy (segments [] ops) outs /\ accepted s = List.concat outs.
Proof.
  intros W wr w0 ops inc s answers.
  assert (Gen : forall ops cur inc0 t acc0 s0 inc s answers, good inc0 -> (forall ys o, lossy (inc0 ++ ys) o -> lossy (cur ++ ys) (t ++ o)) ->
     failed s0 = false -> accepted s0 = acc0 ++ t -> run _ (observe wr) inc0 s0 (ops ++ [Flush]) = Some (inc, s, answers) -> Forall complete answers ->
     exists outs, Forall2 lossy (segments cur ops) outs /\ accepted s = acc0 ++ List.concat outs).
  { clear. induction ops as [|o ops IH]; intros cur inc0 t acc0 s0 inc s answers G I F A R C.
    - cbn [app run] in R. destruct (step_effect W wr inc0 s0 Flush G F) as (inc' & s' & asked & got & t' & E & A' & _ & _ & _ & _ & H & _). rewrite E in R. injection R as <- <- <-.
      inversion C as [|? ? C1 _]; subst. unfold complete in C1; cbn in C1. exists [t ++ t']. split.
      + constructor; [|constructor]. rewrite <- (app_nil_r cur). apply I. rewrite app_nil_r. now apply H.
      + cbn. now rewrite A', A, app_nil_r, app_assoc.
    - cbn [app run] in R. destruct (step_effect W wr inc0 s0 o G F) as (inc1 & s1 & asked & got & t1 & E & A1 & L & Fs & G1 & H). rewrite E in R.
      destruct (run _ (observe wr) inc1 s1 (ops ++ [Flush])) as [[[inc2 s2] l]|] eqn:ER; [|discriminate]. injection R as <- <- <-.
      inversion C as [|? ? C1 C2]; subst. unfold complete in C1; cbn in C1. subst got. assert (F1 : failed s1 = false) by (destruct (failed s1) eqn:X1; [exfalso; assert (X2 : (asked < asked)%nat) by (apply Fs; reflexivity); lia|reflexivity]).
      destruct o as [d|b|n b|]; cbn [segments].
      1-3: rewrite F1 in H; destruct H as (_ & H & _); specialize (H eq_refl);
           apply (IH _ inc1 (t ++ t1) acc0 s1 inc2 s2 l G1);
             [intros ys o L1; rewrite <- !app_assoc; apply I; now apply H|exact F1|now rewrite A1, A, <- app_assoc|exact ER|exact C2].
      destruct H as (-> & H & _). specialize (H eq_refl).
      destruct (IH [] [] [] (acc0 ++ t ++ t1) s1 inc2 s2 l G1) as (outs & Ho & Ha); [intros ys o L1; exact L1|exact F1|now rewrite A1, A, app_nil_r, <- app_assoc|exact ER|exact C2|].
      exists ((t ++ t1) :: outs). split.
      + constructor; [|exact Ho]. rewrite <- (app_nil_r cur). apply I. now rewrite app_nil_r.
      + rewrite Ha. cbn. now rewrite <- !app_assoc. }
  intros R C. apply (Gen ops [] [] [] [] (Seen w0 [] false) inc s answers); try assumption; try reflexivity; [now left|]. intros ys o L. exact L.
Qed.
Print Assumptions C26_output_is_lossy_decoding.
(** That decoding is unique, so two splittings of the same bytes give the same text. *)
Theorem C26_splitting_is_irrelevant : forall W (wr : W -> bytes -> W * bool) w0 W' (wr' : W' -> bytes -> W' * bool) w0' ops ops' inc inc' s s' l l',
  run _ (observe wr) [] (Seen w0 [] false) (ops ++ [Flush]) = Some (inc, s, l) -> Forall complete l ->
  run _ (observe wr') [] (Seen w0' [] false) (ops' ++ [Flush]) = Some (inc', s', l') -> Forall complete l' ->
  segments [] ops = segments [] ops' -> accepted s = accepted s'.
Proof.
  intros W wr w0 W' wr' w0' ops ops' inc inc' s s' l l' R C R' C' E.
  destruct (C26_output_is_lossy_decoding _ _ _ _ _ _ _ R C) as (o & Ho & ->). destruct (C26_output_is_lossy_decoding _ _ _ _ _ _ _ R' C') as (o' & Ho' & ->).
  rewrite <- E in Ho'. f_equal. clear - Ho Ho'. revert o' Ho'. induction Ho as [|x y xs ys H Hs IH]; intros o' Ho'; inversion Ho'; subst; [reflexivity|]. f_equal; [eapply lossy_unique; eassumption|now apply IH].
Qed.
Print Assumptions C26_splitting_is_irrelevant.
(** Every byte string has such a decoding. *)
Theorem C26_decoding_exists_and_is_unique : forall s, exists o, lossy s o /\ forall o', lossy s o' -> o' = o.
Proof. intro s. destruct (lossy_total s) as [o Ho]. exists o. split; [exact Ho|]. intros o' H. eapply lossy_unique; eassumption. Qed.
Print Assumptions C26_decoding_exists_and_is_unique.
(** F0 9F 92 | 96 '!' (a heart), then F0, then three times 'a'. *)
Example C26_case : exists inc s l,
  run _ (observe (fun (_ : unit) _ => (tt, true))) [] (Seen tt [] false) ([Slice [240; 159; 146]; Slice [150; 33]; Byte 240; Fill 3 97] ++ [Flush]) = Some (inc, s, l) /\
  Forall complete l /\ accepted s = [240; 159; 146; 150; 33] ++ REPL ++ [97; 97; 97].
Proof. eexists _, _, _. split; [reflexivity|]. split; [repeat constructor|reflexivity]. Qed.

(** ** C27: progress and the buffer *)
Lemma good_spec inc : good inc -> inc = [] \/ (List.length inc <= 3)%nat /\ proper_initial inc.
Proof. intro G. pose proof (good_len _ G) as L. destruct G as [->|G]; [now left|]. destruct inc as [|x inc]; [now left|]. right. split; [exact L|]. apply cut_proper; [discriminate|exact G]. Qed.
(** No sequence of calls on any sink panics; every answer is at most what was asked, and all are
    complete if the sink never fails; the buffer is empty or at most three bytes that start a
    character. *)
Theorem C27_no_panic_and_honest_counts : forall W (wr : W -> bytes -> W * bool) w ops,
  exists inc w' answers, run _ wr [] w ops = Some (inc, w', answers) /\
    Forall (fun a => snd a <= fst a)%nat answers /\ List.length answers = List.length ops /\
    ((forall w t, snd (wr w t) = true) -> Forall complete answers) /\
    (inc = [] \/ (List.length inc <= 3)%nat /\ proper_initial inc).
Proof.
  intros W wr w ops. assert (Gen : forall ops inc0 w, good inc0 -> exists inc w' answers, run _ wr inc0 w ops = Some (inc, w', answers) /\
    Forall (fun a => snd a <= fst a)%nat answers /\ List.length answers = List.length ops /\ ((forall w t, snd (wr w t) = true) -> Forall complete answers) /\ good inc).
  { clear. induction ops as [|o ops IH]; intros inc0 w G; [exists inc0, w, []; split; [reflexivity|]; split; [constructor|]; split; [reflexivity|]; split; [constructor|exact G]|].
    destruct (step_effect W wr inc0 (Seen w [] false) o G eq_refl) as (inc1 & s1 & asked & got & t1 & E & A1 & L & Fs & G1 & H).
    pose proof (sim_step W wr inc0 (Seen w [] false) o) as S. rewrite E in S. cbn [forget sink] in S. cbn [run]. rewrite <- S.
    destruct (IH inc1 (sink s1) G1) as (inc' & w' & l & -> & L1 & L2 & L3 & G2). exists inc', w', ((asked, got) :: l). split; [reflexivity|].
    split; [constructor; [exact L|exact L1]|]. split; [cbn; now rewrite L2|]. split; [|exact G2]. intro NF. constructor; [|now apply L3]. unfold complete. cbn.
    assert (N : (~ got < asked)%nat); [|lia]. intro X. apply Fs in X. clear - NF E X.
    (* a sink that never fails never sets the flag *)
    assert (K : forall s t, failed (fst (observe wr s t)) = failed s).
    { intros s t. unfold observe. specialize (NF (sink s) t). destruct (wr (sink s) t) as [w' ok]. cbn in *. subst ok. apply orb_false_r. }
    assert (K2 : forall s t s' ok, observe wr s t = (s', ok) -> failed s' = failed s) by (intros s t s' ok Y; specialize (K s t); now rewrite Y in K). clear K.
    assert (KB : forall inc s b i s' ok, write_byte _ (observe wr) inc s b = Some (i, s', ok) -> failed s' = failed s).
    { intros inc s b i s' ok Y. unfold write_byte in Y. destruct (push inc b) as [[p i']|]; [|discriminate].
      destruct p; [injection Y as _ <- _; reflexivity| | | |]; unfold write_two in Y;
        destruct (observe wr s _) as [s2 ok2] eqn:E2; try (injection Y as _ <- _; now apply K2 in E2);
        (destruct ok2; [|injection Y as _ <- _; now apply K2 in E2]); destruct (observe wr s2 _) as [s3 ok3] eqn:E3; injection Y as _ <- _; apply K2 in E3; apply K2 in E2; congruence. }
    assert (KF : forall data inc s p i s' q r, feed _ (observe wr) inc s p data = Some (i, s', q, r) -> failed s' = failed s).
    { induction data as [|b data IHd]; intros [|x inc] s p i s' q r Y; cbn [feed] in Y; try (injection Y as _ <- _ _; reflexivity).
      destruct (write_byte _ _ (x :: inc) s b) as [[[i1 s2] [|]]|] eqn:E2; [|injection Y as _ <- _ _; now apply KB in E2|discriminate]. apply IHd in Y. apply KB in E2. congruence. }
    assert (KC : forall chs inc s p i s' q, write_chunks _ (observe wr) inc s p chs = Some (i, s', q) -> failed s' = failed s).
    { induction chs as [|[v iv] chs IHc]; intros inc s p i s' q Y; cbn [write_chunks] in Y; [injection Y as _ <- _; reflexivity|].
      destruct (observe wr s v) as [s2 ok2] eqn:E2. apply K2 in E2. destruct ok2; cbn [negb] in Y; [|injection Y as _ <- _; exact E2].
      destruct (from_utf8 iv) as [e|]; [|destruct iv; [apply IHc in Y; congruence|discriminate]].
      destruct (_ || e)%bool; [|destruct (copy_from_slice iv); [apply IHc in Y; congruence|discriminate]].
      destruct (observe wr s2 REPL) as [s3 ok3] eqn:E3. apply K2 in E3. destruct ok3; cbn [negb] in Y; [apply IHc in Y; congruence|injection Y as _ <- _; congruence]. }
    assert (KFB : forall n inc s k b i s' q, fill_bytes _ (observe wr) inc s k n b = Some (i, s', q) -> failed s' = failed s).
    { induction n as [|n IHn]; intros inc s k b i s' q Y; cbn [fill_bytes] in Y; [injection Y as _ <- _; reflexivity|].
      destruct (write_byte _ _ inc s b) as [[[i1 s2] [|]]|] eqn:E2; [|injection Y as _ <- _; now apply KB in E2|discriminate]. apply IHn in Y. apply KB in E2. congruence. }
    assert (KFA : forall n s k b s' q, fill_ascii _ (observe wr) s k n b = (s', q) -> failed s' = failed s).
    { induction n as [|n IHn]; intros s k b s' q Y; cbn [fill_ascii] in Y; [injection Y as <- _; reflexivity|].
      destruct (observe wr s [b]) as [s2 [|]] eqn:E2; apply K2 in E2; [apply IHn in Y; congruence|injection Y as <- _; exact E2]. }
    assert (R : failed s1 = failed (Seen w [] false)); [|cbn in R; congruence].
    destruct o as [d|b|n b|]; cbn [step] in E.
    - unfold write_slice in E. destruct (feed _ _ inc0 (Seen w [] false) 0 d) as [[[[i s2] p] [r|]]|] eqn:E2; [| |discriminate].
      + destruct (write_chunks _ _ i s2 p (utf8_chunks r)) as [[[i3 s3] q]|] eqn:E3; [|discriminate]. injection E as _ <- _ _. apply KC in E3. apply KF in E2. congruence.
      + injection E as _ <- _ _. now apply KF in E2.
    - destruct (write_byte _ _ inc0 _ b) as [[[i s2] ok]|] eqn:E2; [|discriminate]. injection E as _ <- _ _. now apply KB in E2.
    - destruct (write_fill _ _ inc0 _ n b) as [[[i s2] q]|] eqn:E2; [|discriminate]. injection E as _ <- _ _. unfold write_fill in E2. destruct (negb (b <? 128)); [now apply KFB in E2|].
      destruct n as [|n]; [injection E2 as _ <- _; reflexivity|]. destruct inc0 as [|x inc0].
      + destruct (fill_ascii _ _ _ 0 (S n) b) as [s3 m] eqn:E3. injection E2 as _ <- _. now apply KFA in E3.
      + destruct (observe wr _ REPL) as [s3 ok3] eqn:E3. apply K2 in E3. destruct ok3; cbn [negb] in E2; [|injection E2 as _ <- _; exact E3].
        destruct (fill_ascii _ _ s3 0 (S n) b) as [s4 m] eqn:E4. injection E2 as _ <- _. apply KFA in E4. congruence.
    - unfold flush in E. destruct inc0; [injection E as _ <- _ _; reflexivity|]. destruct (observe wr _ REPL) as [s3 ok3] eqn:E3. injection E as _ <- _ _. now apply K2 in E3. }
  destruct (Gen ops [] w) as (inc & w' & l & E & H1 & H2 & H3 & G); [now left|]. exists inc, w', l. repeat (split; [assumption|]). now apply good_spec.
Qed.
Print Assumptions C27_no_panic_and_honest_counts.
(** A call reports less than was asked iff a write to the sink failed during it; and the text accepted
    up to the first failure is the beginning of the decoding of what was delivered. *)
Theorem C27_failures_are_reported : forall W (wr : W -> bytes -> W * bool) w0 ops inc s answers o,
  run _ (observe wr) [] (Seen w0 [] false) ops = Some (inc, s, answers) -> Forall complete answers ->
  exists inc' s' asked got, step _ (observe wr) inc s o = Some (inc', s', (asked, got)) /\
    (got < asked <-> failed s' = true)%nat /\
    exists outs rest, Forall2 lossy (segments [] (ops ++ [o])) outs /\ List.concat outs = accepted s' ++ rest.
Proof.
  intros W wr w0 ops inc s answers o.
  assert (Gen : forall ops cur inc0 t acc0 s0 inc s answers, good inc0 -> (forall ys o, lossy (inc0 ++ ys) o -> lossy (cur ++ ys) (t ++ o)) ->
     failed s0 = false -> accepted s0 = acc0 ++ t -> run _ (observe wr) inc0 s0 ops = Some (inc, s, answers) -> Forall complete answers ->
     exists inc' s' asked got, step _ (observe wr) inc s o = Some (inc', s', (asked, got)) /\ (got < asked <-> failed s' = true)%nat /\
     exists outs rest, Forall2 lossy (segments cur (ops ++ [o])) outs /\ acc0 ++ List.concat outs = accepted s' ++ rest).
  { clear. induction ops as [|o1 ops IH]; intros cur inc0 t acc0 s0 inc s answers G I F A R C.
    - cbn [app run] in R. injection R as <- <- <-. destruct (step_effect W wr inc0 s0 o G F) as (inc' & s' & asked & got & t' & E & A' & L & Fs & G' & H).
      exists inc', s', asked, got. split; [exact E|]. split; [symmetry; exact Fs|]. cbn [app].
      assert (Fin : forall d, (exists z, lossy (inc0 ++ d) (t' ++ z)) -> exists outs rest, Forall2 lossy [cur ++ d] outs /\ acc0 ++ List.concat outs = accepted s' ++ rest).
      { intros d (z & Hz). exists [t ++ t' ++ z], z. split; [constructor; [|constructor]; now apply I|]. cbn. now rewrite A', A, app_nil_r, <- !app_assoc. }
      destruct o as [d|b|n b|]; cbn [segments].
      1-3: apply Fin; destruct H as (_ & _ & H); destruct (H []) as [z Hz]; rewrite app_nil_r in Hz; exists z; exact Hz.
      destruct H as (-> & H1 & H2). destruct (Nat.eq_dec got asked) as [Eg|Ng].
      + exists [t ++ t'; []], []. split; [constructor; [rewrite <- (app_nil_r cur); apply I; rewrite app_nil_r; now apply H1|repeat constructor]|]. cbn. now rewrite A', A, !app_nil_r, <- app_assoc.
      + destruct (lossy_total inc0) as [z Hz]. exists [t ++ z; []], z. assert (t' = []) by (apply H2; lia). subst t'.
        split; [constructor; [rewrite <- (app_nil_r cur); apply I; now rewrite app_nil_r|repeat constructor]|]. cbn. now rewrite A', A, !app_nil_r, <- app_assoc.
    - cbn [app run] in R. destruct (step_effect W wr inc0 s0 o1 G F) as (inc1 & s1 & asked & got & t1 & E & A1 & L & Fs & G1 & H). rewrite E in R.
      destruct (run _ (observe wr) inc1 s1 ops) as [[[inc2 s2] l]|] eqn:ER; [|discriminate]. injection R as <- <- <-.
      inversion C as [|? ? C1 C2]; subst. unfold complete in C1; cbn in C1. subst got. assert (F1 : failed s1 = false) by (destruct (failed s1) eqn:X1; [exfalso; assert (X2 : (asked < asked)%nat) by (apply Fs; reflexivity); lia|reflexivity]).
      destruct o1 as [d|b|n b|]; cbn [segments app].
      1-3: rewrite F1 in H; destruct H as (_ & H & _); specialize (H eq_refl);
           apply (IH _ inc1 (t ++ t1) acc0 s1 inc2 s2 l G1);
             [intros ys o1 L1; rewrite <- !app_assoc; apply I; now apply H|exact F1|now rewrite A1, A, <- app_assoc|exact ER|exact C2].
      destruct H as (-> & H & _). specialize (H eq_refl).
      destruct (IH [] [] [] (acc0 ++ t ++ t1) s1 inc2 s2 l G1) as (i' & s' & as' & g' & E' & Fs' & outs & rest & Ho & Ha); [intros ys o1 L1; exact L1|exact F1|now rewrite A1, A, app_nil_r, <- app_assoc|exact ER|exact C2|].
      exists i', s', as', g'. split; [exact E'|]. split; [exact Fs'|]. exists ((t ++ t1) :: outs), rest. split.
      + constructor; [|exact Ho]. rewrite <- (app_nil_r cur). apply I. now rewrite app_nil_r.
      + rewrite <- Ha. cbn. now rewrite <- !app_assoc. }
  intros R C. apply (Gen ops [] [] [] [] (Seen w0 [] false) inc s answers); try assumption; try reflexivity; [now left|]. intros ys o1 L. exact L.
Qed.
Print Assumptions C27_failures_are_reported.
(** A sink with room for three bytes: FF 01 writes one replacement character, then fails. *)
Example C27_case : let sink3 := fun (room : nat) (t : bytes) => if (List.length t <=? room)%nat then ((room - List.length t)%nat, true) else (room, false) in
  exists inc s, run _ (observe sink3) [] (Seen 3%nat [] false) [Slice [255; 1]] = Some (inc, s, [(2, 1)]%nat) /\ accepted s = REPL /\ failed s = true.
Proof. eexists _, _. split; [reflexivity|]. split; reflexivity. Qed.

(** ** C45: the lossy display of a C++ string *)
Theorem C45_display_is_lossy_decoding : forall W (wr : W -> bytes -> W * bool) w bs,
  let r := lossy_display _ (observe wr) (Seen w [] false) bs in
  exists o rest, lossy bs o /\ o = accepted (fst r) ++ rest /\ (snd r = true -> rest = []) /\ (snd r = negb (failed (fst r))).
Proof.
  intros W wr w bs. unfold lossy_display.
  assert (Gen : forall n bs (s : seen W), (List.length bs <= n)%nat -> failed s = false ->
    let r := display_chunks _ (observe wr) s (utf8_chunks bs) in
    exists t rest, lossy bs (t ++ rest) /\ accepted (fst r) = accepted s ++ t /\ (snd r = true -> rest = []) /\ snd r = negb (failed (fst r))).
  { clear. induction n as [|n IH]; intros bs s Hn F.
    { destruct bs; [|cbn in Hn; lia]. exists [], []. cbn. split; [constructor|]. rewrite app_nil_r, F. auto. }
    destruct bs as [|b bs0]; [exists [], []; cbn; split; [constructor|]; rewrite app_nil_r, F; auto|].
    remember (b :: bs0) as bs eqn:Eb. assert (Hne : bs <> []) by (rewrite Eb; discriminate). clear Eb b bs0.
    destruct (chunks_cons bs Hne) as (v & i & r & E & Es & Hv & Lr & C). rewrite E. cbn [display_chunks].
    destruct (owr_cases W wr s v) as [(s1 & X & A & F1)|(s1 & X & A & F1)]; rewrite X; cbn [negb].
    2:{ destruct (lossy_total bs) as [z Hz]. exists [], z. cbn. split; [exact Hz|]. rewrite A, app_nil_r, F1. split; [reflexivity|]. split; [discriminate|reflexivity]. }
    rewrite F in F1. destruct C as [(-> & -> & Hnv)|C].
    - exists v, []. cbn. rewrite Es. split; [apply Hv; constructor|]. split; [exact A|]. now rewrite F1.
    - assert (Hi : i <> []) by (destruct C as [(Hi & _)|(Hi & _)]; exact Hi). destruct i as [|x i]; [contradiction|]. remember (x :: i) as j eqn:Ej. clear x i Ej.
      assert (LJ : forall o, lossy r o -> lossy (j ++ r) (REPL ++ o)).
      { intros o Ho. destruct C as [(_ & C)|(_ & -> & C)]; [eapply lossy_broken; eassumption|]. rewrite (lossy_unique _ _ _ Ho lossy_nil), !app_nil_r. now apply lossy_cut. }
      destruct (owr_cases W wr s1 REPL) as [(s2 & X2 & A2 & F2)|(s2 & X2 & A2 & F2)]; rewrite X2; cbn [negb].
      + destruct (IH r s2) as (t & rest & Ho & A3 & R & S); [lia|congruence|]. exists (v ++ REPL ++ t), rest. split.
        * rewrite Es. rewrite <- !app_assoc. apply Hv. change (REPL ++ t ++ rest) with (REPL ++ (t ++ rest)). apply LJ. exact Ho.
        * split; [rewrite A3, A2, A; now rewrite <- !app_assoc|]. split; [exact R|exact S].
      + destruct (lossy_total (j ++ r)) as [z Hz]. exists v, z. cbn [fst snd]. split; [rewrite Es; now apply Hv|]. split; [now rewrite A2, A|]. split; [discriminate|now rewrite F2]. }
  destruct (Gen (List.length bs) bs (Seen w [] false)) as (t & rest & Ho & A & R & S); [lia|reflexivity|]. exists (t ++ rest), rest. split; [exact Ho|]. split; [now rewrite A|]. auto.
Qed.
Print Assumptions C45_display_is_lossy_decoding.
Example C45_case : let r := lossy_display _ (observe (fun (_ : unit) _ => (tt, true))) (Seen tt [] false) [104; 255; 195; 169; 226; 130] in
  snd r = true /\ accepted (fst r) = [104] ++ REPL ++ [195; 169] ++ REPL.
Proof. split; reflexivity. Qed.
