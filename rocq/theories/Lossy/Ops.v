(** Every call, on every sink. *)
From Coq Require Import List NArith Bool Arith Lia.
From Verif.Lossy Require Import Model Spec Proofs.
Import ListNotations.
Local Open Scope N_scope.
Local Open Scope list_scope.

(** [d] was delivered with [inc] in the buffer; [t] was accepted by the sink. *)
Definition effect (inc d inc' t : bytes) (f : bool) : Prop :=
  good inc' /\
  (f = false -> forall ys o, lossy (inc' ++ ys) o -> lossy (inc ++ d ++ ys) (t ++ o)) /\
  (forall ys, exists z, lossy (inc ++ d ++ ys) (t ++ z)).
Lemma effect_ok inc d inc' t : good inc' -> (forall ys o, lossy (inc' ++ ys) o -> lossy (inc ++ d ++ ys) (t ++ o)) -> effect inc d inc' t false.
Proof. intros G H. split; [exact G|]. split; [auto|]. intro ys. destruct (lossy_total (inc' ++ ys)) as [z Hz]. exists z. now apply H. Qed.
Lemma effect_none inc : good inc -> effect inc [] inc [] false.
Proof. intro G. apply effect_ok; [exact G|]. intros ys o H. exact H. Qed.
Lemma effect_seq inc d1 inc1 t1 d2 inc2 t2 f : effect inc d1 inc1 t1 false -> effect inc1 d2 inc2 t2 f -> effect inc (d1 ++ d2) inc2 (t1 ++ t2) f.
Proof.
  intros (_ & H1 & _) (G & H2 & H3). specialize (H1 eq_refl). split; [exact G|]. split.
  - intros F ys o L. rewrite <- !app_assoc. apply H1. now apply H2.
  - intro ys. destruct (H3 ys) as [z Hz]. exists z. rewrite <- !app_assoc. now apply H1.
Qed.
(** After a failure nothing more is delivered. *)
Lemma effect_fail inc d inc' t d' inc'' : effect inc d inc' t true -> good inc'' -> effect inc (d ++ d') inc'' t true.
Proof. intros (_ & _ & H) G. split; [exact G|]. split; [discriminate|]. intro ys. destruct (H (d' ++ ys)) as [z Hz]. exists z. now rewrite <- !app_assoc. Qed.
Lemma effect_weak inc d inc' t f d' : effect inc d inc' t f -> forall inc'', good inc'' -> effect inc (d ++ d') inc'' t true.
Proof. intros (_ & _ & H) inc'' G. split; [exact G|]. split; [discriminate|]. intro ys. destruct (H (d' ++ ys)) as [z Hz]. exists z. now rewrite <- !app_assoc. Qed.
(** Delivering a part of what is pending. *)
Lemma effect_pending inc d inc' t1 t2 : good inc' -> (forall ys o, lossy (inc' ++ ys) o -> lossy (inc ++ d ++ ys) ((t1 ++ t2) ++ o)) -> effect inc d inc' t1 true.
Proof.
  intros G H. split; [exact G|]. split; [discriminate|]. intro ys. destruct (lossy_total (inc' ++ ys)) as [z Hz]. exists (t2 ++ z). rewrite (app_assoc t1). now apply H.
Qed.
Lemma effect_broken i r inc' t f : first_char (i ++ r) = Broken i r -> effect [] r inc' t f -> effect [] (i ++ r) inc' (REPL ++ t) f.
Proof.
  intros C (G & H1 & H2). apply first_broken in C as (_ & _ & _ & St). split; [exact G|]. split.
  - intros F ys o L. cbn [app] in *. change ((REPL ++ t) ++ o) with (REPL ++ (t ++ o)). eapply lossy_broken; [apply St|]. now apply H1.
  - intro ys. destruct (H2 ys) as [z Hz]. exists z. cbn [app] in *. change ((REPL ++ t) ++ z) with (REPL ++ (t ++ z)). eapply lossy_broken; [apply St|exact Hz].
Qed.

Section Sink.
  Variable W : Type.
  Variable wr : W -> bytes -> W * bool.
  Notation owr := (observe wr).
  Notation st := (seen W).
  Lemma owr_cases (s : st) t : (exists s', owr s t = (s', true) /\ accepted s' = accepted s ++ t /\ failed s' = failed s) \/
                               (exists s', owr s t = (s', false) /\ accepted s' = accepted s /\ failed s' = true).
  Proof.
    unfold observe. destruct (wr (sink s) t) as [w' [|]]; [left|right]; eexists; (split; [reflexivity|]); cbn; (split; [reflexivity|]); [apply orb_false_r|apply orb_true_r].
  Qed.
  (** [from_to s s' t]: the sink went from [s] to [s'] and accepted [t]. *)
  Definition accepts (s s' : st) (t : bytes) : Prop := accepted s' = accepted s ++ t.

  Lemma write_byte_effect inc (s : st) b : good inc -> failed s = false ->
    exists inc' s' ok t, write_byte _ owr inc s b = Some (inc', s', ok) /\ accepts s s' t /\ failed s' = negb ok /\ effect inc [b] inc' t (negb ok).
  Proof.
    intros G F. unfold write_byte. destruct (push_spec inc b G) as (p & inc' & E & G' & H). rewrite E.
    assert (One : forall c, List.concat (texts p) = c -> exists inc'0 s' ok t,
       (let '(w', ok0) := owr s c in Some (inc', w', ok0)) = Some (inc'0, s', ok) /\ accepts s s' t /\ failed s' = negb ok /\ effect inc [b] inc'0 t (negb ok)).
    { intros c Ec. rewrite Ec in H. destruct (owr_cases s c) as [(s' & X & A & Fa)|(s' & X & A & Fa)]; rewrite X; eexists inc', s', _, _; (split; [reflexivity|]).
      - split; [exact A|]. split; [now rewrite Fa|]. apply effect_ok; [exact G'|exact H].
      - split; [unfold accepts; rewrite A; symmetry; apply app_nil_r|]. split; [exact Fa|]. apply (effect_pending _ _ _ [] c); [exact G'|exact H]. }
    assert (Two : forall c, List.concat (texts p) = REPL ++ c -> exists inc'0 s' ok t,
       (let '(w', ok0) := write_two _ owr s REPL c in Some (inc', w', ok0)) = Some (inc'0, s', ok) /\ accepts s s' t /\ failed s' = negb ok /\ effect inc [b] inc'0 t (negb ok)).
    { intros c Ec. rewrite Ec in H. unfold write_two. destruct (owr_cases s REPL) as [(s1 & X & A & Fa)|(s1 & X & A & Fa)]; rewrite X.
      - destruct (owr_cases s1 c) as [(s2 & X2 & A2 & Fa2)|(s2 & X2 & A2 & Fa2)]; rewrite X2.
        + exists inc', s2, true, (REPL ++ c). split; [reflexivity|]. split; [unfold accepts; now rewrite A2, A, <- app_assoc|]. split; [now rewrite Fa2, Fa|]. apply effect_ok; [exact G'|exact H].
        + exists inc', s2, false, REPL. split; [reflexivity|]. split; [unfold accepts; now rewrite A2, A|]. split; [exact Fa2|]. apply (effect_pending _ _ _ REPL c); [exact G'|exact H].
      - exists inc', s1, false, []. split; [reflexivity|]. split; [unfold accepts; now rewrite A, app_nil_r|]. split; [exact Fa|]. apply (effect_pending _ _ _ [] (REPL ++ c)); [exact G'|exact H]. }
    destruct p as [|c| |c|].
    - exists inc', s, true, []. split; [reflexivity|]. split; [unfold accepts; now rewrite app_nil_r|]. split; [exact F|]. apply effect_ok; [exact G'|exact H].
    - apply One. apply app_nil_r.
    - apply One. apply app_nil_r.
    - apply Two. cbn. now rewrite app_nil_r.
    - apply Two. cbn. reflexivity.
  Qed.
  Lemma accepts_trans s1 s2 s3 a b : accepts s1 s2 a -> accepts s2 s3 b -> accepts s1 s3 (a ++ b).
  Proof. unfold accepts. intros -> ->. now rewrite <- ?app_assoc. Qed.
  Lemma accepts_nil s : accepts s s [].
  Proof. unfold accepts. now rewrite app_nil_r. Qed.

  Lemma feed_effect data : forall inc (s : st) p, good inc -> failed s = false ->
    exists inc' s' p' rest t, feed _ owr inc s p data = Some (inc', s', p', rest) /\ accepts s s' t /\
      match rest with
      | Some r => exists d, data = d ++ r /\ p' = (p + List.length d)%nat /\ failed s' = false /\ effect inc d inc' t false /\ (inc' = [] \/ r = [])
      | None => (p' < p + List.length data)%nat /\ (p <= p')%nat /\ failed s' = true /\ effect inc data inc' t true
      end.
  Proof.
    induction data as [|b data IH]; intros inc s p G F.
    - exists inc, s, p, (Some []), []. split; [destruct inc; reflexivity|]. split; [apply accepts_nil|]. exists []. split; [reflexivity|]. split; [cbn; lia|]. split; [exact F|].
      split; [now apply effect_none|now right].
    - destruct inc as [|x inc].
      + exists [], s, p, (Some (b :: data)), []. split; [reflexivity|]. split; [apply accepts_nil|]. exists []. split; [reflexivity|]. split; [cbn; lia|]. split; [exact F|].
        split; [now apply effect_none|now left].
      + cbn [feed]. destruct (write_byte_effect (x :: inc) s b G F) as (inc1 & s1 & ok & t1 & E & A1 & F1 & H1). rewrite E. destruct ok.
        * destruct (IH inc1 s1 (S p)) as (inc' & s' & p' & rest & t & E2 & A2 & R); [apply H1|exact F1|]. rewrite E2. exists inc', s', p', rest, (t1 ++ t).
          split; [reflexivity|]. split; [eapply accepts_trans; eassumption|]. destruct rest as [r|].
          -- destruct R as (d & -> & -> & F2 & H2 & C). exists (b :: d). split; [reflexivity|]. split; [cbn; lia|]. split; [exact F2|]. split; [|exact C].
             change (b :: d) with ([b] ++ d). eapply effect_seq; eassumption.
          -- destruct R as (L1 & L2 & F2 & H2). split; [cbn; lia|]. split; [lia|]. split; [exact F2|]. change (b :: data) with ([b] ++ data). eapply effect_seq; eassumption.
        * exists inc1, s1, p, None, t1. split; [reflexivity|]. split; [exact A1|]. split; [cbn; lia|]. split; [lia|]. split; [exact F1|].
          change (b :: data) with ([b] ++ data). eapply effect_fail; [exact H1|apply H1].
  Qed.

  Lemma chunks_effect n : forall data (s : st) p, (List.length data <= n)%nat -> failed s = false ->
    exists inc' s' p' t, write_chunks _ owr [] s p (utf8_chunks data) = Some (inc', s', p') /\ accepts s s' t /\
      (p <= p' <= p + List.length data)%nat /\ (failed s' = true <-> p' < p + List.length data)%nat /\ effect [] data inc' t (failed s').
  Proof.
    induction n as [|n IH]; intros data s p Hn F.
    - destruct data; [|cbn in Hn; lia]. exists [], s, p, []. split; [reflexivity|]. split; [apply accepts_nil|]. rewrite F. cbn. split; [lia|]. split; [split; [discriminate|lia]|]. apply effect_none. now left.
    - destruct data as [|b data0].
      { exists [], s, p, []. split; [reflexivity|]. split; [apply accepts_nil|]. rewrite F. cbn. split; [lia|]. split; [split; [discriminate|lia]|]. apply effect_none. now left. }
      remember (b :: data0) as data eqn:Ed. assert (Hne : data <> []) by (rewrite Ed; discriminate). clear Ed b data0.
      destruct (chunks_cons data Hne) as (v & i & r & E & Es & Hv & Lr & C). rewrite E. cbn [write_chunks].
      destruct (owr_cases s v) as [(s1 & X & A & F1)|(s1 & X & A & F1)]; rewrite X; cbn [negb].
      2:{ exists [], s1, p, []. split; [reflexivity|]. split; [unfold accepts; now rewrite A, app_nil_r|]. assert (1 <= List.length data)%nat by (destruct data; [contradiction|cbn; lia]).
          split; [lia|]. rewrite F1. split; [split; [lia|reflexivity]|]. apply (effect_weak [] [] [] [] false); [apply effect_none; now left|now left]. }
      rewrite F in F1. assert (EV : effect [] v [] v false) by (apply effect_ok; [now left|exact Hv]).
      assert (Lv : List.length data = (List.length v + List.length i + List.length r)%nat) by (rewrite Es, !app_length; lia).
      destruct C as [(-> & -> & Hnv)|C].
      + (* valid to the end *)
        change (from_utf8 []) with (@None bool). cbn iota. change (utf8_chunks []) with (@nil (bytes * bytes)). cbn [write_chunks].
        exists [], s1, (p + List.length v)%nat, v. split; [reflexivity|]. split; [exact A|]. cbn in Lv. split; [lia|]. rewrite F1. split; [split; [discriminate|lia]|].
        rewrite Es. cbn [app]. rewrite app_nil_r. exact EV.
      + assert (Hi : i <> []) by (destruct C as [(Hi & _)|(Hi & _)]; exact Hi). assert (Li : (1 <= List.length i)%nat) by (destruct i; [contradiction|cbn; lia]).
        destruct C as [(_ & C)|(_ & -> & C)].
        * (* followed by something else, or wrong by itself *)
          assert (D : exists e, from_utf8 i = Some e /\ ((match utf8_chunks r with [] => false | _ :: _ => true end) || e)%bool = true).
          { pose proof (first_broken _ _ _ C) as (_ & _ & [[CC Hr]|(b0 & E0 & CC)] & _).
            - exists false. split; [now apply from_utf8_cut|]. destruct (utf8_chunks r) eqn:Er; [apply chunks_nil in Er; contradiction|reflexivity].
            - exists true. split; [eapply from_utf8_broken; eassumption|apply orb_true_r]. }
          destruct D as (e & Ee & De). rewrite Ee, De.
          destruct (owr_cases s1 REPL) as [(s2 & X2 & A2 & F2)|(s2 & X2 & A2 & F2)]; rewrite X2; cbn [negb].
          -- destruct (IH r s2 (p + List.length v + List.length i)%nat) as (inc' & s' & p' & t & E3 & A3 & L3 & F3 & H3); [lia|congruence|].
             rewrite E3. exists inc', s', p', (v ++ REPL ++ t). split; [reflexivity|]. split.
             ++ eapply accepts_trans; [exact A|]. eapply accepts_trans; [exact A2|exact A3].
             ++ split; [lia|]. split; [rewrite F3; lia|]. rewrite Es. eapply effect_seq; [exact EV|]. now apply effect_broken.
          -- exists [], s2, (p + List.length v)%nat, v. split; [reflexivity|]. split; [unfold accepts; now rewrite A2, A|]. split; [lia|]. rewrite F2. split; [split; [lia|reflexivity]|].
             rewrite Es. eapply effect_weak; [exact EV|now left].
        * rewrite from_utf8_cut by assumption. change (utf8_chunks []) with (@nil (bytes * bytes)). cbn [orb]. rewrite copy_good by (now right). cbn [write_chunks].
          exists i, s1, (p + List.length v + List.length i)%nat, v. split; [reflexivity|]. split; [exact A|]. cbn in Lv. split; [lia|]. rewrite F1. split; [split; [discriminate|lia]|].
          rewrite Es, app_nil_r. rewrite <- (app_nil_r v) at 2. eapply effect_seq; [exact EV|]. apply effect_ok; [now right|]. intros ys o L. exact L.
  Qed.

  (** The result of any call. *)
  Definition outcome (inc d : bytes) (s : st) (r : option (bytes * st * nat)) (asked : nat) : Prop :=
    exists inc' s' n t, r = Some (inc', s', n) /\ accepts s s' t /\ (n <= asked)%nat /\ (failed s' = true <-> n < asked)%nat /\ effect inc d inc' t (failed s').
  Lemma write_slice_effect inc (s : st) data : good inc -> failed s = false -> outcome inc data s (write_slice _ owr inc s data) (List.length data).
  Proof.
    intros G F. unfold write_slice. destruct (feed_effect data inc s 0 G F) as (inc1 & s1 & p & rest & t1 & E & A1 & R). rewrite E. destruct rest as [r|].
    - destruct R as (d & -> & -> & F1 & H1 & C). destruct C as [->| ->].
      + destruct (chunks_effect (List.length r) r s1 (0 + List.length d)%nat) as (inc' & s' & p' & t & E2 & A2 & L & F2 & H2); [lia|exact F1|].
        exists inc', s', p', (t1 ++ t). split; [exact E2|]. split; [eapply accepts_trans; eassumption|]. rewrite app_length. split; [lia|]. split; [rewrite F2; lia|]. eapply effect_seq; eassumption.
      + exists inc1, s1, (0 + List.length d)%nat, t1. split; [reflexivity|]. split; [exact A1|]. rewrite app_nil_r. split; [lia|]. rewrite F1. split; [split; [discriminate|lia]|exact H1].
    - destruct R as (L1 & L2 & F1 & H1). exists inc1, s1, p, t1. split; [reflexivity|]. split; [exact A1|]. split; [lia|]. rewrite F1. split; [split; [lia|reflexivity]|exact H1].
  Qed.
  Lemma fill_bytes_effect (b : byte) count : forall inc (s : st) k, good inc -> failed s = false ->
    exists inc' s' n t, fill_bytes _ owr inc s k count b = Some (inc', s', n) /\ accepts s s' t /\ (n <= k + count)%nat /\ (failed s' = true <-> n < k + count)%nat /\ effect inc (repeat b count) inc' t (failed s').
  Proof.
    induction count as [|count IH]; intros inc s k G F; cbn [fill_bytes repeat].
    - exists inc, s, k, []. split; [reflexivity|]. split; [apply accepts_nil|]. split; [lia|]. rewrite F. split; [split; [discriminate|lia]|]. now apply effect_none.
    - destruct (write_byte_effect inc s b G F) as (inc1 & s1 & ok & t1 & E & A1 & F1 & H1). rewrite E. destruct ok.
      + destruct (IH inc1 s1 (S k)) as (inc' & s' & n & t & E2 & A2 & L & F2 & H2); [apply H1|exact F1|]. rewrite E2. exists inc', s', n, (t1 ++ t).
        split; [reflexivity|]. split; [eapply accepts_trans; eassumption|]. split; [lia|]. split; [rewrite F2; lia|]. change (b :: repeat b count) with ([b] ++ repeat b count). eapply effect_seq; eassumption.
      + exists inc1, s1, k, t1. split; [reflexivity|]. split; [exact A1|]. split; [lia|]. rewrite F1. split; [split; [cbn; lia|reflexivity]|].
        change (b :: repeat b count) with ([b] ++ repeat b count). eapply effect_fail; [exact H1|apply H1].
  Qed.
  Lemma fill_ascii_effect (b : byte) count : b < 128 -> forall (s : st) k, failed s = false ->
    exists s' n t, fill_ascii _ owr s k count b = (s', n) /\ accepts s s' t /\ (n <= k + count)%nat /\ (failed s' = true <-> n < k + count)%nat /\ effect [] (repeat b count) [] t (failed s').
  Proof.
    intro Hb. assert (Hw : wf [b]) by (constructor; unfold rng; lia).
    assert (EB : effect [] [b] [] [b] false) by (apply effect_ok; [now left|]; intros ys o L; apply (lossy_char [b]); [exact Hw|exact L]).
    induction count as [|count IH]; intros s k F; cbn [fill_ascii repeat].
    - exists s, k, []. split; [reflexivity|]. split; [apply accepts_nil|]. split; [lia|]. rewrite F. split; [split; [discriminate|lia]|]. apply effect_none. now left.
    - destruct (owr_cases s [b]) as [(s1 & X & A & F1)|(s1 & X & A & F1)]; rewrite X.
      + destruct (IH s1 (S k)) as (s' & n & t & E2 & A2 & L & F2 & H2); [congruence|]. rewrite E2. exists s', n, ([b] ++ t). split; [reflexivity|]. split; [eapply accepts_trans; eassumption|].
        split; [lia|]. split; [rewrite F2; lia|]. change (b :: repeat b count) with ([b] ++ repeat b count). eapply effect_seq; eassumption.
      + exists s1, k, []. split; [reflexivity|]. split; [unfold accepts; now rewrite A, app_nil_r|]. split; [lia|]. rewrite F1. split; [split; [cbn; lia|reflexivity]|].
        apply (effect_weak [] [] [] [] false); [apply effect_none; now left|now left].
  Qed.
  Lemma ascii_breaks inc (b : byte) ys : inc <> [] -> first_char inc = Cut inc -> b < 128 -> first_char (inc ++ b :: ys) = Broken inc (b :: ys).
  Proof.
    intros Hne C Hb. assert (T : forall q, ~ wf (inc ++ b :: q)).
    { intros q Hw. destruct inc as [|x inc]; [contradiction|]. pose proof (wf_tail _ Hw b) as X. cbn [app tl] in X. assert (In b (inc ++ b :: q)) by (apply in_or_app; right; now left). specialize (X H). lia. }
    destruct (first_char (inc ++ [b])) as [c r|p r|p] eqn:E.
    - exfalso. pose proof (first_wf _ _ _ E) as Hw. pose proof (first_after_cut inc [b] Hne C) as F. rewrite E in F. destruct F as (m & Hm & -> & Em).
      destruct m as [|y m]; [contradiction|]. injection Em as <- _. now apply (T m).
    - pose proof (first_after_cut inc [b] Hne C) as F. rewrite E in F. destruct F as (m & -> & Em). pose proof (first_broken _ _ _ E) as (_ & _ & CC & St).
      destruct m as [|y m].
      + rewrite app_nil_r in *. cbn in Em. subst r. specialize (St ys). rewrite <- app_assoc in St. exact St.
      + injection Em as <- Em. symmetry in Em. apply app_eq_nil in Em as [-> ->]. exfalso. destruct CC as [[_ X]|(b0 & X & _)]; [contradiction|].
        destruct inc as [|z inc]; [contradiction|]. destruct inc; discriminate.
    - exfalso. pose proof (first_cut _ _ E) as [-> _]. apply cut_proper in E; [|destruct inc; discriminate]. destruct E as (_ & q & _ & Hw). rewrite <- app_assoc in Hw. now apply (T q).
  Qed.
  Lemma write_fill_effect inc (s : st) count b : good inc -> failed s = false -> outcome inc (repeat b count) s (write_fill _ owr inc s count b) count.
  Proof.
    intros G F. unfold write_fill. destruct (N.ltb_spec b 128) as [Hb|Hb]; cbn [negb].
    - destruct count as [|count].
      { exists inc, s, 0%nat, []. split; [reflexivity|]. split; [apply accepts_nil|]. split; [lia|]. rewrite F. split; [split; [discriminate|lia]|]. now apply effect_none. }
      destruct inc as [|x inc].
      + destruct (fill_ascii_effect b (S count) Hb s 0 F) as (s' & n & t & E & A & L & F1 & H). rewrite E. exists [], s', n, t. split; [reflexivity|]. auto.
      + destruct G as [G|G]; [discriminate|]. destruct (owr_cases s REPL) as [(s1 & X & A & F1)|(s1 & X & A & F1)]; rewrite X; cbn [negb].
        * destruct (fill_ascii_effect b (S count) Hb s1 0) as (s' & n & t & E & A2 & L & F2 & H); [congruence|]. rewrite E. exists [], s', n, (REPL ++ t). split; [reflexivity|].
          split; [eapply accepts_trans; eassumption|]. split; [exact L|]. split; [exact F2|].
          destruct H as (G' & H1 & H2). split; [exact G'|]. split.
          -- intros Fs ys o L0. change ((REPL ++ t) ++ o) with (REPL ++ (t ++ o)). eapply lossy_broken; [apply ascii_breaks; [discriminate|exact G|exact Hb]|]. now apply (H1 Fs ys).
          -- intro ys. destruct (H2 ys) as [z Hz]. exists z. change ((REPL ++ t) ++ z) with (REPL ++ (t ++ z)). eapply lossy_broken; [apply ascii_breaks; [discriminate|exact G|exact Hb]|exact Hz].
        * exists [], s1, 0%nat, []. split; [reflexivity|]. split; [unfold accepts; now rewrite A, app_nil_r|]. split; [lia|]. rewrite F1. split; [split; [lia|reflexivity]|].
          apply (effect_weak (x :: inc) [] (x :: inc) [] false); [apply effect_none; now right|now left].
    - destruct (fill_bytes_effect b count inc s 0 G F) as (inc' & s' & n & t & E & A & L & F1 & H). exists inc', s', n, t. split; [exact E|]. auto.
  Qed.
  (** Flushing writes the decoding of the buffer. *)
  Lemma flush_effect inc (s : st) : good inc -> failed s = false ->
    exists s' ok t, flush _ owr inc s = ([], s', ok) /\ accepts s s' t /\ failed s' = negb ok /\ (ok = true -> lossy inc t) /\ (ok = false -> t = []).
  Proof.
    intros G F. unfold flush. destruct inc as [|x inc].
    - exists s, true, []. split; [reflexivity|]. split; [apply accepts_nil|]. split; [exact F|]. split; [constructor|discriminate].
    - destruct G as [G|G]; [discriminate|]. destruct (owr_cases s REPL) as [(s1 & X & A & F1)|(s1 & X & A & F1)]; rewrite X.
      + exists s1, true, REPL. split; [reflexivity|]. split; [exact A|]. split; [now rewrite F1|]. split; [intros _; apply lossy_cut; [discriminate|exact G]|discriminate].
      + exists s1, false, []. split; [reflexivity|]. split; [unfold accepts; now rewrite A, app_nil_r|]. split; [exact F1|]. split; [discriminate|reflexivity].
  Qed.
End Sink.
