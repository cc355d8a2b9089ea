(** Proofs about parameters: the conversion code of the C++ wrapper and of the Rust thunk, executed on one memory. *)
From Coq Require Import List Arith ZArith Bool Lia.
From Verif Require Import Thunk.Model Thunk.Spec.
Import ListNotations.

Lemma ty_ind' (P : ty -> Prop) :
  P Prim -> P Never -> P Char -> P Fat -> (forall ts, Forall P ts -> P (Tuple ts)) -> (forall t, P t -> P (Array t)) ->
  (forall a, P (Adt a)) -> (forall a t, P t -> P (Newtype a t)) -> forall t, P t.
Proof.
  intros H1 H2 H3 H4 H5 H6 H7 H8. fix IH 1. destruct t; [exact H1|exact H2|exact H3|exact H4| |apply H6, IH|apply H7|apply H8, IH].
  apply H5. induction ts; constructor; [apply IH|assumption].
Qed.

Lemma cval_ind' (P : cval -> Prop) :
  (forall r, P (VBits r)) -> P VMoved -> (forall vs, Forall P vs -> P (VTuple vs)) -> forall v, P v.
Proof.
  intros H1 H2 H3. fix IH 1. destruct v; [apply H1| |exact H2].
  apply H3. induction vs; constructor; [apply IH|assumption].
Qed.

(** * Objects in memory *)
Fixpoint holds (v : cval) (m : memory) (x hi : addr) {struct v} : Prop :=
  match v with
  | VBits r => m x = CBits r /\ hi = S x
  | VMoved => m x = CMoved /\ hi = S x
  | VTuple vs =>
      exists xs, m x = CTup xs /\
        (fix all (vs : list cval) (xs : list addr) (lo : addr) {struct vs} : Prop :=
           match vs with
           | [] => xs = [] /\ lo = hi
           | w :: ws => exists ys mid, xs = lo :: ys /\ holds w m lo mid /\ all ws ys mid
           end) vs xs (S x)
  end.
Fixpoint holds_all (m : memory) (hi : addr) (vs : list cval) (xs : list addr) (lo : addr) {struct vs} : Prop :=
  match vs with
  | [] => xs = [] /\ lo = hi
  | w :: ws => exists ys mid, xs = lo :: ys /\ holds w m lo mid /\ holds_all m hi ws ys mid
  end.
Lemma holds_tuple vs m x hi : holds (VTuple vs) m x hi <-> exists xs, m x = CTup xs /\ holds_all m hi vs xs (S x).
Proof.
  cbn [holds]. generalize (S x). intros n.
  enough (HH : forall xs n,
    (fix all (vs : list cval) (xs : list addr) (lo : addr) {struct vs} : Prop :=
           match vs with
           | [] => xs = [] /\ lo = hi
           | w :: ws => exists ys mid, xs = lo :: ys /\ holds w m lo mid /\ all ws ys mid
           end) vs xs n <-> holds_all m hi vs xs n).
  { split; intros (xs & E & H); exists xs; (split; [exact E|apply HH, H]). }
  clear n. induction vs as [|v vs IH]; intros xs n; [reflexivity|]. cbn [holds_all].
  split; intros (ys & mid & E & H1 & H2); exists ys, mid; (split; [exact E|]); (split; [exact H1|apply IH, H2]).
Qed.

Lemma holds_lt v : forall m x hi, holds v m x hi -> x < hi.
Proof.
  induction v as [r| |vs IH] using cval_ind'; intros m x hi H; cbn in H; try (destruct H; lia).
  apply holds_tuple in H. destruct H as (xs & _ & H).
  enough (S x <= hi) by lia. remember (S x) as lo. clear Heqlo. revert xs lo H.
  induction IH as [|v vs Hv _ IHvs]; intros xs lo H; cbn in H; [destruct H; lia|].
  destruct H as (ys & mid & _ & H1 & H2). apply Hv in H1. apply IHvs in H2. lia.
Qed.
Lemma holds_all_le m hi vs : forall xs lo, holds_all m hi vs xs lo -> lo <= hi.
Proof.
  induction vs as [|v vs IH]; intros xs lo H; cbn in H; [destruct H; lia|].
  destruct H as (ys & mid & _ & H1 & H2). apply holds_lt in H1. apply IH in H2. lia.
Qed.

Definition agree (m m' : memory) (P : addr -> Prop) := forall a, P a -> m' a = m a.

Lemma holds_agree v : forall m m' x hi, holds v m x hi -> agree m m' (fun a => x <= a < hi) -> holds v m' x hi.
Proof.
  induction v as [r| |vs IH] using cval_ind'; intros m m' x hi H A.
  - destruct H as [H ->]. split; [rewrite A; [exact H|lia]|reflexivity].
  - destruct H as [H ->]. split; [rewrite A; [exact H|lia]|reflexivity].
  - pose proof (holds_lt _ _ _ _ H). apply holds_tuple in H. destruct H as (xs & E & H). apply holds_tuple. exists xs.
    split; [rewrite A; [exact E|lia]|].
    assert (A' : agree m m' (fun a => S x <= a < hi)) by (intros a Ha; apply A; lia).
    clear A E H0. remember (S x) as lo. clear Heqlo. revert xs lo H A'.
    induction IH as [|v vs Hv _ IHvs]; intros xs lo H A'; cbn in *; [exact H|].
    destruct H as (ys & mid & -> & H1 & H2). pose proof (holds_lt _ _ _ _ H1). pose proof (holds_all_le _ _ _ _ _ H2).
    exists ys, mid. split; [reflexivity|]. split.
    + eapply Hv; [exact H1|]. intros a Ha. apply A'. lia.
    + apply IHvs; [exact H2|]. intros a Ha. apply A'. lia.
Qed.
Lemma holds_all_agree m m' hi vs : forall xs lo, holds_all m hi vs xs lo -> agree m m' (fun a => lo <= a < hi) -> holds_all m' hi vs xs lo.
Proof.
  induction vs as [|v vs IH]; intros xs lo H A; cbn in *; [exact H|].
  destruct H as (ys & mid & -> & H1 & H2). pose proof (holds_lt _ _ _ _ H1). pose proof (holds_all_le _ _ _ _ _ H2).
  exists ys, mid. split; [reflexivity|]. split.
  - eapply holds_agree; [exact H1|]. intros a Ha. apply A. lia.
  - apply IH; [exact H2|]. intros a Ha. apply A. lia.
Qed.

(** [create]. *)
Lemma set_same m a c : set m a c a = c.
Proof. unfold set. now rewrite Nat.eqb_refl. Qed.
Lemma set_other m a c b : b <> a -> set m a c b = m b.
Proof. intros H. unfold set. apply Nat.eqb_neq in H. now rewrite H. Qed.

Lemma create_tuple vs h :
  create (VTuple vs) h =
  (let (x, h0) := alloc h CUninit in let '(xs, h1) := create_all vs h0 in (x, store h1 x (CTup xs))).
Proof. reflexivity. Qed.

Lemma create_holds v : forall m n, exists m' n', create v (m, n) = (n, (m', n')) /\ holds v m' n n' /\ agree m m' (fun a => a < n).
Proof.
  induction v as [r| |vs IH] using cval_ind'; intros m n.
  - exists (set m n (CBits r)), (S n). split; [reflexivity|]. split; [split; [apply set_same|reflexivity]|].
    intros a Ha. apply set_other. lia.
  - exists (set m n CMoved), (S n). split; [reflexivity|]. split; [split; [apply set_same|reflexivity]|].
    intros a Ha. apply set_other. lia.
  - assert (HA : forall m n, exists xs m' n', create_all vs (m, n) = (xs, (m', n')) /\ holds_all m' n' vs xs n /\ agree m m' (fun a => a < n)).
    { clear m n. induction IH as [|v vs Hv _ IHvs]; intros m n.
      - exists [], m, n. cbn. repeat split; reflexivity.
      - destruct (Hv m n) as (m1 & n1 & E1 & H1 & A1). destruct (IHvs m1 n1) as (xs & m2 & n2 & E2 & H2 & A2).
        exists (n :: xs), m2, n2. cbn [create_all]. rewrite E1, E2. split; [reflexivity|].
        pose proof (holds_lt _ _ _ _ H1). split.
        + cbn. exists xs, n1. split; [reflexivity|]. split; [|exact H2].
          eapply holds_agree; [exact H1|]. intros a Ha. apply A2. lia.
        + intros a Ha. rewrite A2 by lia. apply A1. lia. }
    rewrite create_tuple. unfold alloc. cbn [fst snd].
    destruct (HA (set m n CUninit) (S n)) as (xs & m1 & n1 & E & H & A).
    exists (set m1 n (CTup xs)), n1.
    split; [exact (f_equal (fun p : list addr * heap => let '(xs, h1) := p in (n, store h1 n (CTup xs))) E)|]. split.
    + apply holds_tuple. exists xs. split; [apply set_same|].
      eapply holds_all_agree; [exact H|]. intros a Ha. apply set_other. lia.
    + intros a Ha. rewrite set_other by lia. rewrite A by lia. apply set_other. lia.
Qed.
Lemma create_all_holds vs : forall m n, exists xs m' n',
  create_all vs (m, n) = (xs, (m', n')) /\ holds_all m' n' vs xs n /\ agree m m' (fun a => a < n).
Proof.
  induction vs as [|v vs IHvs]; intros m n.
  - exists [], m, n. cbn. repeat split; reflexivity.
  - destruct (create_holds v m n) as (m1 & n1 & E1 & H1 & A1). destruct (IHvs m1 n1) as (xs & m2 & n2 & E2 & H2 & A2).
    exists (n :: xs), m2, n2. cbn [create_all]. rewrite E1, E2. split; [reflexivity|].
    pose proof (holds_lt _ _ _ _ H1). split.
    + cbn. exists xs, n1. split; [reflexivity|]. split; [|exact H2].
      eapply holds_agree; [exact H1|]. intros a Ha. apply A2. lia.
    + intros a Ha. rewrite A2 by lia. apply A1. lia.
Qed.

(** [observe]. *)
Fixpoint depths (vs : list cval) : nat := match vs with [] => 0 | w :: ws => Nat.max (depth w) (depths ws) end.
Fixpoint observes (d : nat) (m : memory) (xs : list addr) : option (list cval) :=
  match xs with
  | [] => Some []
  | y :: ys => match observe d m y, observes d m ys with Some v, Some vs => Some (v :: vs) | _, _ => None end
  end.
Lemma observe_S d m x :
  observe (S d) m x =
  match m x with
  | CBits r => Some (VBits r)
  | CMoved => Some VMoved
  | CTup xs => match observes d m xs with Some vs => Some (VTuple vs) | None => None end
  | _ => None
  end.
Proof.
  cbn [observe]. destruct (m x); try reflexivity.
  match goal with |- match ?f _ with _ => _ end = _ => set (g := f) end.
  enough (HH : forall xs, g xs = observes d m xs) by now rewrite HH.
  clear. induction xs as [|y ys IH]; [reflexivity|]. cbn [observes g]. fold g. now rewrite IH.
Qed.

Lemma holds_observe v : forall d m x hi, holds v m x hi -> depth v <= d -> observe d m x = Some v.
Proof.
  induction v as [r| |vs IH] using cval_ind'; intros d m x hi H D.
  - destruct d; [cbn in D; lia|]. destruct H as [H _]. cbn. now rewrite H.
  - destruct d; [cbn in D; lia|]. destruct H as [H _]. cbn. now rewrite H.
  - change (depth (VTuple vs)) with (S (depths vs)) in D. destruct d as [|d]; [lia|].
    apply holds_tuple in H. destruct H as (xs & E & H). rewrite observe_S, E.
    assert (D' : depths vs <= d) by lia. clear D E. remember (S x) as lo. clear Heqlo.
    enough (HH : observes d m xs = Some vs) by now rewrite HH.
    revert xs lo H D'. induction IH as [|v vs Hv _ IHvs]; intros xs lo H D'; cbn in H.
    + destruct H as [-> _]. reflexivity.
    + destruct H as (ys & mid & -> & H1 & H2). cbn [depths] in D'. cbn [observes].
      rewrite (Hv d m lo mid H1) by lia. rewrite (IHvs ys mid H2) by lia. reflexivity.
Qed.
Lemma holds_all_observe m hi d vs : forall xs lo, holds_all m hi vs xs lo -> Forall (fun v => depth v <= d) vs ->
  map (observe d m) xs = map Some vs.
Proof.
  induction vs as [|v vs IH]; intros xs lo H D; cbn in H.
  - destruct H as [-> _]. reflexivity.
  - destruct H as (ys & mid & -> & H1 & H2). inversion D; subst. cbn [map].
    rewrite (holds_observe v d m lo mid H1) by assumption. f_equal. eapply IH; eassumption.
Qed.

(** * The conversion *)
Section Conv.
Variable cfg : config.
Variables cpp_to_rust rust_to_cpp : nat -> rval -> rval.

Notation cc_param' := (cc_param cfg cpp_to_rust).
Notation rs_param' := (rs_param cfg cpp_to_rust).

(** No composable type inside a [std::tuple]. *)
Fixpoint no_composable (t : ty) : bool :=
  match t with
  | Tuple ts => if layout_compat_tuple cfg then true else forallb (fun e => negb (is_composable e) && no_composable e) ts
  | _ => true
  end.
Lemma format_no_composable t : forall l, is_bridgeable l = true -> format_ok cfg t l = true -> no_composable t = true.
Proof.
  induction t as [| | | |ts IH| | |] using ty_ind'; intros l B F; try reflexivity.
  cbn [no_composable]. destruct (layout_compat_tuple cfg) eqn:L; [reflexivity|].
  destruct ts as [|t ts]; [reflexivity|].
  cbn [format_ok] in F. rewrite B, L in F. cbn [negb orb] in F.
  rewrite forallb_forall in F |- *. rewrite Forall_forall in IH. intros e He.
  specialize (F e He). apply andb_true_iff in F. destruct F as [F1 F2]. rewrite F1. cbn.
  apply (IH e He NestedBridgeable); [reflexivity|exact F2].
Qed.

Definition bind (e : ty) (h : heap) (ex : expr) : option (addr * heap) :=
  match e with Tuple _ => bind_ptr h ex | _ => Some (bind_ref h ex) end.
Fixpoint cc_elements (nm : name) (ts : list ty) (i : nat) (xs : list addr) (h : heap) {struct ts} : option (list name * list addr * heap) :=
  match ts, xs with
  | [], [] => Some ([], [], h)
  | e :: ts1, y :: ys =>
      match cc_param' e (app_seg nm (Elem i)) y h with
      | Some (ds, ex, h1) =>
          match bind e h1 ex with
          | Some (c, h2) =>
              match cc_elements nm ts1 (S i) ys h2 with
              | Some (ds', cs, h3) => Some (app_seg nm (Elem i) :: ds ++ app_seg nm (CabiElem i) :: ds', c :: cs, h3)
              | None => None
              end
          | None => None
          end
      | None => None
      end
  | _, _ => None
  end.
Lemma cc_param_tuple t0 ts nm x h : layout_compat_tuple cfg = false ->
  cc_param' (Tuple (t0 :: ts)) nm x h =
  match fst h x with
  | CTup xs =>
      match cc_elements nm (t0 :: ts) 0 xs h with
      | Some (ds, cs, h1) => let (r, h2) := alloc h1 (CPtrs cs) in Some (ds ++ [app_seg nm CabiName], ARR r, h2)
      | None => None
      end
  | _ => None
  end.
Proof.
  intros L. assert (B : by_value cfg (Tuple (t0 :: ts)) = false) by reflexivity. revert B. generalize (t0 :: ts). clear t0 ts. intros ts B.
  cbn [cc_param is_bridged adt_of]. rewrite B, L. destruct (fst h x); try reflexivity.
  match goal with |- match ?f _ _ _ _ with _ => _ end = _ => set (g := f) end.
  enough (HH : forall ts i xs h, g ts i xs h = cc_elements nm ts i xs h) by now rewrite HH.
  clear. induction ts as [|t ts IH]; intros i xs h; destruct xs; try reflexivity.
  cbn [cc_elements g]. unfold bind. fold g.
  destruct (cc_param' t (app_seg nm (Elem i)) n h) as [[[ds ex] h1]|]; [|reflexivity].
  destruct t; try (destruct (bind_ref h1 ex) as [c h2]; rewrite IH; reflexivity).
  destruct (bind_ptr h1 ex) as [[c h2]|]; [rewrite IH|]; reflexivity.
Qed.

Fixpoint rs_elements (m : memory) (ts : list ty) (xs : list addr) {struct ts} : option (list rval) :=
  match ts, xs with
  | [], [] => Some []
  | e :: ts1, y :: ys => match rs_param' e (m y) m, rs_elements m ts1 ys with Some r, Some rs => Some (r :: rs) | _, _ => None end
  | _, _ => None
  end.
Lemma rs_param_tuple t0 ts c m : layout_compat_tuple cfg = false ->
  rs_param' (Tuple (t0 :: ts)) c m =
  match c with
  | CPtr a => match m a with CPtrs xs => match rs_elements m (t0 :: ts) xs with Some rs => Some (RTuple rs) | None => None end | _ => None end
  | _ => None
  end.
Proof.
  intros L. assert (B : by_value cfg (Tuple (t0 :: ts)) = false) by reflexivity. revert B. generalize (t0 :: ts). clear t0 ts. intros ts B.
  cbn [rs_param is_bridged adt_of]. rewrite B, L. destruct c; try reflexivity. destruct (m a); try reflexivity.
  match goal with |- match ?f _ _ with _ => _ end = _ => set (g := f) end.
  enough (HH : forall ts xs, g ts xs = rs_elements m ts xs) by now rewrite HH.
  clear. induction ts as [|t ts IH]; intros xs; destruct xs; try reflexivity.
  cbn [rs_elements g]. fold g. now rewrite IH.
Qed.

Lemma to_rust_tuple t0 ts v : layout_compat_tuple cfg = false ->
  to_rust cfg cpp_to_rust (Tuple (t0 :: ts)) v =
  match v with VTuple vs => match all_to_rust cfg cpp_to_rust (t0 :: ts) vs with Some rs => Some (RTuple rs) | None => None end | _ => None end.
Proof. intros L. cbn [to_rust]. rewrite L. destruct v; reflexivity. Qed.
Lemma leaves_tuple t0 ts vs : layout_compat_tuple cfg = false ->
  leaves cfg (Tuple (t0 :: ts)) (VTuple vs) = VTuple (all_leaves cfg (t0 :: ts) vs).
Proof. intros L. cbn [leaves]. rewrite L. reflexivity. Qed.

(** [n]: the memory in use before; everything at [n] and above is new. *)
Definition post (t : ty) (v : cval) (r : rval) (x hi n : addr) (m : memory) (e : expr) (m' : memory) (n' : addr) : Prop :=
  n <= n' /\
  agree m m' (fun a => a < n /\ ~ (x <= a < hi)) /\
  holds (leaves cfg t v) m' x hi /\
  (forall m2 (k : addr), agree m' m2 (fun a => (x <= a < hi) \/ (n <= a < n')) -> rs_param' t (as_argument (m2, k) e) m2 = Some r) /\
  match e with
  | LV a => a = x /\ match t with Tuple (_ :: _) => False | _ => True end
  | ARR a => n <= a < n' /\ (is_composable t = true \/ exists t0 ts, t = Tuple (t0 :: ts))
  | PV c => match t with Tuple _ => layout_compat_tuple cfg = true | _ => True end
  end.

(** Objects that are one cell. *)
Lemma post_same t v r m x hi n :
  holds v m x hi -> hi <= n -> leaves cfg t v = v -> match t with Tuple (_ :: _) => False | _ => True end ->
  (forall m2, agree m m2 (fun a => x <= a < hi) -> rs_param' t (m2 x) m2 = Some r) ->
  post t v r x hi n m (LV x) m n.
Proof.
  intros H Hn L T R. split; [lia|]. split; [intros a _; reflexivity|]. split; [now rewrite L|].
  split; [|split; [reflexivity|exact T]]. intros m2 k A. cbn. apply R. intros a Ha. apply A. now left.
Qed.
Lemma post_addr t v r m x hi n :
  holds v m x hi -> hi <= n -> leaves cfg t v = v ->
  match t with Tuple _ => layout_compat_tuple cfg = true | _ => True end ->
  (forall m2, agree m m2 (fun a => x <= a < hi) -> rs_param' t (CPtr x) m2 = Some r) ->
  post t v r x hi n m (PV (CPtr x)) m n.
Proof.
  intros H Hn L T R. split; [lia|]. split; [intros a _; reflexivity|]. split; [now rewrite L|].
  split; [|exact T]. intros m2 k A. cbn. apply R. intros a Ha. apply A. now left.
Qed.
Lemma post_slot t r q m x n :
  m x = CBits q -> x < n ->
  leaves cfg t (VBits q) = match t with Array _ => VBits q | _ => VMoved end ->
  match t with Tuple _ => layout_compat_tuple cfg = true | _ => True end ->
  (forall m2 a, m2 a = CBits q -> rs_param' t (CPtr a) m2 = Some r) ->
  let m' := set (set m x (moved_out t (CBits q))) n (CBits q) in
  post t (VBits q) r x (S x) n m (PV (CPtr n)) m' (S n).
Proof.
  intros E Hn L T R m'. split; [lia|]. split; [intros a Ha; unfold m'; rewrite !set_other by lia; reflexivity|]. split.
  - rewrite L. unfold m'. destruct t; cbn [holds moved_out]; split; try reflexivity; rewrite set_other by lia; apply set_same.
  - split; [|exact T]. intros m2 k A. cbn. apply R. rewrite A by lia. apply set_same.
Qed.

Lemma bind_post t v r m x hi n e m' n' :
  layout_compat_tuple cfg = false -> is_composable t = false -> hi <= n -> holds v m x hi -> post t v r x hi n m e m' n' ->
  exists c m3 n3, bind t (m', n') e = Some (c, (m3, n3)) /\ n' <= n3 /\ agree m' m3 (fun a => a < n') /\
    forall m2, agree m3 m2 (fun a => (x <= a < hi) \/ (n <= a < n3)) -> rs_param' t (m2 c) m2 = Some r.
Proof.
  intros L C Hn Hv (P1 & P2 & P3 & P4 & P5). pose proof (holds_lt _ _ _ _ Hv) as Hx.
  assert (PTR : forall c, (forall m2 (k : addr), agree m' m2 (fun a => (x <= a < hi) \/ (n <= a < n')) -> rs_param' t c m2 = Some r) ->
    exists c' m3 n3, alloc (m', n') c = (c', (m3, n3)) /\ n' <= n3 /\ agree m' m3 (fun a => a < n') /\
    forall m2, agree m3 m2 (fun a => (x <= a < hi) \/ (n <= a < n3)) -> rs_param' t (m2 c') m2 = Some r).
  { intros c R. exists n', (set m' n' c), (S n'). split; [reflexivity|]. split; [lia|].
    split; [intros a Ha; apply set_other; lia|]. intros m2 A.
    rewrite (A n') by lia. rewrite set_same. apply (R m2 0). intros a Ha. rewrite A by lia. apply set_other. lia. }
  assert (SAME : forall c, (forall m2 (k : addr), agree m' m2 (fun a => (x <= a < hi) \/ (n <= a < n')) -> rs_param' t (m2 c) m2 = Some r) ->
    exists c' m3 n3, (c, (m', n')) = (c', (m3, n3)) /\ n' <= n3 /\ agree m' m3 (fun a => a < n') /\
    forall m2, agree m3 m2 (fun a => (x <= a < hi) \/ (n <= a < n3)) -> rs_param' t (m2 c') m2 = Some r).
  { intros c R. exists c, m', n'. split; [reflexivity|]. split; [lia|].
    split; [intros a Ha; reflexivity|]. intros m2 A. apply (R m2 0). exact A. }
  assert (BR : (forall ts, t <> Tuple ts) ->
    exists c' m3 n3, bind_ref (m', n') e = (c', (m3, n3)) /\ n' <= n3 /\ agree m' m3 (fun a => a < n') /\
    forall m2, agree m3 m2 (fun a => (x <= a < hi) \/ (n <= a < n3)) -> rs_param' t (m2 c') m2 = Some r).
  { intros NT. destruct e as [a|a|c]; cbn [bind_ref].
    - apply SAME. exact P4.
    - destruct P5 as [_ [Co|(t0 & ts & ->)]]; [congruence|]. now destruct (NT (t0 :: ts)).
    - apply PTR. exact P4. }
  assert (NTcase : (forall ts, t <> Tuple ts) -> bind t (m', n') e = Some (bind_ref (m', n') e)).
  { intros NT. destruct t; try reflexivity. now destruct (NT ts). }
  destruct t as [| | | |ts| | |];
    try (rewrite NTcase by (intros; discriminate); destruct BR as (c' & m3 & n3 & E & R); [intros; discriminate|];
         exists c', m3, n3; rewrite E; auto).
  destruct e as [a|a|c]; cbn [bind bind_ptr].
  - destruct P5 as [-> T]. destruct ts as [|t0 ts]; [|contradiction].
    destruct (PTR (CPtr x)) as (c' & m3 & n3 & E & R); [intros m2 k A; exact (P4 m2 k A)|]. exists c', m3, n3. rewrite E; auto.
  - destruct (PTR (CPtr a)) as (c' & m3 & n3 & E & R); [intros m2 k A; exact (P4 m2 k A)|]. exists c', m3, n3. rewrite E; auto.
  - rewrite L in P5. discriminate.
Qed.

Definition good (t : ty) : Prop := forall nm v r m x hi n,
  no_composable t = true -> to_rust cfg cpp_to_rust t v = Some r -> holds v m x hi -> hi <= n ->
  exists ds e m' n', cc_param' t nm x (m, n) = Some (ds, e, (m', n')) /\ post t v r x hi n m e m' n'.

Lemma leaves_holds_mono : forall m m' x hi n n' v, holds v m x hi -> hi <= n -> n <= n' ->
  agree m m' (fun a => a < n /\ ~ (n <= a < n')) -> holds v m' x hi.
Proof. intros. eapply holds_agree; [eassumption|]. intros a Ha. apply H2. lia. Qed.

Lemma elements_post ts : layout_compat_tuple cfg = false -> Forall good ts -> forall nm i vs rs m xs lo hi n,
  forallb (fun e => negb (is_composable e) && no_composable e) ts = true ->
  all_to_rust cfg cpp_to_rust ts vs = Some rs -> holds_all m hi vs xs lo -> hi <= n ->
  exists ds cs m' n', cc_elements nm ts i xs (m, n) = Some (ds, cs, (m', n')) /\ n <= n' /\
    agree m m' (fun a => a < n /\ ~ (lo <= a < hi)) /\ holds_all m' hi (all_leaves cfg ts vs) xs lo /\
    (forall m2, agree m' m2 (fun a => (lo <= a < hi) \/ (n <= a < n')) -> rs_elements m2 ts cs = Some rs).
Proof.
  intros L G. induction G as [|t ts Gt _ IH]; intros nm i vs rs m xs lo hi n F T H Hn.
  - destruct vs as [|v vs]; [|discriminate T]. cbn in T. injection T as <-. cbn in H. destruct H as [-> ->].
    exists [], [], m, n. split; [reflexivity|]. split; [lia|]. split; [intros a _; reflexivity|].
    split; [cbn; auto|]. intros m2 _. reflexivity.
  - destruct vs as [|v vs]; [discriminate T|]. cbn [all_to_rust] in T.
    destruct (to_rust cfg cpp_to_rust t v) as [r|] eqn:Tv; [|discriminate].
    destruct (all_to_rust cfg cpp_to_rust ts vs) as [rs1|] eqn:Tvs; [|discriminate]. injection T as <-.
    cbn [forallb] in F. apply andb_true_iff in F. destruct F as [F Fs]. apply andb_true_iff in F. destruct F as [Fc Fn].
    apply negb_true_iff in Fc.
    cbn in H. destruct H as (ys & mid & -> & H1 & H2).
    pose proof (holds_lt _ _ _ _ H1) as Hlo. pose proof (holds_all_le _ _ _ _ _ H2) as Hmid.
    destruct (Gt (app_seg nm (Elem i)) v r m lo mid n Fn Tv H1 ltac:(lia)) as (ds & e & m1 & n1 & E1 & P).
    destruct (bind_post t v r m lo mid n e m1 n1 L Fc ltac:(lia) H1 P) as (c & m2 & n2 & E2 & N2 & A2 & R2).
    destruct P as (P1 & P2 & P3 & _ & _).
    assert (H2' : holds_all m2 hi vs ys mid).
    { eapply holds_all_agree; [exact H2|]. intros a Ha. rewrite A2 by lia. apply P2. lia. }
    destruct (IH nm (S i) vs rs1 m2 ys mid hi n2 Fs Tvs H2' ltac:(lia)) as (ds' & cs & m3 & n3 & E3 & N3 & A3 & L3 & R3).
    exists (app_seg nm (Elem i) :: ds ++ app_seg nm (CabiElem i) :: ds'), (c :: cs), m3, n3.
    cbn [cc_elements]. rewrite E1, E2, E3. split; [reflexivity|]. split; [lia|]. split; [|split].
    + intros a Ha. rewrite A3 by lia. rewrite A2 by lia. apply P2. lia.
    + cbn [all_leaves holds_all]. exists ys, mid. split; [reflexivity|]. split; [|exact L3].
      eapply holds_agree; [exact P3|]. intros a Ha. rewrite A3 by lia. apply A2. lia.
    + intros m4 A4. cbn [rs_elements]. rewrite R3; [|intros a Ha; apply A4; lia].
      rewrite R2; [reflexivity|]. intros a Ha. rewrite A4 by lia. apply A3. lia.
Qed.

(** A type with one cell, not a [std::tuple]: passed in one of three ways. *)
Lemma bits_post t q r m x n nm (conv : rval -> rval) :
  m x = CBits q -> x < n -> r = conv q ->
  (forall (c : cell) m, rs_param' t c m = match c with CPtr a => match m a with CBits r => Some (conv r) | _ => None end | _ => None end) ->
  match t with Tuple _ => layout_compat_tuple cfg = true | _ => True end ->
  leaves cfg t (VBits q) = (if needs_drop t then match t with Array _ => VBits q | _ => VMoved end else VBits q) ->
  exists ds e m' n',
    (if negb (needs_drop t) then Some ([], PV (CPtr x), (m, n))
     else let (s, h1) := slot_from t (m, n) x in Some ([app_seg nm SlotName], PV (CPtr s), h1)) = Some (ds, e, (m', n')) /\
    post t (VBits q) r x (S x) n m e m' n'.
Proof.
  intros E Hn -> R T Lv. destruct (needs_drop t) eqn:D; cbn [negb].
  - unfold slot_from. cbn [fst]. rewrite E. eexists _, _, _, _. split; [reflexivity|].
    apply post_slot; try assumption. intros m2 a Ha. rewrite R, Ha. reflexivity.
  - eexists _, _, _, _. split; [reflexivity|]. apply post_addr; try assumption; try lia.
    + split; [exact E|reflexivity].
    + intros m2 A. rewrite R. rewrite (A x) by lia. rewrite E. reflexivity.
Qed.

Lemma value_post t q m x n :
  m x = CBits q -> x < n ->
  (forall m2 : memory, rs_param' t (CBits q) m2 = Some q) ->
  match t with Tuple _ => False | _ => True end -> leaves cfg t (VBits q) = VBits q ->
  post t (VBits q) q x (S x) n m (LV x) m n.
Proof.
  intros E Hn R T Lv. apply post_same; try assumption; try lia.
  - split; [exact E|reflexivity].
  - destruct t as [| | | |[|]| | |]; try exact Logic.I; contradiction.
  - intros m2 A. rewrite (A x) by lia. rewrite E. apply R.
Qed.

Lemma adt_good a t : (t = Adt a \/ exists f, t = Newtype a f) -> good t.
Proof.
  intros Ht nm v r m x hi n _ T H Hn.
  assert (AD : adt_of t = Some a) by (destruct Ht as [->|[f ->]]; reflexivity).
  assert (NDr : needs_drop t = drop a) by (destruct Ht as [->|[f ->]]; reflexivity).
  assert (TR : to_rust cfg cpp_to_rust t v = match bridged a, v with
      | Some (Convert _), VBits r | Some Composable, VBits r => Some (cpp_to_rust (tag a) r)
      | _, VBits r => Some r
      | _, _ => None
      end) by (destruct Ht as [->|[f ->]]; reflexivity).
  assert (LV' : forall w, leaves cfg t w = match bridged a with
      | Some (Transmute true) | Some (Convert true) => w
      | Some Composable => VMoved
      | Some _ => if drop a then VMoved else w
      | None => if by_value cfg t then w else if drop a then VMoved else w
      end) by (intros w; destruct Ht as [->|[f ->]]; reflexivity).
  assert (NT : match t with Tuple _ => layout_compat_tuple cfg = true | _ => True end) by (destruct Ht as [->|[f ->]]; exact Logic.I).
  assert (NT' : match t with Tuple _ => False | _ => True end) by (destruct Ht as [->|[f ->]]; exact Logic.I).
  assert (NA : (match t with Array _ => (fun q => VBits q) | _ => (fun _ => VMoved) end) = (fun _ => VMoved)) by (destruct Ht as [->|[f ->]]; reflexivity).
  assert (IB : is_bridged t = bridged a) by (unfold is_bridged; now rewrite AD).
  assert (TG : tag_of t = tag a) by (unfold tag_of; now rewrite AD).
  rewrite TR in T.
  assert (exists q, v = VBits q) as [q ->] by (destruct (bridged a) as [[| |]|], v; try discriminate T; eauto).
  destruct H as [E ->].
  assert (CC : cc_param' t nm x (m, n) =
    match bridged a with
    | Some (Transmute true) | Some (Convert true) => Some ([], LV x, (m, n))
    | Some (Transmute false) | Some (Convert false) =>
        if negb (needs_drop t) then Some ([], PV (CPtr x), (m, n))
        else let (s, h1) := slot_from t (m, n) x in Some ([app_seg nm SlotName], PV (CPtr s), h1)
    | Some Composable =>
        match m x with
        | CBits r =>
            let (b, h1) := alloc (store (m, n) x CMoved) (CEnc (tag_of t) (cpp_to_rust (tag_of t) r)) in
            Some ([app_seg nm BufferName], ARR b, h1)
        | _ => None
        end
    | None => if by_value cfg t then Some ([], LV x, (m, n))
        else if negb (needs_drop t) then Some ([], PV (CPtr x), (m, n))
        else let (s, h1) := slot_from t (m, n) x in Some ([app_seg nm SlotName], PV (CPtr s), h1)
    end).
  { rewrite <- IB. destruct Ht as [->|[f ->]]; reflexivity. }
  assert (RS : forall c m2, rs_param' t c m2 =
    match bridged a with
    | Some (Transmute true) => match c with CBits r => Some r | _ => None end
    | Some (Transmute false) => match c with CPtr a => match m2 a with CBits r => Some r | _ => None end | _ => None end
    | Some (Convert true) => match c with CBits r => Some (cpp_to_rust (tag_of t) r) | _ => None end
    | Some (Convert false) =>
        match c with CPtr a => match m2 a with CBits r => Some (cpp_to_rust (tag_of t) r) | _ => None end | _ => None end
    | Some Composable =>
        match c with CPtr a => match m2 a with CEnc k r => if k =? tag_of t then Some r else None | _ => None end | _ => None end
    | None => if by_value cfg t then match c with CBits r => Some r | _ => None end
              else match c with CPtr a => match m2 a with CBits r => Some r | _ => None end | _ => None end
    end).
  { intros c m2. rewrite <- IB. destruct Ht as [->|[f ->]]; reflexivity. }
  assert (SL : forall b : bool, (if b then VMoved else VBits q) = (if b then match t with Array _ => VBits q | _ => VMoved end else VBits q)).
  { destruct Ht as [->|[f ->]]; reflexivity. }
  destruct (bridged a) as [[[|]|[|]|]|] eqn:B; rewrite CC.
  - injection T as <-. eexists _, _, _, _. split; [reflexivity|]. apply value_post; try assumption; try lia; [intros; rewrite RS; reflexivity|apply LV'].
  - injection T as <-. eapply bits_post with (conv := fun r => r); try eassumption; try lia; [reflexivity|].
    rewrite LV', NDr. apply SL.
  - injection T as <-. eexists _, _, _, _. split; [reflexivity|].
    split; [lia|]. split; [intros b _; reflexivity|]. split; [rewrite LV'; split; [exact E|reflexivity]|].
    split; [|split; [reflexivity|destruct t as [| | | |[|]| | |]; try exact Logic.I; contradiction]].
    intros m2 k A. cbn. rewrite (A x) by lia. rewrite E, RS, TG. reflexivity.
  - injection T as <-. eapply bits_post with (conv := cpp_to_rust (tag a)); try eassumption; try lia; [reflexivity| |].
    + intros c m2. rewrite RS, TG. reflexivity.
    + rewrite LV', NDr. apply SL.
  - injection T as <-. rewrite E. eexists _, _, _, _. split; [reflexivity|]. cbn [store alloc fst snd].
    split; [lia|]. split; [intros b Hb; rewrite !set_other by lia; reflexivity|].
    split; [rewrite LV'; split; [rewrite set_other by lia; apply set_same|reflexivity]|].
    split; [|split; [lia|left; unfold is_composable; now rewrite IB]].
    intros m2 k A. cbn [as_argument]. rewrite RS, (A n) by lia. rewrite set_same, Nat.eqb_refl, TG. reflexivity.
  - injection T as <-. destruct (by_value cfg t) eqn:BV.
    + eexists _, _, _, _. split; [reflexivity|]. apply value_post; try assumption; try lia; [intros; rewrite RS; reflexivity|apply LV'].
    + eapply bits_post with (conv := fun r => r); try eassumption; try lia; [reflexivity|].
      rewrite LV', NDr. apply SL.
Qed.

Theorem cc_param_good t : good t.
Proof.
  induction t as [| | | |ts IH|t IH|a|a t IH] using ty_ind'.
  1-4: intros nm v r m x hi n _ T H Hn; destruct v as [q| |]; try discriminate T; cbn in T; injection T as <-; destruct H as [E ->].
  - eexists _, _, _, _. split; [reflexivity|]. apply value_post; try assumption; try lia; reflexivity.
  - eexists _, _, _, _. split; [reflexivity|]. apply value_post; try assumption; try lia; reflexivity.
  - destruct (by_value cfg Char) eqn:BV.
    + exists [], (LV x), m, n. split; [cbn [cc_param is_bridged adt_of]; now rewrite BV|].
      apply value_post; try assumption; try lia; [intros; cbn [rs_param is_bridged adt_of]; now rewrite BV|reflexivity].
    + replace (cc_param' Char nm x (m, n)) with (Some ([] : list name, PV (CPtr x), (m, n))) by (cbn [cc_param is_bridged adt_of]; now rewrite BV).
      eapply (bits_post Char q q m x n nm (fun r => r)); try assumption; try lia; try reflexivity; try exact Logic.I.
      intros; cbn [rs_param is_bridged adt_of]; now rewrite BV.
  - destruct (by_value cfg Fat) eqn:BV.
    + exists [], (LV x), m, n. split; [cbn [cc_param is_bridged adt_of]; now rewrite BV|].
      apply value_post; try assumption; try lia; [intros; cbn [rs_param is_bridged adt_of]; now rewrite BV|reflexivity].
    + replace (cc_param' Fat nm x (m, n)) with (Some ([] : list name, PV (CPtr x), (m, n))) by (cbn [cc_param is_bridged adt_of]; now rewrite BV).
      eapply (bits_post Fat q q m x n nm (fun r => r)); try assumption; try lia; try reflexivity; try exact Logic.I.
      intros; cbn [rs_param is_bridged adt_of]; now rewrite BV.
  - intros nm v r m x hi n F T H Hn. pose proof (holds_lt _ _ _ _ H) as Hx. destruct ts as [|t0 ts].
    + cbn in T. destruct v as [|vs|]; try discriminate T; [destruct vs; [|discriminate T]]. injection T as <-.
      exists [], (LV x), m, n. split; [reflexivity|]. apply post_same; try assumption; [reflexivity|exact Logic.I|reflexivity].
    + destruct (layout_compat_tuple cfg) eqn:L.
      * cbn [to_rust] in T. rewrite L in T. destruct v as [q| |]; try discriminate T. injection T as <-. destruct H as [E ->].
        replace (cc_param' (Tuple (t0 :: ts)) nm x (m, n)) with
          (if negb (needs_drop (Tuple (t0 :: ts))) then Some ([], PV (CPtr x), (m, n))
           else let (s, h1) := slot_from (Tuple (t0 :: ts)) (m, n) x in Some ([app_seg nm SlotName], PV (CPtr s), h1))
          by (cbn [cc_param is_bridged adt_of by_value]; now rewrite L).
        eapply bits_post with (conv := fun r => r); try eassumption; try lia; [reflexivity| |].
        -- intros c m2. cbn [rs_param is_bridged adt_of by_value]. now rewrite L.
        -- cbn [leaves]. rewrite L. reflexivity.
      * rewrite to_rust_tuple in T by exact L. destruct v as [|vs|]; try discriminate T.
        destruct (all_to_rust cfg cpp_to_rust (t0 :: ts) vs) as [rs|] eqn:Ts; [|discriminate]. injection T as <-.
        apply holds_tuple in H. destruct H as (xs & E & H).
        rewrite cc_param_tuple by exact L. cbn [fst]. rewrite E.
        cbn [no_composable] in F. rewrite L in F.
        destruct (elements_post (t0 :: ts) L IH nm 0 vs rs m xs (S x) hi n F Ts H Hn) as (ds & cs & m1 & n1 & E1 & N1 & A1 & L1 & R1).
        rewrite E1. unfold alloc. cbn [fst snd]. eexists _, _, _, _. split; [reflexivity|].
        split; [lia|]. split; [intros a Ha; rewrite set_other by lia; apply A1; lia|].
        split.
        { rewrite leaves_tuple by exact L. apply holds_tuple. exists xs.
          split; [rewrite set_other by lia; rewrite A1 by lia; exact E|].
          eapply holds_all_agree; [exact L1|]. intros a Ha. apply set_other. lia. }
        split; [|split; [lia|right; eauto]].
        intros m2 k A. cbn [as_argument]. rewrite rs_param_tuple by exact L. rewrite (A n1) by lia. rewrite set_same.
        rewrite R1; [reflexivity|]. intros a Ha. rewrite A by lia. apply set_other. lia.
  - intros nm v r m x hi n _ T H Hn; destruct v as [q| |]; try discriminate T; cbn in T; injection T as <-; destruct H as [E ->].
    replace (cc_param' (Array t) nm x (m, n)) with
      (if negb (needs_drop (Array t)) then Some ([], PV (CPtr x), (m, n))
       else let (s, h1) := slot_from (Array t) (m, n) x in Some ([app_seg nm SlotName], PV (CPtr s), h1)) by reflexivity.
    eapply bits_post with (conv := fun r => r); try eassumption; try lia; try reflexivity; try exact Logic.I.
    cbn [leaves]. now destruct (needs_drop (Array t)).
  - apply (adt_good a). now left.
  - apply (adt_good a). right. eauto.
Qed.

(** All parameters. *)
Lemma cc_params_post ts : forall i vs rs m xs lo hi n,
  forallb no_composable ts = true -> all_to_rust cfg cpp_to_rust ts vs = Some rs -> holds_all m hi vs xs lo -> hi <= n ->
  exists ds es m' n', cc_params cfg cpp_to_rust i ts xs (m, n) = Some (ds, es, (m', n')) /\ n <= n' /\
    agree m m' (fun a => a < n /\ ~ (lo <= a < hi)) /\ holds_all m' hi (all_leaves cfg ts vs) xs lo /\
    (forall m2 k, agree m' m2 (fun a => (lo <= a < hi) \/ (n <= a < n')) ->
       rs_params cfg cpp_to_rust ts (map (as_argument (m2, k)) es) m2 = Some rs).
Proof.
  induction ts as [|t ts IH]; intros i vs rs m xs lo hi n F T H Hn.
  - destruct vs as [|v vs]; [|discriminate T]. cbn in T. injection T as <-. cbn in H. destruct H as [-> <-].
    exists [], [], m, n. split; [reflexivity|]. split; [lia|]. split; [intros a _; reflexivity|].
    split; [cbn; auto|]. intros m2 k _. reflexivity.
  - destruct vs as [|v vs]; [discriminate T|]. cbn [all_to_rust] in T.
    destruct (to_rust cfg cpp_to_rust t v) as [r|] eqn:Tv; [|discriminate].
    destruct (all_to_rust cfg cpp_to_rust ts vs) as [rs1|] eqn:Tvs; [|discriminate]. injection T as <-.
    cbn [forallb] in F. apply andb_true_iff in F. destruct F as [Fn Fs].
    cbn in H. destruct H as (ys & mid & -> & H1 & H2).
    pose proof (holds_lt _ _ _ _ H1) as Hlo. pose proof (holds_all_le _ _ _ _ _ H2) as Hmid.
    destruct (cc_param_good t (i, []) v r m lo mid n Fn Tv H1 ltac:(lia)) as (ds & e & m1 & n1 & E1 & P1 & P2 & P3 & P4 & P5).
    assert (H2' : holds_all m1 hi vs ys mid).
    { eapply holds_all_agree; [exact H2|]. intros a Ha. apply P2. lia. }
    destruct (IH (S i) vs rs1 m1 ys mid hi n1 Fs Tvs H2' ltac:(lia)) as (ds' & es & m3 & n3 & E3 & N3 & A3 & L3 & R3).
    exists (ds ++ ds'), (e :: es), m3, n3.
    cbn [cc_params]. rewrite E1, E3. split; [reflexivity|]. split; [lia|]. split; [|split].
    + intros a Ha. rewrite A3 by lia. apply P2. lia.
    + cbn [all_leaves holds_all]. exists ys, mid. split; [reflexivity|]. split; [|exact L3].
      eapply holds_agree; [exact P3|]. intros a Ha. apply A3. lia.
    + intros m4 k A4. cbn [rs_params map]. rewrite R3; [|intros a Ha; apply A4; lia].
      rewrite P4; [reflexivity|]. intros a Ha. rewrite A4 by lia. apply A3. lia.
Qed.

Lemma format_params ts : forallb (accept_param cfg) ts = true -> forallb no_composable ts = true.
Proof.
  intros F. rewrite forallb_forall in *. intros t Ht. specialize (F t Ht). unfold accept_param in F.
  apply andb_true_iff in F. destruct F as [F _]. eapply format_no_composable; [|exact F]. reflexivity.
Qed.
End Conv.
