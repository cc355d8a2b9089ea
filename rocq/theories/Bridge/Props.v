(** Property theorems C12 and C13 about the bridge encoding. *)
From Coq Require Import List Arith Bool Lia.
From Coq Require Import Strings.Byte.
From Verif.Bridge Require Import Model Spec Proofs.
Import ListNotations.

(** The four language pairs. [cc_decode true] is the C++ decoder when the compiler
    evaluates the arguments of [std::make_tuple] left to right. *)
Inductive lang := Rust | Cpp.
Definition encode (l : lang) := match l with Rust => rs_encode | Cpp => cc_encode end.
Definition decode (ltr : bool) (l : lang) := match l with Rust => rs_decode | Cpp => cc_decode ltr end.
Definition size (l : lang) := match l with Rust => rs_size | Cpp => cc_size end.

Lemma encode_rs l a buf m v : encode l a buf m v = rs_encode a buf m v.
Proof. destruct l; [reflexivity|]. cbn. unfold cc_encode, rs_encode. rewrite cc_size_doc, rs_size_doc. apply enc_same. Qed.
Lemma decode_rs l a buf m : decode true l a buf m = rs_decode a buf m.
Proof. destruct l; [reflexivity|]. cbn. unfold cc_decode, rs_decode. rewrite cc_size_doc, rs_size_doc. apply dec_same. Qed.

(** ** C12.  Whatever side encodes and whatever side decodes, the value comes back, and
    the decoder stops where the encoder did. Partial: the C++ decoder is assumed to evaluate left to right. *)
Theorem C12_bridge_round_trip_partial :
  forall writer reader a v, belongs a v -> forall buf m,
    exists rem m', encode writer a buf m v = Ok (rem, m') /\
                   decode true reader a buf m' = Ok (v, rem).
Proof.
  intros w r a v H buf m. rewrite encode_rs. unfold rs_encode. rewrite rs_size_doc.
  destruct (layout_size H) as [Hle _].
  destruct (enc_spec buf H m Hle) as (m' & E & Hs).
  exists (documented_size a - length (layout v)), m'. split; [exact E|].
  rewrite decode_rs. unfold rs_decode. rewrite rs_size_doc.
  apply (dec_spec buf H); [exact Hle|]. eapply store_reads. exact Hs.
Qed.

(** Both sides compute the documented buffer size and write the same bytes. *)
Theorem C12_bridge_sides_agree :
  forall l a, size l a = documented_size a /\
    forall buf m v, encode l a buf m v = encode Rust a buf m v.
Proof.
  intros l a. split.
  - destruct l; [apply rs_size_doc|apply cc_size_doc].
  - intros. now rewrite !encode_rs.
Qed.

(** Values encoded differently: two different values of a schema never produce the
    same buffer contents (a consequence of the round trip, stated on bytes). *)
Theorem C12_bridge_encoding_injective :
  forall w1 w2 a v1 v2, belongs a v1 -> belongs a v2 -> forall buf m1 m2 r1 r2 m1' m2',
    encode w1 a buf m1 v1 = Ok (r1, m1') -> encode w2 a buf m2 v2 = Ok (r2, m2') ->
    (forall x, buf <= x < buf + documented_size a -> m1' x = m2' x) -> v1 = v2.
Proof.
  intros w1 w2 a v1 v2 H1 H2 buf m1 m2 r1 r2 m1' m2' E1 E2 Hx.
  destruct (C12_bridge_round_trip_partial w1 Rust _ _ H1 buf m1) as (r & m & E & D).
  destruct (C12_bridge_round_trip_partial w2 Rust _ _ H2 buf m2) as (r' & m' & E' & D').
  rewrite E1 in E. rewrite E2 in E'. injection E as <- <-. injection E' as <- <-.
  cbn in D, D'. unfold rs_decode in *. rewrite rs_size_doc in *.
  destruct (dec_safe buf a m1' (le_n (documented_size a))) as [_ A].
  rewrite (A m2') in D' by (intros x Hr; apply Hx; lia). congruence.
Qed.

(** C++ leaves the order in which [std::make_tuple]'s arguments are evaluated to the compiler
    (bridge.h:279).  With a compiler that goes right to left the round trip fails. *)
Definition demo_abi := Tuple [Transmute 1; Opt (Transmute 2); Tuple []].
Definition demo_val := VTuple [VBytes [x05]; VSome (VBytes [x06; x07]); VTuple []].
Theorem C12_bridge_round_trip_any_evaluation_order_refuted :
  ~ (forall ltr a v, belongs a v -> forall buf m, exists rem m',
       encode Rust a buf m v = Ok (rem, m') /\ decode ltr Cpp a buf m' = Ok (v, rem)).
Proof.
  intro H. destruct (H false (Tuple [Transmute 1; Transmute 1]) (VTuple [VBytes [x01]; VBytes [x02]])
    ltac:(repeat constructor) 0 (fun _ => x00)) as (rem & m' & E & D).
  vm_compute in E. injection E as <- <-. vm_compute in D. discriminate.
Qed.

(** ** C13 *)
Theorem C13_bridge_encode_in_bounds :
  forall l a v, belongs a v -> forall buf m, exists rem m',
    encode l a buf m v = Ok (rem, m') /\
    rem <= documented_size a /\
    (complete v -> rem = 0) /\
    (forall x, x < buf + rem \/ buf + documented_size a <= x -> m' x = m x).
Proof.
  intros l a v H buf m. rewrite encode_rs. unfold rs_encode. rewrite rs_size_doc.
  destruct (layout_size H) as [Hle Hc].
  destruct (enc_spec buf H m Hle) as (m' & E & Hs).
  exists (documented_size a - length (layout v)), m'. repeat split; [exact E|lia|intro C; rewrite (Hc C); lia|].
  intros x Hx. rewrite Hs. unfold store.
  destruct (Nat.leb_spec (buf + (documented_size a - length (layout v))) x); [|reflexivity].
  destruct (Nat.ltb_spec x (buf + (documented_size a - length (layout v)) + length (layout v))); [lia|reflexivity].
Qed.

(** Decoding arbitrary memory: it never underflows; the only possible failure is a byte that
    is no bool; what it returns depends only on the SIZE bytes of the buffer. *)
Theorem C13_bridge_decode_in_bounds :
  forall l a buf m,
    (exists v rem, decode true l a buf m = Ok (v, rem) /\ rem <= documented_size a) \/
      decode true l a buf m = Err BadBool.
Proof.
  intros l a buf m. rewrite decode_rs. unfold rs_decode. rewrite rs_size_doc.
  destruct (dec_safe buf a m (le_n (documented_size a))) as [A _].
  destruct (rs_dec buf a m (documented_size a)) as [[v rem]|[]]; try contradiction; [left|now right].
  exists v, rem. split; [reflexivity|lia].
Qed.
Theorem C13_bridge_decode_reads_only_buffer :
  forall l a buf m m', (forall x, buf <= x < buf + documented_size a -> m x = m' x) ->
    decode true l a buf m = decode true l a buf m'.
Proof.
  intros l a buf m m' Hx. rewrite !decode_rs. unfold rs_decode. rewrite rs_size_doc.
  destruct (dec_safe buf a m (le_n (documented_size a))) as [_ A]. symmetry. apply A.
  intros x Hr. apply Hx. lia.
Qed.

(** Non-vacuity. *)
Example demo_belongs : belongs demo_abi demo_val.
Proof. repeat constructor. Qed.
Example demo_round_trip : decode true Cpp demo_abi 10
  (match encode Rust demo_abi 10 (fun _ => xff) demo_val with Ok (_, m) => m | Err _ => fun _ => x00 end)
  = Ok (demo_val, 0).
Proof. reflexivity. Qed.
Example demo_none : match encode Cpp (Opt (Transmute 3)) 10 (fun _ => xff) VNone with
  Ok (rem, m) => (rem, m 13, m 12) | Err _ => (0, x00, x00) end = (3, x00, xff).
Proof. reflexivity. Qed.

Print Assumptions C12_bridge_round_trip_partial.
Print Assumptions C12_bridge_sides_agree.
Print Assumptions C12_bridge_encoding_injective.
Print Assumptions C12_bridge_round_trip_any_evaluation_order_refuted.
Print Assumptions C13_bridge_encode_in_bounds.
Print Assumptions C13_bridge_decode_in_bounds.
Print Assumptions C13_bridge_decode_reads_only_buffer.
