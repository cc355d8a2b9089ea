(** Specification: how Rust reads such an enum, and what C++ programmers expect. *)
From Coq Require Import List NArith Bool Arith.
From Verif.RsOption Require Import Model.
Import ListNotations.
Local Open Scope list_scope.

(** * Rust's reading of the bytes *)
Definition modulus (L : layout) : N := (256 ^ N.of_nat (tag_size L))%N.
(** The tag is an integer in the target's byte order. *)
Definition rust_tag (L : layout) (m : memory) : N := native_value (little L) (get m (tag_off L) (tag_size L)).
Definition other (v : var) : var := match v with V0 => V1 | V1 => V0 end.
(** rustc: with a direct tag, the variant with that discriminant; with a niche, the tagged variant if the tag minus
    [niche_start], wrapping, is 0, and the untagged one otherwise. *)
Definition rust_variant (L : layout) (m : memory) : option var :=
  let t := rust_tag L m in
  match enc L with
  | Direct d => if (t =? d V0 mod modulus L)%N then Some V0 else if (t =? d V1 mod modulus L)%N then Some V1 else None
  | Niche start _ u => if ((t + (modulus L - start mod modulus L)) mod modulus L =? 0)%N then Some (other u) else Some u
  end.
Definition rust_holds (L : layout) (m : memory) (v : var) (bs : bytes) : Prop := rust_variant L m = Some v /\ get m (pay_off L v) (pay_size L v) = bs.
(** [ok v bs]: the bytes are a value of the payload type of variant [v].  What rustc guarantees about layouts: *)
Definition apart (o n o' n' : nat) : Prop := o + n <= o' \/ o' + n' <= o.
Record layout_ok (L : layout) (ok : var -> bytes -> Prop) : Prop := {
  ok_size : forall v bs, ok v bs -> length bs = pay_size L v /\ Forall (fun b => (b < 256)%N) bs;
  ok_enc : match enc L with
    | Direct d => (d V0 mod modulus L <> d V1 mod modulus L)%N /\ forall v, apart (tag_off L) (tag_size L) (pay_off L v) (pay_size L v)
    | Niche start nv u =>
        nv = idx (other u) /\ pay_off L u = 0 /\ apart (tag_off L) (tag_size L) (pay_off L (other u)) (pay_size L (other u)) /\
        tag_off L + tag_size L <= pay_size L u /\
        forall bs, ok u bs -> native_value (little L) (firstn (tag_size L) (skipn (tag_off L) bs)) <> (start mod modulus L)%N
    end }.
(** An [Option]'s first variant has no payload, and a niche is in the other one. *)
Definition option_layout (L : layout) : Prop := pay_size L V0 = 0 /\ match enc L with Niche _ _ u => u = V1 | Direct _ => True end.
Definition is_memory (m : memory) : Prop := forall a, (m a < 256)%N.
(** The byte order the generated loops are right for. *)
Definition supported (L : layout) : Prop := little L = true \/ tag_size L <= 1.

(** * Option: a history means what it would mean for [std::optional] *)
Definition ref_value (f : option bytes) (a : arg) : option bytes := match a with Other bs => Some bs | Own _ g => option_map g f end.
(** The value afterwards and what the call returns, or [None] if it must stop with a failed check. *)
Definition ref_opt (T : traits) (moved : bytes -> bytes) (c : opt_call) (o : option bytes) : option (option bytes * out) :=
  match c with
  | ONull _ => Some (None, Nothing)
  | OValue a _ => Some (ref_value o a, Nothing)
  | OFromStd x _ => Some (x, Held (match x with None => None | Some bs => if relocatable T then None else if move_constructible T then Some (moved bs) else Some bs end))
  | OToStd _ => Some (None, Held o)
  | OHasValue => Some (o, Flag (match o with Some _ => true | None => false end))
  | ODeref => match o with Some bs => Some (o, Held (Some bs)) | None => None end
  | OPoke bs => match o with Some _ => Some (Some bs, Nothing) | None => None end
  | ORust _ x => Some (x, Nothing)
  end.
(** Calls whose arguments are values of the type.  Passing (a reference to) the option's own value is allowed if it has one and
    the type can be assigned to. *)
Definition opt_call_ok (L : layout) (ok : var -> bytes -> Prop) (T : traits) (o : option bytes) (c : opt_call) : Prop :=
  match c with
  | OValue (Other bs) _ | OPoke bs | OFromStd (Some bs) _ => ok V1 bs
  | OValue (Own v f) _ => v = V1 /\ move_assignable T = true /\ match o with Some bs => ok V1 (f bs) | None => False end
  | ORust m x => is_memory m /\ match x with Some bs => rust_holds L m V1 bs /\ ok V1 bs | None => rust_variant L m = Some V0 end
  | _ => True
  end.
(** What holds between calls: Rust reads the bytes as [o], and exactly the payload of [o] is alive. *)
Definition opt_holds (L : layout) (ok : var -> bytes -> Prop) (s : state) (o : option bytes) : Prop :=
  match o with
  | None => rust_variant L (mem s) = Some V0 /\ live s = None
  | Some bs => rust_holds L (mem s) V1 bs /\ ok V1 bs /\ live s = Some V1
  end.

(** * Result *)
Definition ref_res_value (r : var * bytes) (a : arg) : bytes := match a with Other bs => bs | Own _ g => g (snd r) end.
Definition ref_res (c : res_call) (r : var * bytes) : option ((var * bytes) * out) :=
  match c with
  | ROk a _ => Some ((V0, ref_res_value r a), Nothing)
  | RErr a _ => Some ((V1, ref_res_value r a), Nothing)
  | RHasValue => Some (r, Flag (var_eqb (fst r) V0))
  | RValue => match fst r with V0 => Some (r, Held (Some (snd r))) | V1 => None end
  | RError => match fst r with V1 => Some (r, Held (Some (snd r))) | V0 => None end
  | RPokeValue bs => match fst r with V0 => Some ((V0, bs), Nothing) | V1 => None end
  | RPokeError bs => match fst r with V1 => Some ((V1, bs), Nothing) | V0 => None end
  | RRust _ v bs => Some ((v, bs), Nothing)
  end.
Definition res_arg_ok (ok : var -> bytes -> Prop) (T : traits) (r : var * bytes) (v : var) (a : arg) : Prop :=
  match a with Other bs => ok v bs | Own w f => w = fst r /\ w = v /\ move_assignable T = true /\ ok v (f (snd r)) end.
Definition res_call_ok (L : layout) (ok : var -> bytes -> Prop) (T : traits) (r : var * bytes) (c : res_call) : Prop :=
  match c with
  | ROk a _ => res_arg_ok ok T r V0 a
  | RErr a _ => res_arg_ok ok T r V1 a
  | RPokeValue bs => ok V0 bs
  | RPokeError bs => ok V1 bs
  | RRust m v bs => is_memory m /\ rust_holds L m v bs /\ ok v bs
  | _ => True
  end.
Definition res_holds (L : layout) (ok : var -> bytes -> Prop) (s : state) (r : var * bytes) : Prop :=
  rust_holds L (mem s) (fst r) (snd r) /\ ok (fst r) (snd r) /\ live s = Some (fst r).

(** * Histories of reference calls: the value and outputs at the end, or [None] if a check must fail on the way *)
Inductive history {C V} (step : C -> V -> option (V * out)) (call_ok : V -> C -> Prop) : V -> list C -> option (V * list out) -> Prop :=
| history_nil v : history step call_ok v [] (Some (v, []))
| history_stop v c cs : call_ok v c -> step c v = None -> history step call_ok v (c :: cs) None
| history_step v c v' x cs r : call_ok v c -> step c v = Some (v', x) -> history step call_ok v' cs r ->
    history step call_ok v (c :: cs) (option_map (fun p => (fst p, x :: snd p)) r).
