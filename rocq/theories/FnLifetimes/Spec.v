(** What it means that a callable can be used for another, independently of the
    functions of the model (only its trees of lifetimes are shared). *)
From Coq Require Import List ZArith Bool.
From Verif.Lifetimes Require Import Model.
From Verif.FnLifetimes Require Import Model.
Import ListNotations.
Local Open Scope Z_scope.

(** A lifetime stands for the time at which the object dies, or never. *)
Inductive time := Dies (n : nat) | Never.
(** [s] dies no later than [t]. *)
Definition no_later (s t : time) : Prop :=
  match s, t with _, Never => True | Never, Dies _ => False | Dies m, Dies n => (m <= n)%nat end.
(** A meaning of the lifetimes: 'static never dies. *)
Definition meaning := lifetime -> time.
Definition proper (r : meaning) : Prop := r Static = Never.

(** The type of a value, without its lifetimes. *)
Fixpoint type_v (v : vl) : vl :=
  match v with
  | VPlain q => VPlain q
  | VPtr q _ v' => VPtr q 0 (type_v v')
  | VRec q ta lps => VRec q (type_args ta) (map (fun p => (fst p, 0)) lps)
  | VFun f => VFun (type_f f)
  end
with type_o (o : ovl) : ovl := match o with ONone => ONone | OSome v => OSome (type_v v) end
with type_args (a : args) : args := match a with ANil => ANil | ACons o r => ACons (type_o o) (type_args r) end
with type_f (f : fl) : fl := match f with FL ps r th => FL (type_args ps) (type_v r) (type_o th) end.

(** The lifetimes that occur. *)
Fixpoint lifetimes_v (v : vl) : list lifetime :=
  match v with
  | VPlain _ => []
  | VPtr _ l v' => lifetimes_v v' ++ [l]
  | VRec _ ta lps => lifetimes_args ta ++ map snd lps
  | VFun f => lifetimes_f f
  end
with lifetimes_o (o : ovl) : list lifetime := match o with ONone => [] | OSome v => lifetimes_v v end
with lifetimes_args (a : args) : list lifetime :=
  match a with ANil => [] | ACons o r => lifetimes_o o ++ lifetimes_args r end
with lifetimes_f (f : fl) : list lifetime :=
  match f with FL ps r th => lifetimes_args ps ++ lifetimes_v r ++ lifetimes_o th end.

(** Nothing can be assigned through a pointer to [v]: it is const, or a function. *)
Definition read_only (v : vl) : Prop :=
  match v with VPlain q | VPtr q _ _ | VRec q _ _ => q = true | VFun _ => True end.

(** [Use r r' v v']: a value with lifetimes [v] (meant by [r]) can be used where one
    with lifetimes [v'] (meant by [r']) is required - the variance rules: what is
    pointed to must not die earlier than required; through a pointer to something
    that can be assigned, both directions are needed; template arguments are
    invariant; a lifetime parameter of a class is covariant or invariant as the
    class uses it; a function takes at least what is required and gives at least
    what is required. *)
Inductive Use : meaning -> meaning -> vl -> vl -> Prop :=
| use_plain r r' q : Use r r' (VPlain q) (VPlain q)
| use_read r r' q l l' v v' :
    no_later (r' l') (r l) -> read_only v -> Use r r' v v' -> Use r r' (VPtr q l v) (VPtr q l' v')
| use_write r r' q l l' v v' :
    no_later (r' l') (r l) -> Use r r' v v' -> Use r' r v' v -> Use r r' (VPtr q l v) (VPtr q l' v')
| use_rec r r' q ta ta' lps lps' :
    Use_args r r' ta ta' -> Use_args r' r ta' ta ->
    Forall2 (fun p p' => fst p = fst p' /\ no_later (r' (snd p')) (r (snd p))
                         /\ (fst p = false -> no_later (r (snd p)) (r' (snd p')))) lps lps' ->
    Use r r' (VRec q ta lps) (VRec q ta' lps')
| use_fun r r' f f' : Use_f r r' f f' -> Use r r' (VFun f) (VFun f')
with Use_o : meaning -> meaning -> ovl -> ovl -> Prop :=
| use_none r r' : Use_o r r' ONone ONone
| use_some r r' v v' : Use r r' v v' -> Use_o r r' (OSome v) (OSome v')
with Use_args : meaning -> meaning -> args -> args -> Prop :=
| use_nil r r' : Use_args r r' ANil ANil
| use_cons r r' o o' a a' : Use_o r r' o o' -> Use_args r r' a a' -> Use_args r r' (ACons o a) (ACons o' a')
with Use_f : meaning -> meaning -> fl -> fl -> Prop :=
| use_fl r r' ps res th ps' res' th' :
    Use_args r' r ps' ps -> Use r r' res res' -> Use_o r' r th' th ->
    Use_f r r' (FL ps res th) (FL ps' res' th').

(** Whatever is required of [g]'s lifetimes, [f] has lifetimes that fit: [f] can be
    used where [g] is required. *)
Definition UsableAs (f g : fl) : Prop :=
  forall r, proper r -> exists s, proper s /\ Use_f s r f g.

(** The meaning fulfils the constraints (shorter, longer). *)
Definition Sat (r : meaning) (c : constraints) : Prop :=
  forall s l, In (s, l) c -> no_later (r s) (r l).

(** Classes use all their lifetime parameters covariantly. *)
Fixpoint covariant_v (v : vl) : Prop :=
  match v with
  | VPlain _ => True
  | VPtr _ _ v' => covariant_v v'
  | VRec _ ta lps => covariant_args ta /\ Forall (fun p => fst p = true) lps
  | VFun f => covariant_f f
  end
with covariant_o (o : ovl) : Prop := match o with ONone => True | OSome v => covariant_v v end
with covariant_args (a : args) : Prop :=
  match a with ANil => True | ACons o r => covariant_o o /\ covariant_args r end
with covariant_f (f : fl) : Prop :=
  match f with FL ps r th => covariant_args ps /\ covariant_v r /\ covariant_o th end.

(** No pointers to functions. *)
Fixpoint no_fp_v (v : vl) : Prop :=
  match v with
  | VPlain _ => True
  | VPtr _ _ v' => (forall f, v' <> VFun f) /\ no_fp_v v'
  | VRec _ ta _ => no_fp_args ta
  | VFun f => no_fp_f f
  end
with no_fp_o (o : ovl) : Prop := match o with ONone => True | OSome v => no_fp_v v end
with no_fp_args (a : args) : Prop :=
  match a with ANil => True | ACons o r => no_fp_o o /\ no_fp_args r end
with no_fp_f (f : fl) : Prop :=
  match f with FL ps r th => no_fp_args ps /\ no_fp_v r /\ no_fp_o th end.

(** No functions at all, and no const-qualified pointers. *)
Fixpoint simple_v (v : vl) : Prop :=
  match v with
  | VPlain _ => True
  | VPtr q _ v' => q = false /\ simple_v v'
  | VRec _ ta _ => simple_args ta
  | VFun _ => False
  end
with simple_o (o : ovl) : Prop := match o with ONone => True | OSome v => simple_v v end
with simple_args (a : args) : Prop :=
  match a with ANil => True | ACons o r => simple_o o /\ simple_args r end.

(** The functions share no lifetime variable. *)
Definition apart (f g : fl) : Prop :=
  forall l, In l (lifetimes_f f) -> In l (lifetimes_f g) -> l = Static.
