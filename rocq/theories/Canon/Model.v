(** Model of Importer::CanonicalizeDecl (rs_bindings_from_cc/importer.cc:505-582): which of the redeclarations of a
    class, enumeration or function is the one the importer makes an item of ([GenerateItemId], 590-593, is its address).
    Typedefs, which are first replaced by the class they name (518-531), and namespaces (508-510) are not modelled. *)
From Coq Require Import List ZArith NArith Bool.
Import ListNotations.

(** What the function asks of a redeclaration.  [r_id] is its address; [r_injected]: isInjectedClassName; [r_target]: GetOwningTarget;
    [r_def]: isThisDeclarationADefinition; [r_begin]: the place of its first token, in translation unit order; [r_member]:
    getLexicalDeclContext()->isRecord(). *)
Record redecl := Redecl { r_id : Z; r_injected : bool; r_target : Z; r_def : bool; r_begin : N; r_member : bool }.
(** Clang's chain of redeclarations, latest first.  redecls_begin() of a declaration starts with that declaration; each is followed by
    the previous one and the first by the latest (Clang's Redeclarable.h). *)
Fixpoint from_here (d : redecl) (before after : list redecl) : list redecl :=
  match after with
  | [] => []
  | r :: rest => if (r_id r =? r_id d)%Z then after ++ rev before else from_here d (r :: before) rest
  end.
Definition redecls (chain : list redecl) (d : redecl) : list redecl := from_here d [] chain.

(** importer.cc:540-563: the loop. *)
Fixpoint scan (owning : Z) (l : list redecl) (canonical : option redecl) : option redecl :=
  match l with
  | [] => canonical
  | r :: l' =>
      if r_injected r then scan owning l' canonical
      else if negb (r_target r =? owning)%Z then scan owning l' canonical
      else if r_def r then Some r
      else match canonical with
           | None => scan owning l' (Some r)
           | Some c => if (r_begin r <? r_begin c)%N then scan owning l' (Some r) else scan owning l' (Some c)
           end
  end.
(** importer.cc:533-566: classes and enumerations; [None] is the null pointer for an injected class name.  That the CHECK at 564 holds is part
    of C182. *)
Definition canonical_tag (chain : list redecl) (d : redecl) : option redecl :=
  if r_injected d then None else scan (r_target d) (redecls chain d) None.

(** importer.cc:567-580: functions; [method]: the function is a member function.  getCanonicalDecl() is the first declaration. *)
Definition canonical_function (method : bool) (chain : list redecl) (d : redecl) : option redecl :=
  let canonical := last (map Some chain) None in
  if method then canonical else
  match canonical with
  | Some c => if r_member c then match find (fun r => negb (r_member r)) (redecls chain d) with Some r => Some r | None => canonical end else canonical
  | None => None
  end.
