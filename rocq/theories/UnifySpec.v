(** Specification for the unifier: finite types, substitutions, agreement. *)
From Verif Require Import Unify.
Set Implicit Arguments.

Inductive leaf : Type := LBool | LInt | LString | LNamed (s : symbol).
Inductive node : Type := NApply | NFn | NFolded.
(** A (finite) type with unknowns. *)
Inductive term : Type :=
| TUnknown (v : idx)
| TLeaf (l : leaf)
| TErr
| TNode (n : node) (a b : term).

(** [resolves u i t]: following the slots from [i] gives the finite type [t]. *)
Inductive resolves (u : uni) : idx -> term -> Prop :=
| res_infer i : get u i = Some Infer -> resolves u i (TUnknown i)
| res_next i j t : get u i = Some (Next j) -> resolves u j t -> resolves u i t
| res_bool i : get u i = Some (STy TyBool) -> resolves u i (TLeaf LBool)
| res_int i : get u i = Some (STy TyInt) -> resolves u i (TLeaf LInt)
| res_string i : get u i = Some (STy TyString) -> resolves u i (TLeaf LString)
| res_named i s : get u i = Some (STy (TyNamed s)) -> resolves u i (TLeaf (LNamed s))
| res_error i : get u i = Some (STy TyError) -> resolves u i TErr
| res_apply i a b ta tb : get u i = Some (STy (TyApply a b)) -> resolves u a ta -> resolves u b tb ->
    resolves u i (TNode NApply ta tb)
| res_fn i a b ta tb : get u i = Some (STy (TyFn a b)) -> resolves u a ta -> resolves u b tb ->
    resolves u i (TNode NFn ta tb)
| res_folded i a b ta tb : get u i = Some (STy (TyFolded a b)) -> resolves u a ta -> resolves u b tb ->
    resolves u i (TNode NFolded ta tb).

(** Replacing unknowns. *)
Fixpoint subst (f : idx -> term) (t : term) : term :=
  match t with
  | TUnknown v => f v
  | TLeaf l => TLeaf l
  | TErr => TErr
  | TNode n a b => TNode n (subst f a) (subst f b)
  end.

(** Equality except that the error type agrees with everything. *)
Inductive agree : term -> term -> Prop :=
| ag_errl t : agree TErr t
| ag_errr t : agree t TErr
| ag_unknown v : agree (TUnknown v) (TUnknown v)
| ag_leaf l : agree (TLeaf l) (TLeaf l)
| ag_node n a b a' b' : agree a a' -> agree b b' -> agree (TNode n a b) (TNode n a' b').

Fixpoint error_free (t : term) : Prop :=
  match t with TErr => False | TNode _ a b => error_free a /\ error_free b | _ => True end.

(** States of the unifier between two operations of the type checker. *)
Definition children_lt (t : ty) (n : nat) : Prop :=
  match t with TyApply a b | TyFn a b | TyFolded a b => a < n /\ b < n | _ => True end.
Inductive ureach : uni -> Prop :=
| ur_new : ureach new_uni
| ur_fresh u : ureach u -> ureach (fst (fresh_var u))
| ur_alloc u t : ureach u -> children_lt t (length (slots u)) -> ureach (fst (allocate u t))
| ur_unify u a b k r : ureach u -> a < length (slots u) -> b < length (slots u) ->
    tc_unify k u a b = Done r -> ureach (fst r)
| ur_taint u a k u' : ureach u -> a < length (slots u) -> taint k u a = Done u' -> ureach u'.

(** The type an [ir::Type] scheme stands for when its variables [vs] are given types. *)
Fixpoint scheme (vs : list (symbol * term)) (t : irty) : term :=
  match t with
  | IrInt => TLeaf LInt
  | IrBool => TLeaf LBool
  | IrString => TLeaf LString
  | IrNamed s args =>
    fold_left (TNode NApply) (map (scheme vs) args)
      (match assoc s vs with Some x => x | None => TLeaf (LNamed s) end)
  | IrFn a b => TNode NFn (scheme vs a) (scheme vs b)
  | IrError => TErr
  | IrInfer => TErr
  | IrFolded a b => TNode NFolded (scheme vs a) (scheme vs b)
  end.
(** No wildcards: those become fresh unknowns. *)
Fixpoint no_infer (t : irty) : bool :=
  match t with
  | IrNamed _ args => forallb no_infer args
  | IrFn a b | IrFolded a b => no_infer a && no_infer b
  | IrInfer => false
  | _ => true
  end.
