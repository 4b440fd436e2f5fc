(** Well-formedness of core programs: the condition under which the runners are compared.  This file is
    specification only.  (Verify.v shows that programs accepted by the core verifier satisfy the name
    conditions.) *)
From Verif Require Export Compile.

(** Every name is in scope where it is used. *)
Fixpoint scoped (S : list name) (e : expr) : bool :=
  match e with
  | EBool _ | EInt _ | EString _ | ETrap _ _ => true
  | EName n => mem n S
  | ECall f args => scoped S f && forallb (scoped S) args
  | EIf c t e => scoped S c && scoped S t && scoped S e
  | EOp a _ b => scoped S a && scoped S b
  | EIntr _ args => forallb (scoped S) args
  | ELam ps b => scoped (map fst ps ++ S) b
  | EMatch d brs => scoped S d && forallb (fun br => scoped (snd (fst br) ++ S) (snd br)) brs
  | EConstruct _ _ fs => forallb (scoped S) fs
  | ELet n v e => scoped S v && scoped (n :: S) e
  | ELetRec n _ v e => scoped (n :: S) v && scoped (n :: S) e
  | EPi _ e => scoped S e
  | EPiApp e _ => scoped S e
  end.

Fixpoint nodupb (l : list name) : bool :=
  match l with [] => true | x :: r => negb (mem x r) && nodupb r end.
Definition disjointb (a b : list name) : bool := forallb (fun x => negb (mem x b)) a.

(** Shape conditions: intrinsics have their number of arguments, recursive definitions are (possibly
    type-abstracted) functions, and a recursive function calling itself in tail position passes as many
    arguments as it has parameters.  [rec] is the enclosing recursive function and its arity, [tail]
    whether [e] is in tail position of it. *)
Fixpoint shape (rec : option (name * nat)) (tail : bool) (e : expr) : bool :=
  match e with
  | EBool _ | EInt _ | EString _ | ETrap _ _ | EName _ => true
  | ECall f args =>
    shape rec false f && forallb (shape rec false) args &&
    match f, rec with
    | EName n, Some (m, k) => if tail && Nat.eqb m n then length args =? k else true
    | _, _ => true
    end
  | EIf c t e => shape rec false c && shape rec tail t && shape rec tail e
  | EOp a _ b => shape rec false a && shape rec false b
  | EIntr i args => (length args =? intr_arity i) && forallb (shape rec false) args
  | ELam ps b => shape None true b
  | EMatch d brs => shape rec false d && forallb (fun br => shape rec tail (snd br)) brs
  | EConstruct _ _ fs => forallb (shape rec false) fs
  | ELet n v e => shape rec false v && shape rec tail e
  | ELetRec n _ v e =>
    match strip_pis v with
    | ELam ps b => shape (Some (n, length ps)) true b
    | _ => false
    end && shape rec tail e
  | EPi _ e => shape rec tail e
  | EPiApp e _ => shape rec tail e
  end.

(** Definitions are scoped in order, each seeing the names of the earlier ones. *)
Fixpoint scoped_defs (S : list name) (ds : list valdef) : bool :=
  match ds with
  | [] => true
  | d :: r => scoped S (vd_value d) && scoped_defs (vd_name d :: S) r
  end.

Definition def_names (ds : list valdef) : list name := map vd_name ds.

(** All names bound anywhere in the program and the requested expressions. *)
Definition all_binders (p : program) (exprs : list expr) : list name :=
  def_names (p_defs p) ++ flat_map (fun d => binders (vd_value d)) (p_defs p) ++ flat_map binders exprs.

Definition wf_program (p : program) (exprs : list expr) : bool :=
  scoped_defs [] (p_defs p) &&
  forallb (scoped (def_names (p_defs p))) exprs &&
  nodupb (all_binders p exprs) &&
  forallb (fun d => shape None false (vd_value d)) (p_defs p) &&
  forallb (shape None false) exprs.
