(** The optimiser's traversals.  Models ticc/src/codegen/opt.rs:63-214.  [None] is a Rust panic. *)
From Verif Require Export Ir.
Set Implicit Arguments.

Definition obind {A B} (r : option A) (f : A -> option B) : option B :=
  match r with Some a => f a | None => None end.
Notation "'do' x <- r ; k" := (obind r (fun x => k)) (at level 200, x pattern, r at level 100, k at level 200).

Definition omap {A B} (f : A -> option B) : list A -> option (list B) :=
  fix go (l : list A) : option (list B) :=
    match l with
    | [] => Some []
    | a :: r => do a' <- f a ; do r' <- go r ; Some (a' :: r')
    end.

(** The children of a node, in the order in which all three walkers of opt.rs visit them (67-108, 118-160,
    167-209), replaced one by one. *)
Definition children (g : expr -> option expr) (e : expr) : option expr :=
  match e with
  | EBool _ | EInt _ | EString _ | EName _ | ETrap _ _ => Some e
  | ECall a b => do a' <- g a ; do b' <- omap g b ; Some (ECall a' b')
  | EIntr i b => do b' <- omap g b ; Some (EIntr i b')
  | EOp a o b => do a' <- g a ; do b' <- g b ; Some (EOp a' o b')
  | ELet n a b => do a' <- g a ; do b' <- g b ; Some (ELet n a' b')
  | ELetRec n t a b => do a' <- g a ; do b' <- g b ; Some (ELetRec n t a' b')
  | EIf a b c => do a' <- g a ; do b' <- g b ; do c' <- g c ; Some (EIf a' b' c')
  | ELam ps a => do a' <- g a ; Some (ELam ps a')
  | EPi t a => do a' <- g a ; Some (EPi t a')
  | EPiApp a t => do a' <- g a ; Some (EPiApp a' t)
  | EMatch a bs => do a' <- g a ; do bs' <- omap (fun br => do v <- g (snd br) ; Some (fst br, v)) bs ; Some (EMatch a' bs')
  | EConstruct c ts xs => do xs' <- omap g xs ; Some (EConstruct c ts xs')
  end.

(** opt.rs:165-214 [walk_expressions_postorder_mut]. *)
Fixpoint post (f : expr -> option expr) (e : expr) {struct e} : option expr :=
  do e' <- children (post f) e ; f e'.

(** Number of nodes, where the fields of a constructor count twice (merge_match turns each into a [let]). *)
Fixpoint size (e : expr) : nat :=
  let sum := fix sum (l : list expr) : nat := match l with [] => 0 | x :: r => size x + sum r end in
  S match e with
    | EBool _ | EInt _ | EString _ | EName _ | ETrap _ _ => 0
    | ECall a b => size a + sum b
    | EIntr _ b => sum b
    | EOp a _ b | ELet _ a b | ELetRec _ _ a b => size a + size b
    | EIf a b c => size a + size b + size c
    | ELam _ a | EPi _ a | EPiApp a _ => size a
    | EMatch a bs => size a + (fix sumb (l : list (name * list name * expr)) : nat :=
        match l with [] => 0 | x :: r => size (snd x) + sumb r end) bs
    | EConstruct _ _ xs => length xs + sum xs
    end.

(** opt.rs:114-163 [walk_expressions_mut]: the function first, then the children of what it left.  [fuel]
    bounds the depth of the recursion; [size e] is enough when the function never enlarges an expression
    ([pre_enough] in OptSmall.v), so [pre f e] is the Rust walk. *)
Fixpoint pre_fuel (f : expr -> option expr) (fuel : nat) (e : expr) : option expr :=
  match fuel with
  | O => Some e
  | S n => do e' <- f e ; children (pre_fuel f n) e'
  end.
Definition pre (f : expr -> option expr) (e : expr) : option expr := pre_fuel f (size e) e.

(** [for v in &mut program.defs { walk(&mut v.value, f) }] *)
Definition on_defs (g : expr -> option expr) (p : program) : option program :=
  do ds <- omap (fun d => do v <- g (vd_value d) ; Some (mkValDef (vd_name d) (vd_export d) (vd_ty d) v)) (p_defs p) ;
  Some (mkProgram (p_types p) ds).
