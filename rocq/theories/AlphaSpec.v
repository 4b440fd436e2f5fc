(** Specification: two types are equal up to renaming of bound type variables. *)
From Verif Require Export Ir.

(** [x] and [y] are the same variable under the paired binders [G] (innermost first). *)
Fixpoint same_var (G : list (tyvar * tyvar)) (x y : tyvar) : Prop :=
  match G with
  | [] => x = y
  | (a, b) :: r => (x = a /\ y = b) \/ (x <> a /\ y <> b /\ same_var r x y)
  end.
Inductive alpha : list (tyvar * tyvar) -> ty -> ty -> Prop :=
| a_bool G : alpha G TBool TBool
| a_int G : alpha G TInt TInt
| a_string G : alpha G TString TString
| a_var G x y : same_var G x y -> alpha G (TVar x) (TVar y)
| a_named G n ts us : Forall2 (alpha G) ts us -> alpha G (TNamed n ts) (TNamed n us)
| a_fn G ts us t u : Forall2 (alpha G) ts us -> alpha G t u -> alpha G (TFn ts t) (TFn us u)
| a_abs G x y t u : alpha ((x, y) :: G) t u -> alpha G (TAbs x t) (TAbs y u).

(** The binders of a type, and its free variables. *)
Fixpoint ty_binders (t : ty) : list tyvar :=
  match t with
  | TBool | TInt | TString | TVar _ => []
  | TNamed _ ts => flat_map ty_binders ts
  | TFn ps o => flat_map ty_binders ps ++ ty_binders o
  | TAbs x t => x :: ty_binders t
  end.
Inductive ty_free (x : tyvar) : ty -> Prop :=
| f_var : ty_free x (TVar x)
| f_named n ts t : In t ts -> ty_free x t -> ty_free x (TNamed n ts)
| f_param ps p o : In p ps -> ty_free x p -> ty_free x (TFn ps o)
| f_out ps o : ty_free x o -> ty_free x (TFn ps o)
| f_abs y t : x <> y -> ty_free x t -> ty_free x (TAbs y t).
