(** Specification for type safety: the fragment of core programs for which acceptance by the verifier
    guarantees that running never goes wrong, and the kind of value a type promises. *)
From Verif Require Export Verify Eval.
Set Implicit Arguments.

(** Types without quantifiers. *)
Fixpoint monob (t : ty) : bool :=
  match t with
  | TBool | TInt | TString | TVar _ => true
  | TNamed _ ts => forallb monob ts
  | TFn ps o => forallb monob ps && monob o
  | TAbs _ _ => false
  end.
(** ... using only the type variables [D]. *)
Fixpoint mono_in (D : list tyvar) (t : ty) : bool :=
  match t with
  | TBool | TInt | TString => true
  | TVar v => mem v D
  | TNamed _ ts => forallb (mono_in D) ts
  | TFn ps o => forallb (mono_in D) ps && mono_in D o
  | TAbs _ _ => false
  end.
(** Quantifiers only at the front. *)
Fixpoint prenex (t : ty) : bool := match t with TAbs _ t => prenex t | _ => monob t end.
(** Quantifiers never to the left of an arrow or inside a data type. *)
Fixpoint rank1 (t : ty) : bool :=
  match t with
  | TBool | TInt | TString | TVar _ => true
  | TNamed _ ts => forallb monob ts
  | TFn ps o => forallb monob ps && rank1 o
  | TAbs _ t => rank1 t
  end.

(** Some type of the program owns the first branch's constructor and all its constructors are covered. *)
Definition covered (p : program) (brs : list (name * list name * expr)) : bool :=
  match brs with
  | [] => false
  | ((c0, _), _) :: _ =>
    existsb (fun td => mem c0 (map fst (td_cases td)) &&
                       forallb (fun c => mem (fst c) (map (fun br => fst (fst br)) brs)) (td_cases td))
            (p_types p)
  end.

(** [D] is the list of type variables in scope. *)
Fixpoint plain (p : program) (D : list tyvar) (e : expr) : bool :=
  match e with
  | EBool _ | EInt _ | EString _ | EName _ => true
  | ECall f args => plain p D f && forallb (plain p D) args
  | EIf c t e => plain p D c && plain p D t && plain p D e
  | EOp a _ b => plain p D a && plain p D b
  | EIntr _ args => forallb (plain p D) args
  | ELam ps b => forallb (fun p => monob (snd p)) ps && plain p D b
  | EMatch d brs => plain p D d && covered p brs && forallb (fun br => plain p D (snd br)) brs
  | EConstruct _ tys fs => forallb (mono_in D) tys && (length fs <=? 9) && forallb (plain p D) fs
  | ELet _ v e => plain p D v && plain p D e
  | ELetRec _ t v e =>
    prenex t && match strip_pis v with ELam _ _ => true | _ => false end && plain p D v && plain p D e
  | EPi a e => plain p (a :: D) e
  | EPiApp e t => plain p D e && mono_in D t
  | ETrap _ t => rank1 t
  end.
Definition plain_program (p : program) (vals : list expr) : bool :=
  forallb (fun td => forallb (fun c => forallb monob (snd c)) (td_cases td)) (p_types p) &&
  forallb (fun d => plain p [] (vd_value d)) (p_defs p) &&
  forallb (plain p []) vals.

(** What a type says about the head of a value. *)
Definition has_kind (p : program) (v : value) (t : ty) : Prop :=
  match t with
  | TInt => exists i, v = VInt i
  | TBool => exists b, v = VBool b
  | TString => exists s, v = VStr s
  | TNamed n _ => exists c fs td tys, v = VComp c fs /\ In td (p_types p) /\ td_name td = n /\
                                     In (c, tys) (td_cases td) /\ length fs = length tys
  | TFn ps _ => exists en rec ns b, v = VFn en rec ns b /\ length ns = length ps
  | _ => True
  end.
