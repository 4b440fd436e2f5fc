(** Core intermediate representation.  Models ticc-core/src/ir.rs. *)
From Coq Require Export List Arith NArith ZArith Lia Bool.
Export ListNotations.
Set Implicit Arguments.

(** ir.rs:3-6 [Name { id: u64 }]: names are compared by id only. *)
Notation name := nat (only parsing).
(** ir.rs:34-35 [TyVar(u64)]. *)
Notation tyvar := nat (only parsing).
(** ir.rs:191-224 [ByteString]: a sequence of bytes; a byte is an [N] below 256. *)
Notation bytes := (list N) (only parsing).

(** ir.rs:37-46 [Ty]. *)
Inductive ty : Type :=
| TBool | TInt | TString
| TVar (v : tyvar)
| TNamed (n : name) (args : list ty)
| TFn (params : list ty) (out : ty)
| TAbs (v : tyvar) (t : ty).

(** ir.rs:55-68 [Op]. *)
Inductive op : Type :=
| Add | Subtract | Multiply | Divide | Modulo
| Less | LessEq | Greater | GreaterEq | Equal | NotEqual.

(** ir.rs:70-78 [Intrinsic]. *)
Inductive intrinsic : Type :=
| StringLen | StringConcat | StringCharAt | StringSubstring | StringFromChar | IntToString.

(** ir.rs:8-26 [Expr].  A [LambdaParam] (ir.rs:28-32) is a (name, type) pair, a match
    [Branch] (ir.rs:48-53) is a (ctor, bindings, value) triple.  [Box]/[Vec] become the
    value itself / [list]. *)
Inductive expr : Type :=
| EBool (b : bool)
| EInt (i : N)
| EString (s : bytes)
| EName (n : name)
| ECall (f : expr) (args : list expr)
| EIf (c t e : expr)
| EOp (a : expr) (o : op) (b : expr)
| EIntr (i : intrinsic) (args : list expr)
| ELam (ps : list (name * ty)) (body : expr)
| EMatch (d : expr) (brs : list (name * list name * expr))
| EConstruct (c : name) (tys : list ty) (fields : list expr)
| ELet (n : name) (v e : expr)
| ELetRec (n : name) (t : ty) (v e : expr)
| EPi (v : tyvar) (e : expr)
| EPiApp (e : expr) (t : ty)
| ETrap (msg : bytes) (t : ty).

(** ir.rs:80-118 [TyDef], [TyCase], [ValueDef], [Program] ([export_name] is kept as an
    option of bytes; source names table is dropped). *)
Record tydef := mkTyDef { td_name : name; td_vars : list tyvar;
                          td_cases : list (name * list ty) }.
Record valdef := mkValDef { vd_name : name; vd_export : option bytes; vd_ty : ty; vd_value : expr }.
Record program := mkProgram { p_types : list tydef; p_defs : list valdef }.

(** Structural induction for the nested types. *)
Section TyInd.
  Variable P : ty -> Prop.
  Hypothesis HBool : P TBool.
  Hypothesis HInt : P TInt.
  Hypothesis HString : P TString.
  Hypothesis HVar : forall v, P (TVar v).
  Hypothesis HNamed : forall n args, Forall P args -> P (TNamed n args).
  Hypothesis HFn : forall ps o, Forall P ps -> P o -> P (TFn ps o).
  Hypothesis HAbs : forall v t, P t -> P (TAbs v t).
  Fixpoint ty_ind' (t : ty) : P t :=
    let all := fix all (l : list ty) : Forall P l :=
      match l with [] => Forall_nil _ | x :: r => Forall_cons _ (ty_ind' x) (all r) end in
    match t with
    | TBool => HBool | TInt => HInt | TString => HString
    | TVar v => HVar v
    | TNamed n a => HNamed n (all a)
    | TFn ps o => HFn (all ps) (ty_ind' o)
    | TAbs v t => HAbs v (ty_ind' t)
    end.
End TyInd.

Section ExprInd.
  Variable P : expr -> Prop.
  Hypothesis HBool : forall b, P (EBool b).
  Hypothesis HInt : forall i, P (EInt i).
  Hypothesis HString : forall s, P (EString s).
  Hypothesis HName : forall n, P (EName n).
  Hypothesis HCall : forall f args, P f -> Forall P args -> P (ECall f args).
  Hypothesis HIf : forall c t e, P c -> P t -> P e -> P (EIf c t e).
  Hypothesis HOp : forall a o b, P a -> P b -> P (EOp a o b).
  Hypothesis HIntr : forall i args, Forall P args -> P (EIntr i args).
  Hypothesis HLam : forall ps b, P b -> P (ELam ps b).
  Hypothesis HMatch : forall d brs, P d -> Forall (fun br => P (snd br)) brs -> P (EMatch d brs).
  Hypothesis HConstruct : forall c tys fs, Forall P fs -> P (EConstruct c tys fs).
  Hypothesis HLet : forall n v e, P v -> P e -> P (ELet n v e).
  Hypothesis HLetRec : forall n t v e, P v -> P e -> P (ELetRec n t v e).
  Hypothesis HPi : forall v e, P e -> P (EPi v e).
  Hypothesis HPiApp : forall e t, P e -> P (EPiApp e t).
  Hypothesis HTrap : forall m t, P (ETrap m t).
  Fixpoint expr_ind' (e : expr) : P e :=
    let all := fix all (l : list expr) : Forall P l :=
      match l with [] => Forall_nil _ | x :: r => Forall_cons _ (expr_ind' x) (all r) end in
    match e with
    | EBool b => HBool b
    | EInt i => HInt i
    | EString s => HString s
    | EName n => HName n
    | ECall f a => HCall (expr_ind' f) (all a)
    | EIf c t e => HIf (expr_ind' c) (expr_ind' t) (expr_ind' e)
    | EOp a o b => HOp o (expr_ind' a) (expr_ind' b)
    | EIntr i a => HIntr i (all a)
    | ELam ps b => HLam ps (expr_ind' b)
    | EMatch d brs => HMatch (expr_ind' d)
        ((fix allb (l : list (name * list name * expr)) : Forall (fun br => P (snd br)) l :=
            match l with [] => Forall_nil _
                    | x :: r => Forall_cons _ (expr_ind' (snd x)) (allb r) end) brs)
    | EConstruct c tys fs => HConstruct c tys (all fs)
    | ELet n v e => HLet n (expr_ind' v) (expr_ind' e)
    | ELetRec n t v e => HLetRec n t (expr_ind' v) (expr_ind' e)
    | EPi v e => HPi v (expr_ind' e)
    | EPiApp e t => HPiApp t (expr_ind' e)
    | ETrap m t => HTrap m t
    end.
End ExprInd.

(** treewalk.rs:236-242 [strip_pis], compile.rs:438-443 [unwrap_pis]: skip leading type
    abstractions. *)
Fixpoint strip_pis (e : expr) : expr :=
  match e with EPi _ e' => strip_pis e' | _ => e end.

(** Induction in which a recursive definition also provides the hypothesis for the body of its
    (stripped) function. *)
Section ExprIndRec.
  Variable P : expr -> Prop.
  Hypothesis HBool : forall b, P (EBool b).
  Hypothesis HInt : forall i, P (EInt i).
  Hypothesis HString : forall s, P (EString s).
  Hypothesis HName : forall n, P (EName n).
  Hypothesis HCall : forall f args, P f -> Forall P args -> P (ECall f args).
  Hypothesis HIf : forall c t e, P c -> P t -> P e -> P (EIf c t e).
  Hypothesis HOp : forall a o b, P a -> P b -> P (EOp a o b).
  Hypothesis HIntr : forall i args, Forall P args -> P (EIntr i args).
  Hypothesis HLam : forall ps b, P b -> P (ELam ps b).
  Hypothesis HMatch : forall d brs, P d -> Forall (fun br => P (snd br)) brs -> P (EMatch d brs).
  Hypothesis HConstruct : forall c tys fs, Forall P fs -> P (EConstruct c tys fs).
  Hypothesis HLet : forall n v e, P v -> P e -> P (ELet n v e).
  Hypothesis HLetRec : forall n t v e, P v -> P e ->
    (forall ps b, strip_pis v = ELam ps b -> P b) -> P (ELetRec n t v e).
  Hypothesis HPi : forall v e, P e -> P (EPi v e).
  Hypothesis HPiApp : forall e t, P e -> P (EPiApp e t).
  Hypothesis HTrap : forall m t, P (ETrap m t).
  Lemma expr_ind_rec (e : expr) : P e.
  Proof.
    assert (H : P e /\ (forall ps b, strip_pis e = ELam ps b -> P b)); [|apply H].
    assert (HF : forall l, Forall (fun e => P e /\ (forall ps b, strip_pis e = ELam ps b -> P b)) l ->
                           Forall P l) by (intros l Hl; eapply Forall_impl; [|exact Hl]; simpl; tauto).
    induction e using expr_ind'; simpl; (split; [|intros ps0 b0 E; try discriminate E]); intuition auto.
    - injection E as -> ->; auto.
    - apply HMatch; auto. eapply Forall_impl; [|eassumption]; simpl; tauto.
    - eauto.
  Qed.
End ExprIndRec.

(** Association lists model the Rust [HashMap]s: inserting is consing, the newest binding wins. *)
Fixpoint lookup {A : Type} (x : name) (l : list (name * A)) : option A :=
  match l with
  | [] => None
  | (y, v) :: r => if Nat.eqb x y then Some v else lookup x r
  end.
