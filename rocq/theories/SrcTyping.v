(** Specification for C48-C50: the typing rules of the language, on the annotated source of GenCore.v and
    independent of the checker.  Types are finite trees with unknowns ([term], UnifySpec.v); an unknown that is
    left stands for a type that does not matter.  The type of a value inside a fold over [a] with results [r]
    is [TNode NFolded a r]. *)
From Verif Require Export Typeck UnifySpec GenSpec.
Set Implicit Arguments.

(** A type as it can be written down. *)
Fixpoint written (t : irty) : bool :=
  match t with
  | IrInt | IrBool | IrString => true
  | IrNamed _ args => forallb written args
  | IrFn a b => written a && written b
  | IrError | IrInfer | IrFolded _ _ => false
  end.
Fixpoint tnames (t : irty) : list sym :=
  match t with
  | IrNamed s args => s :: flat_map tnames args
  | IrFn a b | IrFolded a b => tnames a ++ tnames b
  | _ => []
  end.

(** The declared type [s] with arguments [ts]. *)
Definition data (s : sym) (ts : list term) : term := fold_left (TNode NApply) ts (TLeaf (LNamed s)).
Definition op_term (o : op) : term := TLeaf (if is_cmp o then LBool else LInt).
(** The type of a field, given that of recursive fields and those of the type's variables. *)
Definition field_term (rec : term) (vs : list (sym * term)) (f : option irty) : term :=
  match f with None => rec | Some t => scheme vs t end.
Fixpoint head_of (t : term) : option sym :=
  match t with
  | TLeaf (LNamed s) => Some s
  | TNode NApply a _ => head_of a
  | _ => None
  end.

(** What is known about a symbol: one type, or a declared type with type variables. *)
Inductive sch : Type := Mono (t : term) | Poly (vars : list sym) (t : irty).
Definition inst (s : sch) (t : term) : Prop :=
  match s with
  | Mono t' => t = t'
  | Poly vars ty => exists ts, length ts = length vars /\ t = scheme (combine vars ts) ty
  end.
Definition own_vars (s : sch) : list sym := match s with Mono _ => [] | Poly vars _ => vars end.
(** The type at which the body of a definition is checked: its type variables stand for themselves. *)
Definition generic (s : sch) : term := match s with Mono t => t | Poly _ ty => scheme [] ty end.

Section Rules.
  Variable G : sym -> option sch.
  Variable C : sym -> option dctor.      (* the constructors *)
  Variable T : sym -> bool.              (* the declared types *)

  (** The pattern [c xs] for values of type [data s ts] whose recursive fields have type [rec]. *)
  Definition pattern (s : sym) (ts : list term) (rec : term) (c : sym) (xs : list sym) : Prop :=
    exists d, C c = Some d /\ dc_type d = s /\ length ts = length (dc_vars d) /\
      Forall2 (fun x f => G x = Some (Mono (field_term rec (combine (dc_vars d) ts) f))) xs (dc_fields d).
  (** Every constructor of [s] has a case. *)
  Definition covers (s : sym) (cs : list sym) : Prop := forall c d, C c = Some d -> dc_type d = s -> In c cs.

  Fixpoint has (e : sexpr) (t : term) {struct e} : Prop :=
    match e with
    | SName x _ => exists s, G x = Some s /\ inst s t
    | SApply f a | SPipe a f => exists ta, has f (TNode NFn ta t) /\ has a ta
    | SBinary a o b => has a (TLeaf LInt) /\ has b (TLeaf LInt) /\ t = op_term o
    | SLet x vars v e => exists s, G x = Some s /\ vars = own_vars s /\ has v (generic s) /\ has e t
    | SMatch folded d cases =>
      exists s ts rec,
        T s = true /\ has d (if folded then TNode NFolded (data s ts) rec else data s ts) /\
        (folded = false -> rec = data s ts) /\
        covers s (map (fun c => fst (fst c)) cases) /\
        (fix go (l : list (sym * list sym * sexpr)) : Prop :=
           match l with [] => True | (p, b) :: r => (pattern s ts rec (fst p) (snd p) /\ has b t) /\ go r end) cases
    | SIf c a b => has c (TLeaf LBool) /\ has a t /\ has b t
    | SBoolean _ => t = TLeaf LBool
    | SNumber _ => t = TLeaf LInt
    | SStr _ => t = TLeaf LString
    | SFold ty x b =>
      exists a r, t = TNode NFn a r /\ G x = Some (Mono (TNode NFolded a r)) /\
        head_of a = match ty with SFn (SNamed y _) _ => Some y | _ => None end /\ has b r
    | SLam x _ _ b => exists a r, t = TNode NFn a r /\ G x = Some (Mono a) /\ has b r
    | SParen e => has e t
    | SHole _ _ => True
    end.
End Rules.

(** The named types and type variables in the type of a symbol, without its own type variables. *)
Fixpoint term_names (t : term) : list sym :=
  match t with
  | TLeaf (LNamed s) => [s]
  | TNode _ a b => term_names a ++ term_names b
  | _ => []
  end.
Definition free_names (s : sch) (y : sym) : Prop :=
  match s with Mono t => In y (term_names t) | Poly vars ty => In y (tnames ty) /\ ~ In y vars end.
(** The type variables of a local definition do not occur in the types of what is in scope there. *)
Fixpoint no_escape (G : sym -> option sch) (B : list sym) (e : sexpr) : Prop :=
  match e with
  | SName _ _ | SBoolean _ | SNumber _ | SStr _ | SHole _ _ => True
  | SApply a b | SBinary a _ b | SPipe a b => no_escape G B a /\ no_escape G B b
  | SLet x vars v e =>
    (forall v y s, In v vars -> In y B -> G y = Some s -> ~ free_names s v) /\ no_escape G B v /\ no_escape G (x :: B) e
  | SMatch _ d cases =>
    no_escape G B d /\
    (fix go (l : list (sym * list sym * sexpr)) : Prop :=
       match l with [] => True | (p, b) :: r => no_escape G (snd p ++ B) b /\ go r end) cases
  | SIf a b c => no_escape G B a /\ no_escape G B b /\ no_escape G B c
  | SFold _ x b => no_escape G (x :: B) b
  | SLam x _ _ b => no_escape G (x :: B) b
  | SParen e => no_escape G B e
  end.

(** * Programs *)
Fixpoint irty_of (t : sty) : irty :=
  match t with
  | SInt => IrInt | SBool => IrBool | SString => IrString
  | SNamed s args => IrNamed s (map irty_of args)
  | SFn a b => IrFn (irty_of a) (irty_of b)
  | SError => IrError | SInfer => IrInfer
  | SFolded a b => IrFolded (irty_of a) (irty_of b)
  end.
Definition is_type (tys : stypes) (s : sym) : bool := match lookup s tys with Some _ => true | None => false end.
(** The constructors of a program. *)
Definition ctors_of (is : list item) : list (sym * dctor) :=
  flat_map (fun i => match i with
                     | ITy s ps cases => map (fun c => (fst c, mkDctor s ps (map (option_map irty_of) (snd c)))) cases
                     | _ => []
                     end) is.
(** The declared types of its values. *)
Definition decls_of (is : list item) : list (sym * sch) :=
  flat_map (fun i => match i with
                     | ITy s ps cases => map (fun c => (fst c, Poly ps (ctor_fn_ty s ps (map (option_map irty_of) (snd c))))) cases
                     | IVal x vars t _ _ => [(x, Poly vars (irty_of t))]
                     | IImport _ => []
                     end) is.
(** Type variables are not declared types. *)
Definition apart (T : sym -> bool) (vars : list sym) : Prop := Forall (fun v => T v = false) vars.
(** A written type that mentions declared types and the variables [vars]. *)
Definition closed (T : sym -> bool) (vars : list sym) (t : irty) : Prop :=
  written t = true /\ forall s, In s (tnames t) -> In s vars \/ T s = true.
Fixpoint arrows (l : list irty) (r : irty) : irty := match l with [] => r | a :: l => IrFn a (arrows l r) end.
(** std/intrinsics.tic. *)
Definition builtin_type (b : builtin) (vars : list sym) (t : irty) : Prop :=
  match b with
  | BIterate => exists a, let A := IrNamed a [] in vars = [a] /\ t = arrows [IrInt; IrFn A A; A] A
  | BStr StringLen => t = arrows [IrString] IrInt
  | BStr StringConcat => t = arrows [IrString; IrString] IrString
  | BStr StringCharAt => t = arrows [IrInt; IrString] IrInt
  | BStr StringSubstring => t = arrows [IrInt; IrInt; IrString] IrString
  | BStr StringFromChar => t = arrows [IrInt] IrString
  | BStr IntToString => t = arrows [IrInt] IrString
  end.

Section Program.
  Variable is : list item.
  Notation T := (is_type (types_of is)).
  Notation C := (fun c => assoc c (ctors_of is)).
  Definition context_ok (G : sym -> option sch) : Prop :=
    (forall x s, assoc x (decls_of is) = Some s -> G x = Some s) /\
    (forall x vars t, G x = Some (Poly vars t) -> written t = true /\ apart T vars).
  Definition item_typed (i : item) : Prop :=
    match i with
    | ITy s ps cases =>
      NoDup ps /\ apart T ps /\
      forall c fs, In (c, fs) cases ->
        length fs <= max_fields /\ Forall (fun f => match f with Some t => closed T ps (irty_of t) | None => True end) fs
    | IVal x vars t _ body =>
      closed T vars (irty_of t) /\ apart T vars /\
      match body with
      | inl b => builtin_type b vars (irty_of t)
      | inr e => exists G, context_ok G /\ has G C T e (scheme [] (irty_of t)) /\ no_escape G [] e
      end
    | IImport _ => True
    end.
End Program.
(** A typed program: its items in the order they run. *)
Record program_typed (is : list item) : Prop := mkProgramTyped {
  pt_items : Forall (item_typed is) is;
  pt_syms : NoDup (syms is);
  pt_scoped : module_scoped [] is = true }.

(** What the type of a value says about it. *)
Definition shaped (is : list item) (t : sty) (v : sval) : Prop :=
  match t with
  | SInt => exists n, v = WInt n
  | SBool => exists b, v = WBool b
  | SString => exists s, v = WStr s
  | SFn _ _ => is_fun v = true
  | SNamed s _ => is_type (types_of is) s = true ->
    exists c fs d, v = WCon false c fs /\ assoc c (ctors_of is) = Some d /\ dc_type d = s /\ length fs = length (dc_fields d)
  | _ => True
  end.
