(** Model of the type checker, ticc/src/compiler/typeck.rs:6-79 and 317-614, with kind checking
    (kindck.rs) and the calls of the match checker (Checks.v), from the resolved syntax of an item to the
    annotated syntax that the code generator reads (GenCore.v).

    The syntax is complete: a missing part is a parse error, and a name that the resolver does not find is an
    error of the resolver, so no such item is accepted.  The maps keyed by node ([expr_types], [insts]) are
    written into the tree: [check] returns the tree with type indices, [annotate] replaces them by the final
    types, as typeck.rs:62-74 does.  Spans and messages are left out: a diagnostic is the flag [false]. *)
From Verif Require Export SrcSem.
From Verif Require Export Checks.
From Verif Require Export Unify.
Set Implicit Arguments.

(** Resolved syntax, compiler/syntax.rs [node::Expr].  The annotation of a [let] lists the type variables it
    introduces (resolve.rs:587-603). *)
Inductive rexpr : Type :=
| RName (s : sym)
| RApply (f a : rexpr)
| RBinary (a : rexpr) (o : op) (b : rexpr)
| RPipe (a f : rexpr)
| RLet (s : sym) (ann : option (list sym * irty)) (v e : rexpr)
| RMatch (d : rexpr) (cases : list (sym * list sym * rexpr))
| RIf (c t e : rexpr)
| RBoolean (b : bool)
| RNumber (n : N)
| RStr (s : bytes)
| RLam (fold : bool) (x : sym) (b : rexpr)
| RParen (e : rexpr)
| RHole (text : bytes).

Inductive ritem : Type :=
| RTy (s : sym) (params : list sym) (cases : list (sym * list (option irty)))
| RVal (s : sym) (ann : option (list sym * irty)) (export : option bytes) (body : builtin + rexpr).

(** The checked tree: [INm] has the type arguments of the use, [IMt] the type of the scrutinee, [IFo] and
    [IHo] the type of the expression. *)
Inductive iexpr : Type :=
| INm (s : sym) (insts : list idx)
| IAp (f a : iexpr)
| IBin (a : iexpr) (o : op) (b : iexpr)
| IPipe (a f : iexpr)
| ILt (s : sym) (v e : iexpr)
| IMt (ti : idx) (d : iexpr) (cases : list (sym * list sym * iexpr))
| IIf (c t e : iexpr)
| IBo (b : bool)
| INu (n : N)
| ISt (s : bytes)
| IFo (ti : idx) (x : sym) (b : iexpr)
| ILa (x : sym) (b : iexpr)
| IPa (e : iexpr)
| IHo (text : bytes) (ti : idx).

(** compiler/ir.rs [DefKind] (modules left out). *)
Record dctor := mkDctor { dc_type : sym; dc_vars : list sym; dc_fields : list (option irty) }.
Inductive dkind : Type :=
| DValue (vars : list sym) (t : irty)
| DCtor (c : dctor) (fn_ty : irty)
| DType (param_count : nat) (ctors : mctors).
Definition defset := list (sym * dkind).

(** resolve.rs:263-283: the type of a constructor as a function. *)
Definition ctor_fn_ty (ts : sym) (params : list sym) (fields : list (option irty)) : irty :=
  let whole := IrNamed ts (map (fun p => IrNamed p []) params) in
  fold_right (fun f t => IrFn match f with None => whole | Some a => a end t) whole fields.
Definition ann_def (ann : option (list sym * irty)) : dkind :=
  match ann with Some (vars, t) => DValue vars t | None => DValue [] IrInfer end.
Definition ann_vars (ann : option (list sym * irty)) : defset :=
  match ann with Some (vars, _) => map (fun v => (v, DType 0 CtorOpaque)) vars | None => [] end.
(** resolve.rs:177-288, 495-523: the definitions of an item that other items may see, with its type
    variables. *)
Definition item_defs (i : ritem) : defset :=
  match i with
  | RTy s params cases =>
    (s, DType (length params) (CtorList (map fst cases))) ::
    map (fun p => (p, DType 0 CtorOpaque)) params ++
    map (fun c => (fst c, DCtor (mkDctor s params (snd c)) (ctor_fn_ty s params (snd c)))) cases
  | RVal s ann _ _ => (s, ann_def ann) :: ann_vars ann
  end.
Definition defs_of (is : list ritem) : defset := flat_map item_defs is.
(** resolve.rs:525-745: the definitions inside an expression. *)
Fixpoint expr_defs (e : rexpr) : defset :=
  match e with
  | RName _ | RBoolean _ | RNumber _ | RStr _ | RHole _ => []
  | RApply a b | RBinary a _ b | RPipe a b => expr_defs a ++ expr_defs b
  | RLet s ann v e => (s, ann_def ann) :: ann_vars ann ++ expr_defs v ++ expr_defs e
  | RMatch d cases =>
    expr_defs d ++ flat_map (fun c => map (fun x => (x, DValue [] IrInfer)) (snd (fst c)) ++ expr_defs (snd c)) cases
  | RIf a b c => expr_defs a ++ expr_defs b ++ expr_defs c
  | RLam _ x b => (x, DValue [] IrInfer) :: expr_defs b
  | RParen e => expr_defs e
  end.
(** The symbols referred to by an expression ([item.refs]; references to types are not looked at). *)
Fixpoint expr_refs (e : rexpr) : list sym :=
  match e with
  | RName s => [s]
  | RBoolean _ | RNumber _ | RStr _ | RHole _ => []
  | RApply a b | RBinary a _ b | RPipe a b => expr_refs a ++ expr_refs b
  | RLet _ _ v e => expr_refs v ++ expr_refs e
  | RMatch d cases => expr_refs d ++ flat_map (fun c => fst (fst c) :: expr_refs (snd c)) cases
  | RIf a b c => expr_refs a ++ expr_refs b ++ expr_refs c
  | RLam _ _ b => expr_refs b
  | RParen e => expr_refs e
  end.

(** typeck.rs:81-85 [NameTy]. *)
Inductive nty : Type := NInfer (i : idx) | NInst (t : irty) (vars : list sym).

Definition is_infer (k : option dkind) : bool := match k with Some (DValue _ IrInfer) => true | _ => false end.
(** typeck.rs:17-43: one unknown for every symbol without a declared type. *)
Definition init_step (D : defset) (s : uni * list (sym * idx)) (x : sym) : uni * list (sym * idx) :=
  let '(u, l) := s in
  if is_infer (assoc x D) then
    match assoc x l with
    | Some _ => (u, l)
    | None => let '(u', i) := fresh_var u in (u', (x, i) :: l)
    end
  else (u, l).
Definition init_types (D : defset) (xs : list sym) : uni * list (sym * idx) := fold_left (init_step D) xs (new_uni, []).
(** [symbol_types] and [ctors], typeck.rs:21-41. *)
Definition symbol_type (D : defset) (l : list (sym * idx)) (x : sym) : option nty :=
  match assoc x D with
  | Some (DValue vars t) => match t with
                            | IrInfer => match assoc x l with Some i => Some (NInfer i) | None => None end
                            | _ => Some (NInst t vars)
                            end
  | Some (DCtor c fn) => Some (NInst fn (dc_vars c))
  | _ => None
  end.
Definition ctor_def (D : defset) (x : sym) : option dctor :=
  match assoc x D with Some (DCtor c _) => Some c | _ => None end.

(** Computations of the checker: the flag is [false] if a diagnostic is reported. *)
Definition chk (A : Type) := uni -> out (A * bool * uni).
Definition cret {A} (a : A) : chk A := fun u => Done (a, true, u).
Definition cbind {A B} (m : chk A) (f : A -> chk B) : chk B :=
  fun u => r <~ m u ;; let '(a, b, u1) := r in r' <~ f a u1 ;; let '(a', b', u2) := r' in Done (a', b && b', u2).
Notation "x <== m ;; k" := (cbind m (fun x => k)) (at level 61, m at next level, right associativity).
Definition cerr : chk unit := fun u => Done (tt, false, u).
(** typeck.rs:321-327. *)
Definition cfresh : chk idx := fun u => let '(u', i) := fresh_var u in Done (i, true, u').
Definition calloc (t : ty) : chk idx := fun u => let '(u', i) := allocate u t in Done (i, true, u').
Definition cinst (t : irty) (vars : list (sym * idx)) : chk idx := fun u => let '(u', i) := instantiate u t vars in Done (i, true, u').
(** typeck.rs:329-346. *)
Definition cunify (k : nat) (a b : idx) : chk unit := fun u => r <~ tc_unify k u a b ;; Done (tt, snd r, fst r).
Definition cnorm (k : nat) (i : idx) : chk (option ty) := fun u => r <~ normalize k u i ;; Done (r, true, u).
Fixpoint cfreshes (n : nat) : chk (list idx) :=
  match n with O => cret [] | S n => i <== cfresh ;; l <== cfreshes n ;; cret (i :: l) end.

Section Check.
  Variable S_ : sym -> option nty.
  Variable C_ : sym -> option dctor.
  Variable k : nat.

  (** typeck.rs:352-365 [lookup_name]. *)
  Definition lookup_name (x : sym) : chk idx :=
    match S_ x with
    | Some (NInfer i) => cret i
    | Some (NInst t vars) => fs <== cfreshes (length vars) ;; cinst t (combine vars fs)
    | None => calloc TyError
    end.
  (** typeck.rs:367-373 [lookup_name_opaque]. *)
  Definition lookup_name_opaque (x : sym) : chk idx :=
    match S_ x with
    | Some (NInfer i) => cret i
    | Some (NInst t _) => cinst t []
    | None => calloc TyError
    end.
  (** typeck.rs:375-392 [instantiate_name]: the type arguments and the type. *)
  Definition instantiate_name (x : sym) : chk (list idx * idx) :=
    match S_ x with
    | Some (NInfer i) => cret ([], i)
    | Some (NInst t vars) => fs <== cfreshes (length vars) ;; i <== cinst t (combine vars fs) ;; cret (fs, i)
    | None => i <== calloc TyError ;; cret ([], i)
    end.

  (** typeck.rs:500-510: the type of a constructor's values with new type arguments. *)
  Fixpoint ctor_head (t : idx) (vars : list sym) : chk (list (sym * idx) * idx) :=
    match vars with
    | [] => cret ([], t)
    | v :: r => i <== cfresh ;; t' <== calloc (TyApply t i) ;; p <== ctor_head t' r ;; cret ((v, i) :: fst p, snd p)
    end.
  (** typeck.rs:529-540. *)
  Fixpoint check_fields (rec : idx) (inst : list (sym * idx)) (xs : list sym) (fs : list (option irty)) : chk unit :=
    match xs, fs with
    | x :: xs', f :: fs' =>
      si <== lookup_name x ;;
      fi <== match f with None => cret rec | Some t => cinst t inst end ;;
      _ <== cunify k fi si ;; check_fields rec inst xs' fs'
    | _, _ => cret tt
    end.
  (** typeck.rs:497-542: the pattern of a case. *)
  Definition check_pattern (primary rec : idx) (c : sym) (xs : list sym) : chk unit :=
    match C_ c with
    | None => cret tt
    | Some d =>
      t0 <== calloc (TyNamed (dc_type d)) ;;
      h <== ctor_head t0 (dc_vars d) ;;
      _ <== cunify k primary (snd h) ;;
      if length xs =? length (dc_fields d) then check_fields rec (fst h) xs (dc_fields d) else cerr
    end.
  Definition is_cmp (o : op) : bool :=
    match o with Ir.Add | Subtract | Multiply | Divide | Modulo => false | _ => true end.

  (** typeck.rs:394-603 [check_expr]. *)
  Fixpoint check (e : rexpr) (expected : idx) {struct e} : chk iexpr :=
    match e with
    | RName x =>                                                   (* 398-416 *)
      p <== instantiate_name x ;; _ <== cunify k expected (snd p) ;; cret (INm x (fst p))
    | RApply f a =>                                                (* 417-428 *)
      ia <== cfresh ;; ib <== cfresh ;; fi <== calloc (TyFn ia ib) ;;
      f' <== check f fi ;; a' <== check a ia ;; _ <== cunify k expected ib ;; cret (IAp f' a')
    | RBinary a o b =>                                             (* 429-452 *)
      i <== calloc TyInt ;; a' <== check a i ;; b' <== check b i ;;
      _ <== (if is_cmp o then r <== calloc TyBool ;; cunify k expected r else cunify k expected i) ;;
      cret (IBin a' o b')
    | RPipe a f =>                                                 (* 453-466 *)
      ia <== cfresh ;; a' <== check a ia ;;
      ir <== cfresh ;; fi <== calloc (TyFn ia ir) ;; f' <== check f fi ;;
      _ <== cunify k expected ir ;; cret (IPipe a' f')
    | RLet x _ v e =>                                              (* 475-491 *)
      bt <== lookup_name_opaque x ;; v' <== check v bt ;; e' <== check e expected ;; cret (ILt x v' e')
    | RMatch d cases =>                                            (* 492-548 *)
      di <== cfresh ;; d' <== check d di ;;
      n <== cnorm k di ;;
      let '(primary, rec) := match n with Some (TyFolded a b) => (a, b) | _ => (di, di) end in
      cs <== (fix go (l : list (sym * list sym * rexpr)) : chk (list (sym * list sym * iexpr)) :=
                match l with
                | [] => cret []
                | ((c, xs), b) :: r =>
                  _ <== check_pattern primary rec c xs ;;
                  b' <== check b expected ;; bs <== go r ;; cret (((c, xs), b') :: bs)
                end) cases ;;
      cret (IMt di d' cs)
    | RIf c t e =>                                                 (* 549-560 *)
      b <== calloc TyBool ;; c' <== check c b ;; t' <== check t expected ;; e' <== check e expected ;;
      cret (IIf c' t' e')
    | RBoolean b => i <== calloc TyBool ;; _ <== cunify k expected i ;; cret (IBo b)      (* 561-564 *)
    | RNumber n => i <== calloc TyInt ;; _ <== cunify k expected i ;; cret (INu n)        (* 565-568 *)
    | RStr s => i <== calloc TyString ;; _ <== cunify k expected i ;; cret (ISt s)        (* 569-572 *)
    | RLam fold x b =>                                             (* 573-595 *)
      ax <== lookup_name x ;; ia <== cfresh ;; ib <== cfresh ;;
      arg <== (if fold then calloc (TyFolded ia ib) else cret ia) ;;
      _ <== cunify k ax arg ;;
      fi <== calloc (TyFn ia ib) ;; _ <== cunify k expected fi ;;
      b' <== check b ib ;; cret (if fold then IFo expected x b' else ILa x b')
    | RParen e => e' <== check e expected ;; cret (IPa e')         (* 596-602 *)
    | RHole text => cret (IHo text expected)                       (* 603 *)
    end.
End Check.

(** The same types as GenCore.v writes them. *)
Fixpoint sty_of (t : irty) : sty :=
  match t with
  | IrInt => SInt | IrBool => SBool | IrString => SString
  | IrNamed s args => SNamed s (map sty_of args)
  | IrFn a b => SFn (sty_of a) (sty_of b)
  | IrError => SError | IrInfer => SInfer
  | IrFolded a b => SFolded (sty_of a) (sty_of b)
  end.
Fixpoint omap {A B} (f : A -> out B) (l : list A) : out (list B) :=
  match l with [] => Done [] | a :: r => b <~ f a ;; bs <~ omap f r ;; Done (b :: bs) end.

(** What matchck.rs:28-57 looks at. *)
Definition mty_of (t : irty) : mty :=
  match t with
  | IrNamed s _ => MNamed s
  | IrFolded a _ => MFolded match a with IrNamed s _ => MNamed s | IrError => MError | _ => MOther end
  | IrError => MError
  | _ => MOther
  end.
Definition match_defs (D : defset) (s : sym) : option mctors :=
  match assoc s D with Some (DType _ cs) => Some cs | _ => None end.

Section Annotate.
  Variable D : defset.
  Variable S_ : sym -> option nty.
  Variable k : nat.
  Variable u : uni.

  Definition final (i : idx) : out irty := to_ir k u i.
  (** The type variables and the type of a definition after checking, typeck.rs:68-74. *)
  Definition def_vars (x : sym) : list sym := match assoc x D with Some (DValue vars _) => vars | _ => [] end.
  Definition def_type (x : sym) : out irty :=
    match S_ x with Some (NInfer i) => final i | Some (NInst t _) => Done t | None => Bad end.

  (** The annotated tree; [Bad] where gen_core.rs:415-419 or 541-543 panic. *)
  Fixpoint annotate (e : iexpr) : out sexpr :=
    match e with
    | INm x insts => ts <~ omap final insts ;; Done (SName x (map sty_of ts))
    | IAp f a => f' <~ annotate f ;; a' <~ annotate a ;; Done (SApply f' a')
    | IBin a o b => a' <~ annotate a ;; b' <~ annotate b ;; Done (SBinary a' o b')
    | IPipe a f => a' <~ annotate a ;; f' <~ annotate f ;; Done (SPipe a' f')
    | ILt x v e => v' <~ annotate v ;; e' <~ annotate e ;; Done (SLet x (def_vars x) v' e')
    | IMt ti d cases =>
      d' <~ annotate d ;;
      t <~ final ti ;;
      folded <~ match t with IrNamed _ _ => Done false | IrFolded _ _ => Done true | _ => Bad end ;;
      cs <~ (fix go (l : list (sym * list sym * iexpr)) : out (list (sym * list sym * sexpr)) :=
               match l with
               | [] => Done []
               | (p, b) :: r => b' <~ annotate b ;; bs <~ go r ;; Done ((p, b') :: bs)
               end) cases ;;
      Done (SMatch folded d' cs)
    | IIf c t e => c' <~ annotate c ;; t' <~ annotate t ;; e' <~ annotate e ;; Done (SIf c' t' e')
    | IBo b => Done (SBoolean b)
    | INu n => Done (SNumber n)
    | ISt s => Done (SStr s)
    | IFo ti x b => t <~ final ti ;; b' <~ annotate b ;; Done (SFold (sty_of t) x b')
    | ILa x b => t <~ def_type x ;; b' <~ annotate b ;; Done (SLam x (def_vars x) (sty_of t) b')
    | IPa e => e' <~ annotate e ;; Done (SParen e')
    | IHo text ti => t <~ final ti ;; Done (SHole text (sty_of t))
    end.

  (** matchck.rs:7-16 [check_matches]: no diagnostics for any match. *)
  Fixpoint matches_ok (e : iexpr) : out bool :=
    match e with
    | INm _ _ | IBo _ | INu _ | ISt _ | IHo _ _ => Done true
    | IAp a b | IBin a _ b | IPipe a b | ILt _ a b => r <~ matches_ok a ;; r' <~ matches_ok b ;; Done (r && r')
    | IMt ti d cases =>
      t <~ final ti ;;
      m <~ match check_match (match_defs D) (Some (mty_of t)) (map (fun c => Some (fst (fst c))) cases) with
           | Some [] => Done true
           | Some _ => Done false
           | None => Bad
           end ;;
      r <~ matches_ok d ;;
      rs <~ (fix go (l : list (sym * list sym * iexpr)) : out bool :=
               match l with [] => Done true | (_, b) :: r => x <~ matches_ok b ;; y <~ go r ;; Done (x && y) end) cases ;;
      Done (m && r && rs)
    | IIf a b c => r <~ matches_ok a ;; r' <~ matches_ok b ;; r'' <~ matches_ok c ;; Done (r && r' && r'')
    | IFo _ _ b | ILa _ b | IPa b => matches_ok b
    end.
End Annotate.

(** kindck.rs:76-97 [report_type] for every named type in [t]: it has as many arguments as it is declared
    with.  Types as written: no [Infer], no [Folded]; [Error] comes with a diagnostic of the resolver. *)
Fixpoint kind_ok (D : defset) (t : irty) : bool :=
  match t with
  | IrInt | IrBool | IrString => true
  | IrNamed s args => match assoc s D with Some (DType n _) => length args =? n | _ => false end && forallb (kind_ok D) args
  | IrFn a b => kind_ok D a && kind_ok D b
  | IrError | IrInfer | IrFolded _ _ => false
  end.
Fixpoint expr_kinds_ok (D : defset) (e : rexpr) : bool :=
  match e with
  | RName _ | RBoolean _ | RNumber _ | RStr _ | RHole _ => true
  | RApply a b | RBinary a _ b | RPipe a b => expr_kinds_ok D a && expr_kinds_ok D b
  | RLet _ ann v e => match ann with Some (_, t) => kind_ok D t | None => true end && expr_kinds_ok D v && expr_kinds_ok D e
  | RMatch d cases => expr_kinds_ok D d && forallb (fun c => expr_kinds_ok D (snd c)) cases
  | RIf a b c => expr_kinds_ok D a && expr_kinds_ok D b && expr_kinds_ok D c
  | RLam _ _ b => expr_kinds_ok D b
  | RParen e => expr_kinds_ok D e
  end.

(** typeck.rs:6-79 [type_check] of a value item with kinds and matches checked (lib.rs:124-128): the
    annotated body, the types of the symbols defined in the item, and whether there were no diagnostics.
    [G] are the definitions of other items. *)
Definition type_check (k : nat) (G : defset) (x : sym) (ann : option (list sym * irty)) (e : rexpr)
  : out (sexpr * list (sym * irty) * bool) :=
  let own := (x, ann_def ann) :: ann_vars ann ++ expr_defs e in
  let D := own ++ G in
  let '(u0, l) := init_types D (expr_refs e ++ map fst own) in
  let S_ := symbol_type D l in
  let '(u1, expected) := instantiate u0 match ann with Some (_, t) => t | None => IrInfer end [] in
  r <~ check S_ (ctor_def D) k e expected u1 ;;
  let '(ie, ok, u) := r in
  body <~ annotate D S_ k u ie ;;
  m <~ matches_ok D k u ie ;;
  types <~ omap (fun p => t <~ final k u (snd p) ;; Done (fst p, t)) l ;;
  Done (body, types,
        ok && m && match ann with Some (_, t) => kind_ok D t | None => true end && expr_kinds_ok D e).

(** lib.rs:103-133 [compile_up_to], one item after resolution.  [None]: the item has errors. *)
Definition check_item (k : nat) (G : defset) (i : ritem) : out (option (item * list (sym * irty))) :=
  match i with
  | RTy s params cases =>
    Done (if forallb (fun c => forallb (fun f => match f with Some t => kind_ok (item_defs i ++ G) t | None => true end) (snd c)) cases
          then Some (ITy s params (map (fun c => (fst c, map (option_map sty_of) (snd c))) cases), [])
          else None)
  | RVal x ann export (inl b) =>                                   (* the body is a hole: std/intrinsics.tic *)
    match ann with
    | Some (vars, t) => Done (if kind_ok (item_defs i ++ G) t then Some (IVal x vars (sty_of t) export (inl b), []) else None)
    | None => Done (Some (IVal x [] SInfer export (inl b), []))
    end
  | RVal x ann export (inr e) =>
    r <~ type_check k G x ann e ;;
    let '(body, types, ok) := r in
    Done (if ok then Some (IVal x match ann with Some (vars, _) => vars | None => [] end
                                match ann with Some (_, t) => sty_of t
                                             | None => match assoc x types with Some t => sty_of t | None => SInfer end
                                end export (inr body), types)
          else None)
  end.
