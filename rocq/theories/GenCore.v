(** Model of the code generator, ticc/src/codegen/gen_core.rs: from resolved and typed source to core.

    The input is the syntax tree together with what the earlier stages recorded about its nodes, written
    into the tree: the symbol each name resolves to ([name_symbols]), the type arguments of each use
    ([insts]), the quantified variables of each binding and the type of each lambda parameter
    ([symbol_types]), the type of each fold and hole ([types]) and whether a match is on a folded type
    (the type of its scrutinee).  Source names of core names are dropped (they are only printed).  [None]
    is a panic. *)
From Verif Require Export Ir Eval.
From Coq Require Ascii String.
Import String.StringSyntax.
Set Implicit Arguments.
Local Open Scope string_scope.

(** compiler/ir.rs [Symbol]: compared by identity. *)
Notation sym := nat (only parsing).

(** compiler/ir.rs:131-140 [Type]. *)
Inductive sty : Type :=
| SInt | SBool | SString
| SNamed (s : sym) (args : list sty)
| SFn (a b : sty)
| SError
| SInfer
| SFolded (t to : sty).

(** compiler/ir.rs [Field]: [None] is [Rec]. *)
Notation field := (option sty) (only parsing).

(** The expressions of compiler/syntax.rs [node::Expr] with the annotations listed above.  [Name] and
    [NamespacedName] are generated alike.  [SBinary] is an arithmetic or comparison operator, [SPipe] the
    operator [|>]. *)
Inductive sexpr : Type :=
| SName (s : sym) (insts : list sty)
| SApply (f a : sexpr)
| SBinary (a : sexpr) (o : op) (b : sexpr)
| SPipe (a f : sexpr)
| SLet (s : sym) (vars : list sym) (v e : sexpr)
| SMatch (folded : bool) (d : sexpr) (cases : list (sym * list sym * sexpr))
| SIf (c t e : sexpr)
| SBoolean (b : bool)
| SNumber (n : N)
| SStr (s : bytes)
| SFold (t : sty) (param : sym) (body : sexpr)
| SLam (param : sym) (vars : list sym) (t : sty) (body : sexpr)
| SParen (e : sexpr)
| SHole (text : bytes) (t : sty).

(** gen_core.rs:307-323: which value item of the intrinsics module this is. *)
Inductive builtin : Type := BIterate | BStr (i : intrinsic).

Inductive item : Type :=
| ITy (s : sym) (params : list sym) (cases : list (sym * list field))
| IVal (s : sym) (vars : list sym) (t : sty) (export : option bytes) (body : builtin + sexpr)
| IImport (mods : list (nat * list item)).

(** gen_core.rs:73-80 [Ctor]. *)
Record ctor := mkCtor { k_sym : sym; k_regular : name; k_folded : name }.
Definition set_folded (c : ctor) (n : name) := mkCtor (k_sym c) (k_regular c) n.
Definition set_regular (c : ctor) (n : name) := mkCtor (k_sym c) n (k_folded c).

(** gen_core.rs:82-96 [Generator], without the per-item annotations and [ctor_fn] names, which nothing
    reads.  [g_nn] and [g_nt] are the lengths of the name tables of the program. *)
Record gst := mkG {
  g_nn : nat; g_nt : nat;
  g_names : list (sym * name);          (* symbol_names *)
  g_folded : list (sym * name);         (* folded_type_names *)
  g_tvs : list (sym * tyvar);           (* type_var_inst *)
  g_fields : list (sym * list field);   (* ctor_fields *)
  g_ctors : list (sym * ctor);          (* ctors *)
  g_tyctors : list (name * list ctor);  (* type_ctors *)
  g_emitted : list nat;                 (* emitted_modules *)
  g_types : list tydef; g_defs : list valdef }.

Definition g0 : gst := mkG 0 0 [] [] [] [] [] [] [] [] [].
Definition up_nn s n := mkG n (g_nt s) (g_names s) (g_folded s) (g_tvs s) (g_fields s) (g_ctors s) (g_tyctors s) (g_emitted s) (g_types s) (g_defs s).
Definition up_nt s n := mkG (g_nn s) n (g_names s) (g_folded s) (g_tvs s) (g_fields s) (g_ctors s) (g_tyctors s) (g_emitted s) (g_types s) (g_defs s).
Definition up_names s l := mkG (g_nn s) (g_nt s) l (g_folded s) (g_tvs s) (g_fields s) (g_ctors s) (g_tyctors s) (g_emitted s) (g_types s) (g_defs s).
Definition up_folded s l := mkG (g_nn s) (g_nt s) (g_names s) l (g_tvs s) (g_fields s) (g_ctors s) (g_tyctors s) (g_emitted s) (g_types s) (g_defs s).
Definition up_tvs s l := mkG (g_nn s) (g_nt s) (g_names s) (g_folded s) l (g_fields s) (g_ctors s) (g_tyctors s) (g_emitted s) (g_types s) (g_defs s).
Definition up_fields s l := mkG (g_nn s) (g_nt s) (g_names s) (g_folded s) (g_tvs s) l (g_ctors s) (g_tyctors s) (g_emitted s) (g_types s) (g_defs s).
Definition up_ctors s l := mkG (g_nn s) (g_nt s) (g_names s) (g_folded s) (g_tvs s) (g_fields s) l (g_tyctors s) (g_emitted s) (g_types s) (g_defs s).
Definition up_tyctors s l := mkG (g_nn s) (g_nt s) (g_names s) (g_folded s) (g_tvs s) (g_fields s) (g_ctors s) l (g_emitted s) (g_types s) (g_defs s).
Definition up_emitted s l := mkG (g_nn s) (g_nt s) (g_names s) (g_folded s) (g_tvs s) (g_fields s) (g_ctors s) (g_tyctors s) l (g_types s) (g_defs s).
Definition up_types s l := mkG (g_nn s) (g_nt s) (g_names s) (g_folded s) (g_tvs s) (g_fields s) (g_ctors s) (g_tyctors s) (g_emitted s) l (g_defs s).
Definition up_defs s l := mkG (g_nn s) (g_nt s) (g_names s) (g_folded s) (g_tvs s) (g_fields s) (g_ctors s) (g_tyctors s) (g_emitted s) (g_types s) l.

(** Computations with the generator's state. *)
Definition gen (A : Type) := gst -> option (A * gst).
Definition gret {A} (a : A) : gen A := fun s => Some (a, s).
Definition gfail {A} : gen A := fun _ => None.
Definition gbind {A B} (m : gen A) (f : A -> gen B) : gen B :=
  fun s => match m s with Some (a, s') => f a s' | None => None end.
Notation "x <-- m ;; k" := (gbind m (fun x => k)) (at level 61, m at next level, right associativity).
Definition gget {A} (f : gst -> option A) : gen A := fun s => match f s with Some a => Some (a, s) | None => None end.
Definition gmod (f : gst -> gst) : gen unit := fun s => Some (tt, f s).
Definition gmap {A B} (f : A -> gen B) : list A -> gen (list B) :=
  fix go l := match l with
              | [] => gret []
              | a :: r => b <-- f a ;; bs <-- go r ;; gret (b :: bs)
              end.

(** ticc-core/src/ir.rs:132-140 [next_synthetic], [new_fresh]; gen_core.rs:343-350 [gen_fake_name],
    [gen_invisible_name]. *)
Definition fresh_name : gen name := fun s => Some (g_nn s, up_nn s (S (g_nn s))).
(** ticc-core/src/ir.rs [TyVarGen::next]. *)
Definition fresh_tv : gen tyvar := fun s => Some (g_nt s, up_nt s (S (g_nt s))).
(** gen_core.rs:336-341 [gen_name]. *)
Definition gen_name (x : sym) : gen name :=
  n <-- fresh_name ;; _ <-- gmod (fun s => up_names s ((x, n) :: g_names s)) ;; gret n.
(** gen_core.rs:352-355 [lookup_name]. *)
Definition lookup_name (x : sym) : gen name := gget (fun s => lookup x (g_names s)).
(** gen_core.rs:567-572 [fresh_inst]. *)
Definition fresh_inst (vars : list sym) : gen unit :=
  _ <-- gmap (fun v => t <-- fresh_tv ;; gmod (fun s => up_tvs s ((v, t) :: g_tvs s))) vars ;; gret tt.
Definition tv_of (v : sym) : gen tyvar := gget (fun s => lookup v (g_tvs s)).

(** gen_core.rs:574-623 [gen_ty]. *)
Fixpoint gen_ty_in (s : gst) (t : sty) {struct t} : option ty :=
  let tys := fix tys (l : list sty) : option (list ty) :=
    match l with
    | [] => Some []
    | a :: r => match gen_ty_in s a, tys r with Some b, Some bs => Some (b :: bs) | _, _ => None end
    end in
  match t with
  | SInt => Some TInt
  | SBool => Some TBool
  | SString => Some TString
  | SNamed n args =>                                               (* 579-590 *)
    match lookup n (g_tvs s) with
    | Some v => match args with [] => Some (TVar v) | _ => None end
    | None =>
      match lookup n (g_names s), tys args with
      | Some c, Some ts => Some (TNamed c ts)
      | _, _ => None
      end
    end
  | SFn a b =>                                                     (* 591-595 *)
    match gen_ty_in s a, gen_ty_in s b with Some a', Some b' => Some (TFn [a'] b') | _, _ => None end
  | SError => None                                                 (* 596 *)
  | SInfer => Some TInt                                            (* 599 *)
  | SFolded t' to =>                                               (* 600-621 *)
    match t' with
    | SNamed n args =>
      match lookup n (g_tvs s) with
      | Some v => match args with [] => Some (TVar v) | _ => None end
      | None =>
        match lookup n (g_folded s), gen_ty_in s to, tys args with
        | Some c, Some to', Some ts => Some (TNamed c (ts ++ [to']))
        | _, _, _ => None
        end
      end
    | _ => gen_ty_in s t'
    end
  end.
Definition gen_ty (t : sty) : gen ty := gget (fun s => gen_ty_in s t).

(** [for &var in vars.iter().rev() { x = Abs/Pi(inst[var], x) }] *)
Definition abs_ty (vs : list tyvar) (t : ty) : ty := fold_right TAbs t vs.
Definition abs_pi (vs : list tyvar) (e : expr) : expr := fold_right EPi e vs.

(** gen_core.rs:557-565 [inst_ty]. *)
Definition inst_ty (vars : list sym) (t : sty) : gen ty :=
  _ <-- fresh_inst vars ;; t' <-- gen_ty t ;; vs <-- gmap tv_of vars ;; gret (abs_ty vs t').

(** gen_core.rs:625-693 [iterate_intrinsic]. *)
Definition iterate_core (a : tyvar) (n f x go n2 x2 : name) : expr :=
  EPi a (ELam [(n, TInt)] (ELam [(f, TFn [TVar a] (TVar a))] (ELam [(x, TVar a)]
    (ELetRec go (TFn [TInt; TVar a] (TVar a))
       (ELam [(n2, TInt); (x2, TVar a)]
          (EIf (EOp (EName n2) LessEq (EInt 0))
               (EName x2)
               (ECall (EName go) [EOp (EName n2) Subtract (EInt 1); ECall (EName f) [EName x2]])))
       (ECall (EName go) [EName n; EName x]))))).
Definition iterate_intrinsic : gen expr :=
  a <-- fresh_tv ;; n <-- fresh_name ;; f <-- fresh_name ;; x <-- fresh_name ;; go <-- fresh_name ;;
  n2 <-- fresh_name ;; x2 <-- fresh_name ;; gret (iterate_core a n f x go n2 x2).

(** gen_core.rs:695-797: the other intrinsics are curried functions around the core intrinsic. *)
Definition intrinsic_params (i : intrinsic) : list ty :=
  match i with
  | StringLen => [TString]
  | StringConcat => [TString; TString]
  | StringCharAt => [TInt; TString]
  | StringSubstring => [TInt; TInt; TString]
  | StringFromChar => [TInt]
  | IntToString => [TInt]
  end.
Definition string_intrinsic (i : intrinsic) : gen expr :=
  ns <-- gmap (fun t => n <-- fresh_name ;; gret (n, t)) (intrinsic_params i) ;;
  gret (fold_right (fun p e => ELam [p] e) (EIntr i (map (fun p => EName (fst p)) ns)) ns).

(** gen_core.rs:487-512: the branch of one constructor of the type a fold runs over. *)
Definition fold_branch (fold : name) (tys : list ty) (c : ctor) (fs : list field) (bs : list name)
  : name * list name * expr :=
  (k_regular c, bs,
   EConstruct (k_folded c) tys
     (map (fun fb => match fst fb with
                     | None => ECall (EName fold) [EName (snd fb)]
                     | Some _ => EName (snd fb)
                     end) (combine fs bs))).
Definition gen_fold_branch (fold : name) (tys : list ty) (c : ctor) : gen (name * list name * expr) :=
  fs <-- gget (fun s => lookup (k_sym c) (g_fields s)) ;;
  bs <-- gmap (fun _ => fresh_name) fs ;;
  gret (fold_branch fold tys c fs bs).
(** gen_core.rs:520-537: the recursive function of a fold. *)
Definition fold_core (fold : name) (t : ty) (temp : name) (pt : ty) (param : name) (unfolded body : expr) : expr :=
  ELetRec fold t (ELam [(temp, pt)] (ELet param unfolded body)) (EName fold).

(** gen_core.rs:357-555 [gen_expr]. *)
Fixpoint gen_expr (e : sexpr) {struct e} : gen expr :=
  match e with
  | SName x insts =>                                               (* 359-378 *)
    n <-- lookup_name x ;; ts <-- gmap gen_ty insts ;; gret (fold_left EPiApp ts (EName n))
  | SApply f a => f' <-- gen_expr f ;; a' <-- gen_expr a ;; gret (ECall f' [a'])   (* 379-383 *)
  | SBinary a o b => a' <-- gen_expr a ;; b' <-- gen_expr b ;; gret (EOp a' o b')  (* 384-400 *)
  | SPipe a f => a' <-- gen_expr a ;; f' <-- gen_expr f ;; gret (ECall f' [a'])    (* 400-405 *)
  | SLet x vars v e =>                                             (* 399-411 *)
    n <-- gen_name x ;; _ <-- fresh_inst vars ;; v' <-- gen_expr v ;;
    vs <-- gmap tv_of vars ;; e' <-- gen_expr e ;; gret (ELet n (abs_pi vs v') e')
  | SMatch folded d cases =>                                       (* 412-439 *)
    d' <-- gen_expr d ;;
    brs <-- (fix go (l : list (sym * list sym * sexpr)) : gen (list (name * list name * expr)) :=
               match l with
               | [] => gret []
               | ((c, xs), b) :: r =>
                 ns <-- gmap gen_name xs ;; b' <-- gen_expr b ;;
                 k <-- gget (fun s => lookup c (g_ctors s)) ;;
                 brs <-- go r ;;
                 gret ((if folded then k_folded k else k_regular k, ns, b') :: brs)
               end) cases ;;
    gret (EMatch d' brs)
  | SIf c t e => c' <-- gen_expr c ;; t' <-- gen_expr t ;; e' <-- gen_expr e ;; gret (EIf c' t' e')  (* 440-445 *)
  | SBoolean b => gret (EBool b)                                   (* 446-453 *)
  | SNumber n => if (n <? W64)%N then gret (EInt n) else gfail     (* 454-457 *)
  | SStr s => gret (EString s)                                     (* 458-463 *)
  | SFold t x body =>                                              (* 464-538 *)
    t' <-- gen_ty t ;;
    match t' with
    | TFn [pt] out =>
      real <-- gen_name x ;; temp <-- fresh_name ;; fold <-- fresh_name ;;
      body' <-- gen_expr body ;;
      match pt with
      | TNamed n args =>
        cs <-- gget (fun s => lookup n (g_tyctors s)) ;;
        brs <-- gmap (gen_fold_branch fold (args ++ [out])) cs ;;
        gret (fold_core fold t' temp pt real (EMatch (EName temp) brs) body')
      | _ => gret (fold_core fold t' temp pt real (EName temp) body')
      end
    | _ => gfail
    end
  | SLam x vars t body =>                                          (* 539-549 *)
    n <-- gen_name x ;; body' <-- gen_expr body ;; t' <-- inst_ty vars t ;; gret (ELam [(n, t')] body')
  | SParen e => gen_expr e                                         (* 550 *)
  | SHole text t =>                                                (* 551-555 *)
    t' <-- gen_ty t ;;
    gret (ETrap (map (fun c => N.of_nat (Ascii.nat_of_ascii c)) (String.list_ascii_of_string "encountered ") ++ text) t')
  end.

(** gen_core.rs:299-334 [gen_value_item].  [emit] says whether exports of this module are emitted. *)
Definition gen_value_item (emit : bool) (x : sym) (vars : list sym) (t : sty) (export : option bytes)
           (body : builtin + sexpr) : gen unit :=
  n <-- gen_name x ;;
  t' <-- inst_ty vars t ;;
  _ <-- fresh_inst vars ;;
  v <-- match body with
        | inl BIterate => iterate_intrinsic
        | inl (BStr i) => string_intrinsic i
        | inr e => v <-- gen_expr e ;; vs <-- gmap tv_of vars ;; gret (abs_pi vs v)
        end ;;
  gmod (fun s => up_defs s (g_defs s ++ [mkValDef n (if emit then export else None) t' v])).

(** The type of a field inside its own definition: gen_core.rs:134-142, 179-188, 217-226. *)
Definition field_ty (self : ty) (f : field) : gen ty :=
  match f with None => gret self | Some t => gen_ty t end.

(** gen_core.rs:150-275, one constructor: its function, with the type of the recursive fields given by the
    variables of each instance.  [dt] is the type being generated, [cn] the constructor. *)
Definition gen_ctor (functor : bool) (dt : name) (params : list sym) (cn : name) (x : sym) (fs : list field) : gen unit :=
  fn <-- (if functor then fresh_name else gen_name x) ;;
  fi <-- (if functor then t <-- fresh_tv ;; gret (Some t) else gret None) ;;
  _ <-- fresh_inst params ;;
  ps <-- gmap (fun _ => fresh_name) fs ;;
  vs <-- gmap tv_of params ;;
  ts <-- gmap (field_ty match fi with Some v => TVar v | None => TNamed dt (map TVar vs) end) fs ;;
  let opt := match fi with Some v => [v] | None => [] end in
  let construct := EConstruct cn (map TVar (vs ++ opt)) (map EName ps) in
  let value := abs_pi (vs ++ opt) (fold_right (fun p e => ELam [p] e) construct (combine ps ts)) in
  fi2 <-- (if functor then t <-- fresh_tv ;; gret (Some t) else gret None) ;;
  _ <-- fresh_inst params ;;
  vs2 <-- gmap tv_of params ;;
  ts2 <-- gmap (field_ty match fi2 with Some v => TVar v | None => TNamed dt (map TVar vs2) end) fs ;;
  let opt2 := match fi2 with Some v => [v] | None => [] end in
  let t := abs_ty (vs2 ++ opt2) (fold_right (fun a b => TFn [a] b) (TNamed dt (map TVar (vs2 ++ opt2))) ts2) in
  _ <-- gmod (fun s => if functor then s else up_defs s (g_defs s ++ [mkValDef fn None t value])) ;;
  gmod (fun s => up_ctors s ((x, match lookup x (g_ctors s) with
                                 | Some c => if functor then set_folded c cn else set_regular c cn
                                 | None => mkCtor x cn cn
                                 end) :: g_ctors s)).

(** gen_core.rs:99-297 [gen_type_item]. *)
Definition gen_type_item (functor : bool) (x : sym) (params : list sym) (cases : list (sym * list field)) : gen unit :=
  dt <-- (if functor
          then n <-- fresh_name ;; _ <-- gmod (fun s => up_folded s ((x, n) :: g_folded s)) ;; gret n
          else gen_name x) ;;
  vars <-- gmap (fun v => t <-- fresh_tv ;; _ <-- gmod (fun s => up_tvs s ((v, t) :: g_tvs s)) ;; gret t) params ;;
  fv <-- (if functor then t <-- fresh_tv ;; gret [t] else gret []) ;;
  let vars := vars ++ fv in
  cs <-- gmap (fun c : sym * list field =>
                 n <-- fresh_name ;;
                 ts <-- gmap (field_ty match fv with v :: _ => TVar v | [] => TNamed dt (map TVar vars) end) (snd c) ;;
                 gret (n, ts)) cases ;;
  _ <-- gmap (fun cc => gen_ctor functor dt params (fst (snd cc)) (fst (fst cc)) (snd (fst cc))) (combine cases cs) ;;
  tcs <-- gmap (fun c : sym * list field => gget (fun s => lookup (fst c) (g_ctors s))) cases ;;
  _ <-- gmod (fun s => match lookup x (if functor then g_names s else g_folded s) with
                       | Some other => up_tyctors s ((other, tcs) :: g_tyctors s)
                       | None => s
                       end) ;;
  _ <-- gmod (fun s => up_tyctors s ((dt, tcs) :: g_tyctors s)) ;;
  gmod (fun s => up_types s (g_types s ++ [mkTyDef dt vars cs])).

(** gen_core.rs:31-70 [emit_module]. *)
Fixpoint emit_item (emit : bool) (i : item) {struct i} : gen unit :=
  match i with
  | ITy x params cases =>
    _ <-- gmod (fun s => up_fields s (rev cases ++ g_fields s)) ;;
    _ <-- gen_type_item false x params cases ;; gen_type_item true x params cases
  | IVal x vars t export body => gen_value_item emit x vars t export body
  | IImport mods =>
    (fix go (l : list (nat * list item)) : gen unit :=
       match l with
       | [] => gret tt
       | (k, is) :: r =>
         seen <-- gget (fun s => Some (existsb (Nat.eqb k) (g_emitted s))) ;;
         if seen : bool then go r else
         _ <-- gmod (fun s => up_emitted s (k :: g_emitted s)) ;;
         _ <-- (fix gos (l : list item) : gen unit :=
                  match l with [] => gret tt | j :: r => _ <-- emit_item false j ;; gos r end) is ;;
         go r
       end) mods
  end.
Definition emit_items (emit : bool) : list item -> gen unit :=
  fix gos (l : list item) : gen unit :=
    match l with [] => gret tt | j :: r => _ <-- emit_item emit j ;; gos r end.

(** gen_core.rs:9-29 [generate_core]. *)
Definition generate_core (items : list item) : option program :=
  match emit_items true items g0 with
  | Some (_, s) => Some (mkProgram (g_types s) (g_defs s))
  | None => None
  end.
