(** The bytecode compiler.  Models ticc-eval/src/compile.rs. *)
From Verif Require Export Ir.

(** compile.rs:48-49 [Label(u32)]. *)
Definition label := nat.

(** compile.rs:5-46 [Op].  The eleven arithmetic/comparison opcodes are [IBin o], the six string
    opcodes are [IStr i] (one opcode per [ir::Op] / [ir::Intrinsic], compile.rs:179-191, 197-204).
    [EnterFunction::stack_usage] is dropped: only the jit reads it. *)
Inductive instr : Type :=
| IPushInt (i : N)
| IPushBool (b : bool)
| IPushString (s : bytes)
| IPick (d : nat)
| ISet (d : nat)
| IPopN (n : nat)
| ISwapPop
| IBin (o : op)
| IJump (l : label)
| IJumpIfFalse (l : label)
| IReturn (params captures : nat)
| ICall
| IEnter (upvalues : nat)
| IConstruct (c : name) (fields : nat)
| IClosure (l : label) (fields : nat)
| IBranch (brs : list (name * label * nat))
| ITrap (m : bytes)
| IStr (i : intrinsic)
| ILabel (l : label)
| IExit.

(** compile.rs:107-118 [FunctionCompiler], the part that changes, plus compile.rs:94-97
    [Compiler::next_label].  [local_depths] is an association list, newest first. *)
Record cst := mkCst { c_sz : nat; c_locals : list (name * nat); c_next : label }.

(** compile.rs:107-118, the part fixed per function. *)
Record fctx := mkFctx { f_entry_sz : nat; f_tail : label; f_params : list name;
                        f_rec : option name }.

(** A compiler action: from a state to a new state, the opcodes pushed on [self.ops] and the functions
    pushed on [compiler.functions]; [None] is a panic. *)
Definition cmd := cst -> option (cst * list instr * list (list instr)).

Definition skip : cmd := fun st => Some (st, [], []).
Definition seq (a b : cmd) : cmd := fun st =>
  match a st with
  | None => None
  | Some (st1, c1, f1) =>
    match b st1 with
    | None => None
    | Some (st2, c2, f2) => Some (st2, c1 ++ c2, f1 ++ f2)
    end
  end.
Definition seqs (l : list cmd) : cmd := fold_right seq skip l.
Declare Scope cmd_scope.
Notation "a ;; b" := (seq a b) (at level 62, right associativity) : cmd_scope.
Delimit Scope cmd_scope with cmd.

(** compile.rs:363-370 [change_stack_size(up - down)]; underflow panics.  The maximum is not tracked. *)
Definition chg (down up : nat) : cmd := fun st =>
  if down <=? c_sz st + up then
    Some (mkCst (c_sz st + up - down) (c_locals st) (c_next st), [], [])
  else None.

(** compile.rs:121-124 [op]. *)
Definition emit (i : instr) (down up : nat) : cmd :=
  ((fun st => Some (st, [i], [])) ;; chg down up)%cmd.

(** compile.rs:99-104, 320-322 [fresh_label]. *)
Definition fresh (k : label -> cmd) : cmd := fun st =>
  k (c_next st) (mkCst (c_sz st) (c_locals st) (S (c_next st))).
Definition fresh_n (n : nat) (k : list label -> cmd) : cmd := fun st =>
  k (List.seq (c_next st) n) (mkCst (c_sz st) (c_locals st) (c_next st + n)).

(** compile.rs:324-327 [define_local]. *)
Definition define_local (x : name) : cmd := fun st =>
  if 1 <=? c_sz st then
    Some (mkCst (c_sz st) ((x, c_sz st - 1) :: c_locals st) (c_next st), [], [])
  else None.

(** compile.rs:307-311 [pick_var]; a missing name is a HashMap index panic. *)
Definition pick_var (x : name) : cmd := fun st =>
  match lookup x (c_locals st) with
  | None => None
  | Some at_ =>
    if at_ + 1 <=? c_sz st then emit (IPick (c_sz st - at_ - 1)) 0 1 st else None
  end.

(** compile.rs:313-318 [set_var]. *)
Definition set_var (x : name) : cmd := fun st =>
  match lookup x (c_locals st) with
  | None => None
  | Some at_ =>
    if at_ + 2 <=? c_sz st then emit (ISet (c_sz st - at_ - 1 - 1)) 1 0 st else None
  end.

(** compile.rs:373-430 [free_variables::go]: names used, in order of traversal ... *)
Fixpoint used_names (e : expr) : list name :=
  match e with
  | EBool _ | EInt _ | EString _ | ETrap _ _ => []
  | EName n => [n]
  | ECall f args => used_names f ++ flat_map used_names args
  | EIf c t e => used_names c ++ used_names t ++ used_names e
  | EOp a _ b => used_names a ++ used_names b
  | EIntr _ args => flat_map used_names args
  | ELam _ b => used_names b
  | EMatch d brs => used_names d ++ flat_map (fun br => used_names (snd br)) brs
  | EConstruct _ _ fs => flat_map used_names fs
  | ELet _ v e => used_names v ++ used_names e
  | ELetRec _ _ v e => used_names v ++ used_names e
  | EPi _ e => used_names e
  | EPiApp e _ => used_names e
  end.

(** ... and names defined anywhere inside. *)
Fixpoint binders (e : expr) : list name :=
  match e with
  | EBool _ | EInt _ | EString _ | ETrap _ _ | EName _ => []
  | ECall f args => binders f ++ flat_map binders args
  | EIf c t e => binders c ++ binders t ++ binders e
  | EOp a _ b => binders a ++ binders b
  | EIntr _ args => flat_map binders args
  | ELam ps b => map fst ps ++ binders b
  | EMatch d brs => binders d ++ flat_map (fun br => snd (fst br) ++ binders (snd br)) brs
  | EConstruct _ _ fs => flat_map binders fs
  | ELet n v e => n :: binders v ++ binders e
  | ELetRec n _ v e => n :: binders v ++ binders e
  | EPi _ e => binders e
  | EPiApp e _ => binders e
  end.

(** [HashSet::contains] *)
Definition mem (x : name) (l : list name) : bool := existsb (Nat.eqb x) l.

(** compile.rs:434 [used.retain(|item| defined.insert(item))]. *)
Fixpoint retain_new (defined l : list name) : list name :=
  match l with
  | [] => []
  | x :: r => if mem x defined then retain_new defined r else x :: retain_new (x :: defined) r
  end.

(** compile.rs:373-436 [free_variables]. *)
Definition free_variables (e : expr) : list name := retain_new (binders e) (used_names e).

(** One stack slot per name: compile.rs:242-245, 331-334, 342-345. *)
Definition define_slots (xs : list name) : cmd :=
  seqs (map (fun x => chg 0 1 ;; define_local x)%cmd xs).

(** compile.rs:329-361 [compile_function], run on a new [FunctionCompiler] (compile.rs:209-221,
    276-288); [entry] and [tail] are the two labels, [body] compiles the function's expression given the
    context.  The opcodes become one more function, after the functions nested in it. *)
Definition compile_function (entry tail : label) (ps : list name) (rec : option name)
           (captures : list name) (body : fctx -> cmd) : cmd := fun st =>
  let inner : cmd :=
    (emit (ILabel entry) 0 0 ;;
     define_slots ps ;;
     chg 0 1 ;;
     match rec with Some n => define_local n | None => skip end ;;
     chg 0 1 ;;
     define_slots captures ;;
     (fun st1 =>
        (emit (IEnter (length captures)) 0 0 ;;
         emit (ILabel tail) 0 0 ;;
         body (mkFctx (c_sz st1) tail ps rec) ;;
         emit (IReturn (length ps) (length captures)) (length ps + length captures + 2) 0 ;;
         (fun st2 => if c_sz st2 =? 1 then Some (st2, [], []) else None)) st1))%cmd in
  match inner (mkCst 0 [] (c_next st)) with
  | None => None
  | Some (st', code, fns) =>
    Some (mkCst (c_sz st) (c_locals st) (c_next st'), [], fns ++ [code])
  end.

(** compile.rs:197-204: stack effect of the string opcodes. *)
Definition intr_arity (i : intrinsic) : nat :=
  match i with
  | StringLen | StringFromChar | IntToString => 1
  | StringConcat | StringCharAt => 2
  | StringSubstring => 3
  end.

(** compile.rs:141-154: the self tail call, after the arguments. *)
Definition tail_call (ctx : fctx) : cmd :=
  (seqs (map set_var (rev (f_params ctx))) ;;
   (fun st =>
      if f_entry_sz ctx <=? c_sz st then
        (let to_pop := c_sz st - f_entry_sz ctx in
         if 0 <? to_pop then emit (IPopN to_pop) 0 0 else skip) st
      else None) ;;
   emit (IJump (f_tail ctx)) 0 1)%cmd.

(** compile.rs:139-141: is this a call of the function being compiled, in tail position? *)
Definition is_self_tail (ctx : fctx) (tail : bool) (f : expr) : bool :=
  match f with
  | EName n => tail && match f_rec ctx with Some m => Nat.eqb m n | None => false end
  | _ => false
  end.

(** compile.rs:126-305 [compile_expr]. *)
Fixpoint compile_expr (e : expr) (ctx : fctx) (tail : bool) {struct e} : cmd :=
  (match e with
  | EBool b => emit (IPushBool b) 0 1                                     (* 128 *)
  | EInt i => emit (IPushInt i) 0 1                                       (* 129 *)
  | EString s => emit (IPushString s) 0 1                                 (* 130 *)
  | EName n => pick_var n                                                 (* 131-133 *)
  | ECall f args =>                                                       (* 134-163 *)
    seqs (map (fun a => compile_expr a ctx false) args) ;;
    if is_self_tail ctx tail f then tail_call ctx
    else (compile_expr f ctx false ;; emit ICall (length args) 0)
  | EIf c t el =>                                                         (* 164-175 *)
    compile_expr c ctx false ;;
    fresh (fun else_l => fresh (fun end_l =>
      emit (IJumpIfFalse else_l) 1 0 ;;
      compile_expr t ctx tail ;;
      emit (IJump end_l) 0 0 ;;
      emit (ILabel else_l) 0 0 ;;
      chg 1 0 ;;
      compile_expr el ctx tail ;;
      emit (ILabel end_l) 0 0))
  | EOp a o b =>                                                          (* 176-192 *)
    compile_expr a ctx false ;; compile_expr b ctx false ;; emit (IBin o) 1 0
  | EIntr i args =>                                                       (* 193-205 *)
    seqs (map (fun a => compile_expr a ctx false) args) ;;
    emit (IStr i) (intr_arity i - 1) 0
  | ELam ps body =>                                                       (* 206-226 *)
    let captures := free_variables (ELam ps body) in
    fresh (fun entry => fresh (fun tl =>
      compile_function entry tl (map fst ps) None captures (fun c => compile_expr body c true) ;;
      seqs (map pick_var captures) ;;
      emit (IClosure entry (length captures)) (length captures) 1))
  | EMatch d brs =>                                                       (* 227-255 *)
    compile_expr d ctx false ;;
    fresh (fun end_l => fresh_n (length brs) (fun labels =>
      emit (IBranch (map (fun '(((c, bs), _), l) => ((c, l), length bs)) (combine brs labels))) 1 0 ;;
      (fix go (l : list (name * list name * expr)) (ls : list label) : cmd :=
         match l, ls with
         | ((c, bs), v) :: r, lb :: ls' =>
           emit (ILabel lb) 0 0 ;;
           define_slots bs ;;
           compile_expr v ctx tail ;;
           seqs (map (fun _ => emit ISwapPop 1 0) bs) ;;
           emit (IJump end_l) 0 0 ;;
           chg 1 0 ;;
           go r ls'
         | _, _ => skip
         end) brs labels ;;
      emit (ILabel end_l) 0 0 ;;
      chg 0 1))
  | EConstruct c _ fields =>                                              (* 256-261 *)
    seqs (map (fun a => compile_expr a ctx false) fields) ;;
    emit (IConstruct c (length fields)) (length fields) 1
  | ELet n v e =>                                                         (* 262-267 *)
    compile_expr v ctx false ;;
    define_local n ;;
    compile_expr e ctx tail ;;
    emit ISwapPop 1 0
  | ELetRec n t v e' =>                                                   (* 268-298 *)
    match strip_pis v with
    | ELam ps body =>
      let captures := filter (fun c : name => negb (Nat.eqb c n)) (free_variables (ELetRec n t v e')) in
      fresh (fun entry => fresh (fun tl =>
        compile_function entry tl (map fst ps) (Some n) captures (fun c => compile_expr body c true) ;;
        seqs (map pick_var captures) ;;
        emit (IClosure entry (length captures)) (length captures) 1 ;;
        define_local n ;;
        compile_expr e' ctx tail ;;
        emit ISwapPop 1 0))
    | _ => fun _ => None   (* panic!("let rec value is not lambda") *)
    end
  | EPi _ e => compile_expr e ctx tail                                    (* 299 *)
  | EPiApp e _ => compile_expr e ctx tail                                 (* 300 *)
  | ETrap m _ => emit (ITrap m) 0 1                                       (* 301-303 *)
  end)%cmd.

(** compile.rs:63-74: context of the main function (no parameters, not recursive). *)
Definition main_ctx : fctx := mkFctx 0 0 [] None.

(** compile.rs:57-92 [compile]. *)
Definition compile_main (p : program) (exprs : list expr) : cmd :=
  (emit (IEnter 0) 0 0 ;;
   seqs (map (fun d => compile_expr (vd_value d) main_ctx false ;; define_local (vd_name d))
             (p_defs p)) ;;
   seqs (map (fun e => compile_expr e main_ctx false) exprs) ;;
   emit IExit 0 0 ;;
   (fun st => if c_sz st =? length (p_defs p) + length exprs then Some (st, [], []) else None))%cmd.

Definition compile (p : program) (exprs : list expr) : option (list instr) :=
  match compile_main p exprs (mkCst 0 [] 0) with
  | None => None
  | Some (_, code, fns) => Some (code ++ concat fns)
  end.
