(** The closure-generating ("lambda") runner.  Models ticc-eval/src/lambda.rs.

    [compile_expr] of lambda.rs turns an expression into a Rust closure over the run-time environment.
    The closures are defunctionalised: [lcode] has one constructor per kind of closure built there, its
    arguments are what the closure captured, and [lrun] is the closures' behaviour.

    HashSet iteration order (lambda.rs:351, 474) is unspecified: the model takes it as a parameter [ord],
    and the theorems quantify over it. *)
From Verif Require Export EvalFacts Compile Vm.
Set Implicit Arguments.

(** lambda.rs:8-20 [Value], [Function].  [LVFn caps rec body]: the closures built at 367-386 ([rec] =
    false) and 493-516 ([rec] = true), with the captured values and the shared body.  The [Weak]
    self-reference (495, 505) always upgrades: the caller holds the function. *)
Inductive lval : Type :=
| LVInt (i : N)
| LVBool (b : bool)
| LVStr (s : bytes)
| LVComp (c : name) (fs : list lval)
| LVFn (caps : list lval) (rec : bool) (body : lcode)
(** lambda.rs:143-539: the closures returned by [compile_expr]. *)
with lcode : Type :=
| LcVal (v : lval)                                       (* 145-156, 159: a constant or known value *)
| LcLook (i : nat)                                       (* 160 *)
| LcCall (f : lcode) (args : list lcode)                 (* 163-208 *)
| LcIf (c t e : lcode)                                   (* 209-220 *)
| LcOp (a : lcode) (o : op) (b : lcode)                  (* 221-280 *)
| LcIntr (i : intrinsic) (args : list lcode)             (* 281-342 *)
| LcLam (caps : list nat) (body : lcode)                 (* 343-388 *)
| LcMatch (d : lcode) (brs : list (name * lcode))        (* 389-421 *)
| LcConstruct (c : name) (fs : list lcode)               (* 422-470 *)
| LcLet (v e : lcode)                                    (* 471-483 *)
| LcLetRec (caps : list nat) (body rest : lcode)         (* 484-539 *)
| LcTrap (msg : bytes).                                  (* 544-547 *)

(** ** The resolver: lambda.rs:75-117 *)

(** lambda.rs:75-79 [EnvResolver].  [names] is a map (no key twice), [stack] has its top first. *)
Record resolver := mkRes { r_names : list (name * nat); r_stack : list name; r_known : list (name * lval) }.

Definition map_remove {A} (n : name) (l : list (name * A)) : list (name * A) :=
  filter (fun kv => negb (Nat.eqb (fst kv) n)) l.
(** lambda.rs:93-99 [from_other]. *)
Definition r_other (r : resolver) : resolver := mkRes [] [] (r_known r).
(** lambda.rs:101-107 [lookup]; [self.names[&name]] panics on an unknown name. *)
Definition r_lookup (r : resolver) (n : name) : option (lval + nat) :=
  match lookup n (r_known r) with
  | Some v => Some (inl v)
  | None => match lookup n (r_names r) with Some i => Some (inr i) | None => None end
  end.
(** lambda.rs:109-112 [add]. *)
Definition r_add (n : name) (r : resolver) : resolver :=
  mkRes ((n, length (r_stack r)) :: map_remove n (r_names r)) (n :: r_stack r) (r_known r).
(** lambda.rs:114-117 [remove]: asserts the top of the stack is [n]. *)
Definition r_remove (n : name) (r : resolver) : option resolver :=
  match r_stack r with
  | m :: s => if Nat.eqb m n then Some (mkRes (map_remove n (r_names r)) s (r_known r)) else None
  | [] => None
  end.
Definition r_add_all (ns : list name) (r : resolver) : resolver := fold_left (fun r n => r_add n r) ns r.
Fixpoint r_remove_all (ns : list name) (r : resolver) : option resolver :=
  match ns with
  | [] => Some r
  | n :: ns' => match r_remove n r with Some r' => r_remove_all ns' r' | None => None end
  end.

(** ** lambda.rs:590-646 [free_names]: one mutable set, bound names removed on the way out *)
Definition set_insert (n : name) (s : list name) : list name := if mem n s then s else n :: s.
Definition set_remove (n : name) (s : list name) : list name := filter (fun x : name => negb (Nat.eqb x n)) s.
Definition set_remove_all (ns : list name) (s : list name) : list name :=
  fold_left (fun s n => set_remove n s) ns s.

Fixpoint free_names (e : expr) (res : list name) : list name :=
  match e with
  | EBool _ | EInt _ | EString _ | ETrap _ _ => res
  | EName n => set_insert n res
  | ECall f args => fold_left (fun r a => free_names a r) args (free_names f res)
  | EIf c t e => free_names e (free_names t (free_names c res))
  | EOp a _ b => free_names b (free_names a res)
  | EIntr _ args | EConstruct _ _ args => fold_left (fun r a => free_names a r) args res
  | ELam ps b => set_remove_all (map fst ps) (free_names b res)
  | EMatch d brs =>
    fold_left (fun r br => set_remove_all (snd (fst br)) (free_names (snd br) r)) brs (free_names d res)
  | ELet n v e | ELetRec n _ v e => set_remove n (free_names e (free_names v res))
  | EPi _ e | EPiApp e _ => free_names e res
  end.

(** ** lambda.rs:143-549 [compile_expr].  [None] is a panic. *)
Definition mapS {A B S} (f : A -> S -> option (B * S)) : list A -> S -> option (list B * S) :=
  fix go (l : list A) (s : S) : option (list B * S) :=
    match l with
    | [] => Some ([], s)
    | a :: r => match f a s with
                | Some (b, s1) => match go r s1 with Some (bs, s2) => Some (b :: bs, s2) | None => None end
                | None => None
                end
    end.
(** [args[0]], ..., [args[k-1]]: the first [k], panicking if there are fewer. *)
Definition takeS {A B S} (f : A -> S -> option (B * S)) : list A -> nat -> S -> option (list B * S) :=
  fix go (l : list A) (k : nat) (s : S) {struct l} : option (list B * S) :=
    match l with
    | [] => if k =? 0 then Some ([], s) else None
    | a :: r =>
      match k with
      | 0 => Some ([], s)
      | Datatypes.S k' =>
        match f a s with
        | Some (b, s1) => match go r k' s1 with Some (bs, s2) => Some (b :: bs, s2) | None => None end
        | None => None
        end
      end
    end.
(** lambda.rs:351-358, 474-481: the names to capture, with their places, and the inner resolver. *)
Fixpoint capture (r : resolver) (ns : list name) (inner : resolver) : option (list nat * resolver) :=
  match ns with
  | [] => Some ([], inner)
  | c :: ns' =>
    match r_lookup r c with
    | Some (inl _) => capture r ns' inner
    | Some (inr i) => match capture r ns' (r_add c inner) with
                      | Some (cs, inner') => Some (i :: cs, inner')
                      | None => None
                      end
    | None => None
    end
  end.

Notation "'do' x <- a ; b" := (match a with Some x => b | None => None end)
  (at level 200, x pattern, a at level 100, b at level 200).

Section LCompile.
  (** Iteration order of the set of captured names (may depend on the function it is built for). *)
  Variable ord : expr -> list name -> list name.

  Fixpoint lcompile (e : expr) (r : resolver) {struct e} : option (lcode * resolver) :=
    match e with
    | EBool b => Some (LcVal (LVBool b), r)
    | EInt i => Some (LcVal (LVInt i), r)
    | EString s => Some (LcVal (LVStr s), r)
    | EName n =>
      match r_lookup r n with
      | Some (inl v) => Some (LcVal v, r)
      | Some (inr i) => Some (LcLook i, r)
      | None => None
      end
    | ECall f args =>
      do (cf, r1) <- lcompile f r; do (cargs, r2) <- mapS lcompile args r1; Some (LcCall cf cargs, r2)
    | EIf c t e =>
      do (cc, r1) <- lcompile c r; do (ct, r2) <- lcompile t r1; do (ce, r3) <- lcompile e r2;
      Some (LcIf cc ct ce, r3)
    | EOp a o b =>
      do (ca, r1) <- lcompile a r; do (cb, r2) <- lcompile b r1; Some (LcOp ca o cb, r2)
    | EIntr i args =>
      do (cargs, r1) <- takeS lcompile args (intr_arity i) r; Some (LcIntr i cargs, r1)
    | ELam ps body =>
      let captured := ord (ELam ps body) (free_names (ELam ps body) []) in
      do (caps, inner) <- capture r captured (r_other r);
      do (cb, inner1) <- lcompile body (r_add_all (map fst ps) inner);
      do inner2 <- r_remove_all (rev (map fst ps)) inner1;
      if length (r_names inner2) =? length caps then Some (LcLam caps cb, r) else None
    | EMatch d brs =>
      do (cd, r1) <- lcompile d r;
      do (cbrs, r2) <-
        mapS (fun (br : name * list name * expr) s =>
                do (cb, s1) <- lcompile (snd br) (r_add_all (snd (fst br)) s);
                do s2 <- r_remove_all (rev (snd (fst br))) s1;
                Some ((fst (fst br), cb), s2)) brs r1;
      Some (LcMatch cd cbrs, r2)
    | EConstruct c _ fs => do (cfs, r1) <- mapS lcompile fs r; Some (LcConstruct c cfs, r1)
    | ELet n v e =>
      do (cv, r1) <- lcompile v r;
      do (ce, r2) <- lcompile e (r_add n r1);
      do r3 <- r_remove n r2;
      Some (LcLet cv ce, r3)
    | ELetRec n _ v e =>
      (* [strip_pis] (556-562) and the test for a function, in one recursion *)
      do (rec_caps, rec_body) <-
        (fix strip (v : expr) : option (list nat * lcode) :=
           match v with
           | EPi _ v' => strip v'
           | ELam ps body =>
             let captured := ord (ELam ps body) (set_remove n (free_names (ELam ps body) [])) in
             do (caps, inner) <- capture r captured (r_other r);
             do (cb, inner1) <- lcompile body (r_add n (r_add_all (map fst ps) inner));
             do inner2 <- r_remove n inner1;
             do inner3 <- r_remove_all (rev (map fst ps)) inner2;
             if length (r_names inner3) =? length caps then Some (caps, cb) else None
           | _ => None
           end) v;
      do (ce, r1) <- lcompile e (r_add n r);
      do r2 <- r_remove n r1;
      Some (LcLetRec rec_caps rec_body ce, r2)
    | EPi _ e => lcompile e r
    | EPiApp e _ => lcompile e r
    | ETrap m _ => Some (LcTrap m, r)
    end.
End LCompile.

(** ** Run time: lambda.rs:38-67 [CompactEnv] *)
Record cenv := mkCenv { ce_names : list lval; ce_frame : nat }.   (* [names] bottom first *)
Definition ce_add (v : lval) (c : cenv) : cenv := mkCenv (ce_names c ++ [v]) (ce_frame c).
Definition ce_remove (c : cenv) : cenv := mkCenv (removelast (ce_names c)) (ce_frame c).
Definition ce_add_all (vs : list lval) (c : cenv) : cenv := fold_left (fun c v => ce_add v c) vs c.
Fixpoint ce_remove_n (k : nat) (c : cenv) : cenv :=
  match k with 0 => c | S k' => ce_remove_n k' (ce_remove c) end.
Definition ce_lookup (i : nat) (c : cenv) : option lval := nth_error (ce_names c) (ce_frame c + i).

(** Computations over the mutable environment.  A panic ends everything, a trap does not undo or skip the
    caller's clean-up unless the caller uses [?]. *)
Definition LM (A : Type) := cenv -> res A * cenv.
Definition lret {A} (a : A) : LM A := fun c => (Ok a, c).
Definition lfail {A} (r : res A) : LM A := fun c => (r, c).
(** [let x = m(env)?; k] *)
Definition lbind {A B} (m : LM A) (k : A -> LM B) : LM B := fun c =>
  let (r, c') := m c in
  match r with
  | Ok a => k a c'
  | Trap msg => (Trap msg, c')
  | Panic => (Panic, c')
  | OutOfFuel => (OutOfFuel, c')
  end.
Notation "'let!' x := m 'in' k" := (lbind m (fun x => k)) (at level 200, x pattern, m at level 100, k at level 200).
Definition lmapM {A B} (f : A -> LM B) : list A -> LM (list B) :=
  fix go (l : list A) : LM (list B) :=
    match l with
    | [] => lret []
    | a :: r => let! v := f a in let! vs := go r in lret (v :: vs)
    end.

Definition l_int (v : lval) : LM N := match v with LVInt i => lret i | _ => lfail Panic end.
Definition l_bool (v : lval) : LM bool := match v with LVBool b => lret b | _ => lfail Panic end.
Definition l_str (v : lval) : LM bytes := match v with LVStr s => lret s | _ => lfail Panic end.

(** lambda.rs:224-279: the same arithmetic as in treewalk.rs, see [eval_op]. *)
Definition lam_op (o : op) (a b : N) : lval :=
  match o with
  | Add => LVInt (wrap (a + b))
  | Subtract => LVInt (wrap (a + (W64 - b)))
  | Multiply => LVInt (wrap (a * b))
  | Divide => LVInt (if N.eqb b 0 then 0 else a / b)
  | Modulo => LVInt (if N.eqb b 0 then a else N.modulo a b)
  | Less => LVBool (N.ltb a b)
  | LessEq => LVBool (N.leb a b)
  | Greater => LVBool (N.ltb b a)
  | GreaterEq => LVBool (N.leb b a)
  | Equal => LVBool (N.eqb a b)
  | NotEqual => LVBool (negb (N.eqb a b))
  end%N.
(** tagged.rs:24-38 as in [mk_tagged]; [from_array] is only used up to four fields. *)
Definition l_tagged (c : name) (vs : list lval) : LM lval :=
  if length vs <=? max_fields then lret (LVComp c vs) else lfail Panic.

(** [captures.iter().map(|n| env.lookup( *n))] (368-372, 487-491). *)
Definition l_captures (is : list nat) : LM (list lval) :=
  lmapM (fun i c => match ce_lookup i c with Some v => (Ok v, c) | None => (Panic, c) end) is.

(** A computation followed by clean-up that happens whatever its result: [let res = m(env); ...; res]. *)
Definition l_then {A} (m : LM A) (f : cenv -> cenv) : LM A := fun c => let (r, c') := m c in (r, f c').

Section LRun.
  Fixpoint lrun (fuel : nat) : lcode -> LM lval :=
    (* lambda.rs:374-385 and 497-515: calling a function.  No arity check. *)
    let call : lval -> list lval -> LM lval := fun f args =>
      match f with
      | LVFn caps rec body =>
        match fuel with
        | O => lfail OutOfFuel
        | S k => fun c =>
          let prev := ce_frame c in
          let c0 := mkCenv (ce_names c) (length (ce_names c)) in            (* open_frame *)
          let c1 := ce_add_all args (ce_add_all caps c0) in
          let c2 := if rec then ce_add f c1 else c1 in
          let (r, c3) := lrun k body c2 in
          let c4 := if rec then ce_remove c3 else c3 in
          let c5 := ce_remove_n (length caps) (ce_remove_n (length args) c4) in
          (r, mkCenv (ce_names c5) prev)                                      (* pop_frame *)
        end
      | _ => lfail Panic
      end in
    fix go (code : lcode) {struct code} : LM lval :=
      match code with
      | LcVal v => lret v
      | LcLook i => fun c => match ce_lookup i c with Some v => (Ok v, c) | None => (Panic, c) end
      | LcCall f args =>
        let! fv := go f in
        match fv with
        | LVFn _ _ _ => let! vs := lmapM go args in call fv vs               (* into_fn before the arguments *)
        | _ => lfail Panic
        end
      | LcIf c t e => let! cv := go c in let! b := l_bool cv in if b then go t else go e
      | LcOp a o b =>
        let! va := go a in let! x := l_int va in
        let! vb := go b in let! y := l_int vb in
        lret (lam_op o x y)
      | LcIntr i xs =>
        match i, xs with
        | StringLen, x :: _ =>
          let! v := go x in let! s := l_str v in lret (LVInt (str_len s))
        | StringConcat, x :: y :: _ =>
          let! v := go x in let! s1 := l_str v in
          let! w := go y in let! s2 := l_str w in lret (LVStr (s1 ++ s2))
        | StringCharAt, x :: y :: _ =>
          let! v := go x in let! idx := l_int v in
          let! w := go y in let! s := l_str w in lret (LVInt (str_char_at idx s))
        | StringSubstring, x :: y :: z :: _ =>
          let! v := go x in let! start := l_int v in
          let! w := go y in let! len := l_int w in
          let! u := go z in let! s := l_str u in lret (LVStr (str_substring start len s))
        | StringFromChar, x :: _ =>
          let! v := go x in let! c := l_int v in lret (LVStr (str_from_char c))
        | IntToString, x :: _ =>
          let! v := go x in let! n := l_int v in lret (LVStr (int_to_string n))
        | _, _ => lfail Panic
        end
      | LcLam caps body => let! vs := l_captures caps in lret (LVFn vs false body)
      | LcMatch d brs =>
        let! dv := go d in
        match dv with
        | LVComp tag fs =>
          (fix find (l : list (name * lcode)) : LM lval :=
             match l with
             | [] => lfail Panic
             | (c', b) :: r =>
               if Nat.eqb c' tag then
                 fun c => l_then (go b) (ce_remove_n (length fs)) (ce_add_all fs c)
               else find r
             end) brs
        | _ => lfail Panic
        end
      | LcConstruct c fs => let! vs := lmapM go fs in l_tagged c vs
      | LcLet v e =>
        let! vv := go v in
        fun c => l_then (go e) ce_remove (ce_add vv c)
      | LcLetRec caps body rest =>
        let! vs := l_captures caps in
        fun c => l_then (go rest) ce_remove (ce_add (LVFn vs true body) c)
      | LcTrap m => lfail (Trap m)
      end.
End LRun.

(** ** lambda.rs:119-141 [eval], [eval_expr] *)
Section LambdaRunner.
  Variable ord : expr -> list name -> list name.

  (** lambda.rs:133-141, with both assertions.  [Env.add] (28-30) inserts into a map: newest wins. *)
  Definition leval_expr (fuel : nat) (known : list (name * lval)) (e : expr) : res lval :=
    match lcompile ord e (mkRes [] [] known) with
    | None => Panic
    | Some (code, r) =>
      if length (r_stack r) =? 0 then
        let (res, c) := lrun fuel code (mkCenv [] 0) in
        if length (ce_names c) =? 0 then res else Panic
      else Panic
    end.
  Fixpoint leval_defs (fuel : nat) (known : list (name * lval)) (ds : list valdef) : res (list (name * lval)) :=
    match ds with
    | [] => Ok known
    | d :: r => v <- leval_expr fuel known (vd_value d) ;; leval_defs fuel ((vd_name d, v) :: known) r
    end.
  Definition lambda_run (fuel : nat) (p : program) (exprs : list expr) : res (list lval) :=
    known <- leval_defs fuel [] (p_defs p) ;; mapM (leval_expr fuel known) exprs.
End LambdaRunner.

(** What is observed of the values: everything but the inside of functions (as [obs_value] for the
    tree-walker). *)
Fixpoint obs_lval (v : lval) : obs :=
  match v with
  | LVInt i => OInt i | LVBool b => OBool b | LVStr s => OString s
  | LVComp c fs => OComp c (map obs_lval fs)
  | LVFn _ _ _ => OFn
  end.
