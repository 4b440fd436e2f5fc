(** The tree-walking runner.  Models ticc-eval/src/treewalk.rs, tagged.rs and the value type of
    ticc-eval/src/lib.rs. *)
From Verif Require Export Ir.

(** Outcome of running code: a value, a [Trap] (lib.rs:83-86, treewalk.rs:212-214), a Rust panic, or
    exhaustion of the model's call-depth fuel (no counterpart in the code: the run goes on). *)
Inductive res (A : Type) : Type :=
| Ok (a : A) | Trap (msg : bytes) | Panic | OutOfFuel.
Arguments Ok {A} _. Arguments Trap {A} _. Arguments Panic {A}. Arguments OutOfFuel {A}.

Definition bind {A B} (r : res A) (f : A -> res B) : res B :=
  match r with Ok a => f a | Trap m => Trap m | Panic => Panic | OutOfFuel => OutOfFuel end.
Notation "x <- r ;; k" := (bind r (fun x => k)) (at level 61, r at next level, right associativity).

(** [iter().map(f).collect::<Result<Vec<_>,_>>()]: left to right, stops at the first error. *)
Definition mapM {A B} (f : A -> res B) : list A -> res (list B) :=
  fix go (l : list A) : res (list B) :=
    match l with
    | [] => Ok []
    | a :: r => v <- f a ;; vs <- go r ;; Ok (v :: vs)
    end.

(** lib.rs:14-21 [Value<F>] with treewalk.rs:12-13 [Function].  The Rust closures of
    treewalk.rs:157-169 (Lambda) and 218-234 (make_rec_fn) are defunctionalised: [VFn env rec ps body]
    carries what the closure captured; [rec] is [Some n] for those made by make_rec_fn. *)
Inductive value : Type :=
| VInt (i : N)
| VBool (b : bool)
| VStr (s : bytes)
| VComp (c : name) (fs : list value)
| VFn (env : list (name * value)) (rec : option name) (ps : list name) (body : expr).

Definition env := list (name * value).

(** 64-bit words. *)
Definition W64 : N := (2 ^ 64)%N.
Definition wrap (n : N) : N := (n mod W64)%N.

(** treewalk.rs:143-155: the operators on u64 (wrapping_add/sub/mul, checked_div().unwrap_or(0),
    checked_rem().unwrap_or(a), unsigned comparisons). *)
Definition eval_op (o : op) (a b : N) : value :=
  match o with
  | Add => VInt (wrap (a + b))
  | Subtract => VInt (wrap (a + (W64 - b)))
  | Multiply => VInt (wrap (a * b))
  | Divide => VInt (if N.eqb b 0 then 0 else a / b)
  | Modulo => VInt (if N.eqb b 0 then a else N.modulo a b)
  | Less => VBool (N.ltb a b)
  | LessEq => VBool (N.leb a b)
  | Greater => VBool (N.ltb b a)
  | GreaterEq => VBool (N.leb b a)
  | Equal => VBool (N.eqb a b)
  | NotEqual => VBool (negb (N.eqb a b))
  end%N.

(** treewalk.rs:104-107. [s.len() as u64]. *)
Definition str_len (s : bytes) : N := N.of_nat (length s).
(** treewalk.rs:116-121. [s.get(idx).copied().unwrap_or(0)]. *)
Definition str_char_at (idx : N) (s : bytes) : N :=
  match nth_error s (N.to_nat idx) with Some c => c | None => 0%N end.
(** [s.get(n..).unwrap_or(b"")], treewalk.rs:126. *)
Definition get_from (n : N) (s : bytes) : bytes :=
  if (n <=? str_len s)%N then skipn (N.to_nat n) s else [].
(** [s.get(..n).unwrap_or(s)], treewalk.rs:127. *)
Definition get_to (n : N) (s : bytes) : bytes :=
  if (n <=? str_len s)%N then firstn (N.to_nat n) s else s.
(** treewalk.rs:122-129. *)
Definition str_substring (start len : N) (s : bytes) : bytes := get_to len (get_from start s).
(** treewalk.rs:130-133. [as u8] truncates. *)
Definition str_from_char (c : N) : bytes := [(c mod 256)%N].
(** treewalk.rs:134-137. [u64::to_string]: decimal digits, most significant first.  [fuel] bounds the
    number of digits; [S (N.size_nat n)] always suffices (proved in ArithProofs.v). *)
Fixpoint dec_digits (fuel : nat) (n : N) (acc : bytes) : bytes :=
  match fuel with
  | O => acc
  | S f =>
    let acc' := ((48 + n mod 10) :: acc)%N in
    if (n <? 10)%N then acc' else dec_digits f (n / 10)%N acc'
  end.
Definition int_to_string (n : N) : bytes := dec_digits (S (N.size_nat n)) n [].

(** lib.rs:44-81 [into_int] ... [into_composite]: panic on a value of another kind. *)
Definition into_int (v : value) : res N := match v with VInt i => Ok i | _ => Panic end.
Definition into_bool (v : value) : res bool := match v with VBool b => Ok b | _ => Panic end.
Definition into_string (v : value) : res bytes := match v with VStr s => Ok s | _ => Panic end.

(** treewalk.rs:163-165, 177-179, 226-228: [for (p, a) in zip { env = add(env, p, a) }]. *)
Fixpoint add_all (e : env) (ns : list name) (vs : list value) : env :=
  match ns, vs with
  | n :: ns', v :: vs' => add_all ((n, v) :: e) ns' vs'
  | _, _ => e
  end.

(** treewalk.rs:174-184: first branch with the constructor of the value. *)
Fixpoint find_branch (c : name) (brs : list (name * list name * expr)) : option (list name * expr) :=
  match brs with
  | [] => None
  | ((c', bs), e) :: r => if Nat.eqb c' c then Some (bs, e) else find_branch c r
  end.

(** tagged.rs:24-38 [Tagged::from_vec]: panics for more than nine fields. *)
Definition max_fields : nat := 9.
Definition mk_tagged (c : name) (vs : list value) : res value :=
  if length vs <=? max_fields then Ok (VComp c vs) else Panic.

(** Order in which callee and arguments are evaluated.  treewalk.rs:88-94 and lambda.rs evaluate the
    callee first ([FnFirst]); the bytecode compiler (compile.rs:133-163) emits the arguments first
    ([ArgsFirst]). *)
Inductive order := FnFirst | ArgsFirst.

(** The environment in which the body of a closure runs: treewalk.rs:161-166 for plain lambdas,
    treewalk.rs:225-230 for recursive ones (the function's own name is added last). *)
Definition call_env (cenv : env) (rec : option name) (ps : list name) (body : expr)
           (args : list value) : env :=
  let e := add_all cenv ps args in
  match rec with
  | None => e
  | Some n => (n, VFn cenv (Some n) ps body) :: e
  end.

(** treewalk.rs:82-216 [eval_impl].  [fuel] bounds the depth of nested calls of closures; everything
    else is structural. *)
Section Eval.
  Variable o : order.

  Fixpoint eval_o (fuel : nat) : env -> expr -> res value :=
    let call : value -> list value -> res value := fun f args =>
      match f with
      | VFn cenv rec ps body =>
        (* treewalk.rs:161, 224: assert_eq!(params.len(), args.len()) *)
        if length ps =? length args then
          match fuel with
          | O => OutOfFuel
          | S k => eval_o k (call_env cenv rec ps body args) body
          end
        else Panic
      | _ => Panic   (* into_fn *)
      end in
    fix go (en : env) (e : expr) {struct e} : res value :=
      match e with
      | EBool b => Ok (VBool b)                                          (* 84 *)
      | EInt i => Ok (VInt i)                                            (* 85 *)
      | EString s => Ok (VStr s)                                         (* 86 *)
      | EName n => match lookup n en with Some v => Ok v | None => Panic end  (* 87 *)
      | ECall f args =>                                                  (* 88-94 *)
        match o with
        | FnFirst =>
          fv <- go en f ;;
          match fv with
          | VFn _ _ _ _ => vs <- mapM (go en) args ;; call fv vs
          | _ => Panic
          end
        | ArgsFirst =>
          vs <- mapM (go en) args ;; fv <- go en f ;; call fv vs
        end
      | EIf c t e =>                                                     (* 95-101 *)
        cv <- go en c ;; b <- into_bool cv ;; if b then go en t else go en e
      | EIntr i xs =>                                                    (* 102-139 *)
        match i with
        | StringLen =>
          match xs with
          | [] => Panic
          | x0 :: _ => v <- go en x0 ;; s <- into_string v ;; Ok (VInt (str_len s))
          end
        | StringConcat =>
          match xs with
          | [] => Panic
          | x0 :: r =>
            v0 <- go en x0 ;; s1 <- into_string v0 ;;
            match r with
            | [] => Panic
            | x1 :: _ => v1 <- go en x1 ;; s2 <- into_string v1 ;; Ok (VStr (s1 ++ s2))
            end
          end
        | StringCharAt =>
          match xs with
          | [] => Panic
          | x0 :: r =>
            v0 <- go en x0 ;; idx <- into_int v0 ;;
            match r with
            | [] => Panic
            | x1 :: _ => v1 <- go en x1 ;; s <- into_string v1 ;; Ok (VInt (str_char_at idx s))
            end
          end
        | StringSubstring =>
          match xs with
          | [] => Panic
          | x0 :: r =>
            v0 <- go en x0 ;; start <- into_int v0 ;;
            match r with
            | [] => Panic
            | x1 :: r' =>
              v1 <- go en x1 ;; len <- into_int v1 ;;
              match r' with
              | [] => Panic
              | x2 :: _ => v2 <- go en x2 ;; s <- into_string v2 ;;
                           Ok (VStr (str_substring start len s))
              end
            end
          end
        | StringFromChar =>
          match xs with
          | [] => Panic
          | x0 :: _ => v <- go en x0 ;; c <- into_int v ;; Ok (VStr (str_from_char c))
          end
        | IntToString =>
          match xs with
          | [] => Panic
          | x0 :: _ => v <- go en x0 ;; i <- into_int v ;; Ok (VStr (int_to_string i))
          end
        end
      | EOp a op b =>                                                    (* 140-156 *)
        va <- go en a ;; x <- into_int va ;;
        vb <- go en b ;; y <- into_int vb ;;
        Ok (eval_op op x y)
      | ELam ps body => Ok (VFn en None (map fst ps) body)               (* 157-169 *)
      | EMatch d brs =>                                                  (* 170-185 *)
        dv <- go en d ;;
        match dv with
        | VComp c fs =>
          (fix find (l : list (name * list name * expr)) : res value :=
             match l with
             | [] => Panic   (* unreachable!("no branch matched") *)
             | ((c', bs), b) :: r =>
               if Nat.eqb c' c then
                 if length bs =? length fs then go (add_all en bs fs) b else Panic
               else find r
             end) brs
        | _ => Panic
        end
      | EConstruct c _ fields =>                                         (* 186-192 *)
        vs <- mapM (go en) fields ;; mk_tagged c vs
      | ELet n v e =>                                                    (* 193-197 *)
        vv <- go en v ;; go ((n, vv) :: en) e
      | ELetRec n _ v e =>                                               (* 198-209 *)
        match strip_pis v with
        | ELam ps body => go ((n, VFn en (Some n) (map fst ps) body) :: en) e
        | _ => Panic
        end
      | EPi _ e => go en e                                               (* 210-211 *)
      | EPiApp e _ => go en e
      | ETrap m _ => Trap m                                              (* 212-214 *)
      end.

  (** treewalk.rs:62-75 [eval], first loop: definitions in order, each seeing the earlier ones. *)
  Fixpoint eval_defs_o (fuel : nat) (en : env) (ds : list valdef) : res env :=
    match ds with
    | [] => Ok en
    | d :: r => v <- eval_o fuel en (vd_value d) ;; eval_defs_o fuel ((vd_name d, v) :: en) r
    end.

  (** treewalk.rs:62-75 [eval]. *)
  Definition run_o (fuel : nat) (p : program) (exprs : list expr) : res (list value) :=
    en <- eval_defs_o fuel [] (p_defs p) ;; mapM (eval_o fuel en) exprs.
End Eval.

(** The tree-walking runner itself (callee first). *)
Definition eval := eval_o FnFirst.
Definition treewalk := run_o FnFirst.

Definition call_o (o : order) (fuel : nat) (f : value) (args : list value) : res value :=
  match f with
  | VFn cenv rec ps body =>
    if length ps =? length args then
      match fuel with
      | O => OutOfFuel
      | S k => eval_o o k (call_env cenv rec ps body args) body
      end
    else Panic
  | _ => Panic
  end.
