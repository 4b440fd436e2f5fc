(** The smaller optimisation passes.  Models ticc/src/codegen/opt/{reduce_apply,reduce_pi,dce,inline_simple,
    move_match}.rs.  Taking an expression apart with [mem::replace] and putting the pieces together again
    becomes rebuilding it; [None] is a Rust panic. *)
From Verif Require Export Compile OptWalk.
Set Implicit Arguments.

(** ** reduce_apply.rs *)
(** reduce_apply.rs:32-38 [can_apply]. *)
Fixpoint can_apply (e : expr) : bool :=
  match e with ELam _ _ => true | ELet _ _ e => can_apply e | _ => false end.
(** reduce_apply.rs:45-48: [for (param, arg) in params.zip(args).rev() { result = Let(param, arg, result) }]. *)
Fixpoint lets (ps : list name) (args : list expr) (b : expr) : expr :=
  match ps, args with
  | p :: ps', a :: args' => ELet p a (lets ps' args' b)
  | _, _ => b
  end.
(** reduce_apply.rs:40-54 [apply]. *)
Fixpoint apply_args (e : expr) (args : list expr) : option expr :=
  match e with
  | ELam ps b => if length ps =? length args then Some (lets (map fst ps) args b) else None
  | ELet x v e => do e' <- apply_args e args ; Some (ELet x v e')
  | _ => None
  end.
(** reduce_apply.rs:14-22 [optimize_expr]. *)
Definition reduce_apply_step (e : expr) : option expr :=
  match e with
  | ECall a b => if can_apply a then apply_args a b else Some e
  | _ => Some e
  end.
(** reduce_apply.rs:8-12 [optimize]. *)
Definition reduce_apply (p : program) : option program := on_defs (post reduce_apply_step) p.

(** ** reduce_pi.rs *)
(** reduce_pi.rs:93-119 [replace_ty_in_ty]. *)
Fixpoint tsub (v : tyvar) (w : ty) (t : ty) : ty :=
  match t with
  | TVar u => if Nat.eqb u v then w else t
  | TBool | TInt | TString => t
  | TNamed n ts => TNamed n (map (tsub v w) ts)
  | TFn ps o => TFn (map (tsub v w) ps) (tsub v w o)
  | TAbs u t => TAbs u (tsub v w t)
  end.
(** reduce_pi.rs:60-91 [replace_ty_in_expr]: a preorder walk that only changes types. *)
Fixpoint tsub_e (v : tyvar) (w : ty) (e : expr) : expr :=
  match e with
  | EBool _ | EInt _ | EString _ | EName _ => e
  | ECall a b => ECall (tsub_e v w a) (map (tsub_e v w) b)
  | EIf a b c => EIf (tsub_e v w a) (tsub_e v w b) (tsub_e v w c)
  | EOp a o b => EOp (tsub_e v w a) o (tsub_e v w b)
  | EIntr i b => EIntr i (map (tsub_e v w) b)
  | ELam ps b => ELam (map (fun p => (fst p, tsub v w (snd p))) ps) (tsub_e v w b)
  | EMatch d brs => EMatch (tsub_e v w d) (map (fun br => (fst br, tsub_e v w (snd br))) brs)
  | EConstruct c ts fs => EConstruct c (map (tsub v w) ts) (map (tsub_e v w) fs)
  | ELet x a b => ELet x (tsub_e v w a) (tsub_e v w b)
  | ELetRec x t a b => ELetRec x (tsub v w t) (tsub_e v w a) (tsub_e v w b)
  | EPi u e => EPi u (tsub_e v w e)
  | EPiApp e t => EPiApp (tsub_e v w e) (tsub v w t)
  | ETrap m t => ETrap m (tsub v w t)
  end.
(** reduce_pi.rs:32-38 [can_apply]. *)
Fixpoint can_apply_pi (e : expr) : bool :=
  match e with EPi _ _ => true | ELet _ _ e => can_apply_pi e | _ => false end.
(** reduce_pi.rs:40-50 [apply_pi]. *)
Fixpoint apply_pi (e : expr) (t : ty) : option expr :=
  match e with
  | EPi v b => Some (tsub_e v t b)
  | ELet x v e => do e' <- apply_pi e t ; Some (ELet x v e')
  | _ => None
  end.
(** reduce_pi.rs:14-22 [optimize_expr]. *)
Definition reduce_pi_step (e : expr) : option expr :=
  match e with
  | EPiApp a t => if can_apply_pi a then apply_pi a t else Some e
  | _ => Some e
  end.
(** reduce_pi.rs:8-12 [optimize]. *)
Definition reduce_pi (p : program) : option program := on_defs (post reduce_pi_step) p.

(** ** dce.rs *)
(** dce.rs:18-25: the [let]s met by [opt::walk_expressions] (opt.rs:63-112, preorder). *)
Fixpoint lets_of (e : expr) : list (name * expr) :=
  match e with
  | EBool _ | EInt _ | EString _ | EName _ | ETrap _ _ => []
  | ECall a b => lets_of a ++ flat_map lets_of b
  | EIf a b c => lets_of a ++ lets_of b ++ lets_of c
  | EOp a _ b => lets_of a ++ lets_of b
  | EIntr _ b => flat_map lets_of b
  | ELam _ b => lets_of b
  | EMatch d brs => lets_of d ++ flat_map (fun br => lets_of (snd br)) brs
  | EConstruct _ _ fs => flat_map lets_of fs
  | ELet x a b => (x, a) :: lets_of a ++ lets_of b
  | ELetRec _ _ a b => lets_of a ++ lets_of b
  | EPi _ e => lets_of e
  | EPiApp e _ => lets_of e
  end.
(** dce.rs:16-26: the map [all_defs]; later insertions replace earlier ones, so they come first. *)
Definition all_defs (ds : list valdef) : list (name * expr) :=
  rev (flat_map (fun d => (vd_name d, vd_value d) :: lets_of (vd_value d)) ds).
(** dce.rs:27-36: the loop over [pending] (a stack); [used_names] lists the names [mark_used] (58-64) meets,
    in order.  [fuel] bounds the number of rounds; [dce_fuel] is always enough (proved in OptDce.v). *)
Fixpoint mark (fuel : nat) (defs : list (name * expr)) (pending used : list name) : option (list name) :=
  match fuel, pending with
  | _, [] => Some used
  | O, _ => None
  | S n, x :: rest =>
    if mem x used then mark n defs rest used
    else match lookup x defs with
         | Some v => mark n defs (rev (used_names v) ++ rest) (x :: used)
         | None => mark n defs rest (x :: used)
         end
  end.
Definition dce_fuel (defs : list (name * expr)) (pending : list name) : nat :=
  S (length pending + length (flat_map (fun d => used_names (snd d)) defs)).
Definition exports (ds : list valdef) : list name :=
  map vd_name (filter (fun d => match vd_export d with Some _ => true | None => false end) ds).
(** dce.rs:8-36: the set [used]. *)
Definition dce_used (p : program) : option (list name) :=
  let pending := rev (exports (p_defs p)) in
  mark (dce_fuel (all_defs (p_defs p)) pending) (all_defs (p_defs p)) pending [].
(** dce.rs:43-56: the inner loop of [remove_unused_locals]. *)
Fixpoint drop_lets (used : list name) (e : expr) : expr :=
  match e with
  | ELet n _ r => if mem n used then e else drop_lets used r
  | _ => e
  end.
(** dce.rs:7-41 [optimize]. *)
Definition dce (p : program) : option program :=
  do used <- dce_used p ;
  on_defs (pre (fun e => Some (drop_lets used e)))
          (mkProgram (p_types p) (filter (fun d => mem (vd_name d) used) (p_defs p))).

(** ** inline_simple.rs *)
(** inline_simple.rs:42-48 [is_lambda]. *)
Fixpoint is_lambda (e : expr) : bool :=
  match e with ELam _ _ => true | EPi _ e => is_lambda e | _ => false end.
(** inline_simple.rs:58-97 [count_uses]. *)
Fixpoint count_uses (single : bool) (x : name) (e : expr) : nat :=
  match e with
  | EBool _ | EInt _ | EString _ | ETrap _ _ => 0
  | EName y => if Nat.eqb y x then 1 else 0
  | ECall a b => count_uses single x a + list_sum (map (count_uses single x) b)
  | EIntr _ b => list_sum (map (count_uses single x) b)
  | EOp a _ b | ELet _ a b | ELetRec _ _ a b => count_uses single x a + count_uses single x b
  | EIf a b c => count_uses single x a + count_uses single x b + count_uses single x c
  | ELam _ a =>
    if single then count_uses single x a
    else if count_uses single x a =? 0 then 0 else 1000
  | EMatch a bs => count_uses single x a + list_sum (map (fun br => count_uses single x (snd br)) bs)
  | EConstruct _ _ a => list_sum (map (count_uses single x) a)
  | EPi _ a | EPiApp a _ => count_uses single x a
  end.
(** inline_simple.rs:99-105 [replace_use]: a postorder walk that moves the value into the place of the name.
    The value is there to be taken only once ([value.take().unwrap()]) and has to be taken
    ([assert!(value.is_none())], lines 25 and 35), so the name must occur exactly once. *)
Definition replace_name (x : name) (a : expr) (e : expr) : option expr :=
  match e with EName y => if Nat.eqb y x then Some a else Some e | _ => Some e end.
Definition replace_use (x : name) (a : expr) (r : expr) : option expr :=
  if count_uses true x r =? 1 then post (replace_name x a) r else None.
(** inline_simple.rs:14-40 [optimize_expr]. *)
Definition inline_simple_step (e : expr) : option expr :=
  do e1 <- match e with
           | ELet x b r => if count_uses (is_lambda b) x r =? 1 then replace_use x b r else Some e
           | _ => Some e
           end ;
  match e1 with
  | ELet x b r => match b with
                  | ELam _ _ => if count_uses true x r =? 1 then replace_use x b r else Some e1
                  | _ => Some e1
                  end
  | _ => Some e1
  end.
(** inline_simple.rs:8-12 [optimize]. *)
Definition inline_simple (p : program) : option program := on_defs (pre inline_simple_step) p.

(** ** move_match.rs *)
(** move_match.rs:44-72 [is_simple]. *)
Fixpoint is_simple (f : name) (e : expr) : bool :=
  match e with
  | EBool _ | EInt _ | EString _ | EName _ | ETrap _ _ => true
  | ECall g xs => forallb (is_simple f) xs && match g with EName n => Nat.eqb n f | _ => false end
  | EIntr _ xs => forallb (is_simple f) xs
  | EIf _ _ _ | EOp _ _ _ | ELam _ _ | ELet _ _ _ | ELetRec _ _ _ _ => false
  | EConstruct _ _ fs => forallb (is_simple f) fs
  | EMatch x br => is_simple f x && forallb (fun b => is_simple f (snd b)) br
  | EPi _ e | EPiApp e _ => is_simple f e
  end.
(** move_match.rs:14-20, 27-41 under [unwrap_lambdas] (74-80): the [let] below the leading lambdas. *)
Fixpoint move_let (f : name) (e : expr) : expr :=
  match e with
  | ELam ps b => ELam ps (move_let f b)
  | ELet x v (ELam qs b) => if is_simple f v then ELam qs (ELet x v b) else e
  | _ => e
  end.
(** move_match.rs:10-25 [optimize_expr]. *)
Definition move_match_step (e : expr) : option expr :=
  match e with
  | ELetRec f t (ELam ps b) r => Some (ELetRec f t (ELam ps (move_let f b)) r)
  | ELetRec _ _ _ _ => None
  | _ => Some e
  end.
(** move_match.rs:4-8 [optimize]. *)
Definition move_match (p : program) : option program := on_defs (pre move_match_step) p.

(** ** merge_match.rs *)
(** merge_match.rs:29-48 [extract_ctor]. *)
Fixpoint extract_ctor (e : expr) : option name :=
  match e with
  | EConstruct c _ _ => Some c
  | ELet _ _ e | ELetRec _ _ _ e | EPi _ e | EPiApp e _ => extract_ctor e
  | _ => None
  end.
(** merge_match.rs:21-27 [can_merge_branches]. *)
Definition can_merge (brs : list (name * list name * expr)) : bool :=
  length (nodup Nat.eq_dec (flat_map (fun br => match extract_ctor (snd br) with Some c => [c] | None => [] end) brs)) =? length brs.
(** merge_match.rs:52 [sort_by_cached_key]. *)
Definition branch_key (br : name * list name * expr) : nat :=
  match extract_ctor (snd br) with Some c => c | None => 0 end.
Fixpoint insert_branch (br : name * list name * expr) (l : list (name * list name * expr)) : list (name * list name * expr) :=
  match l with
  | [] => [br]
  | b :: r => if branch_key br <=? branch_key b then br :: l else b :: insert_branch br r
  end.
Definition sort_branches (l : list (name * list name * expr)) : list (name * list name * expr) := fold_right insert_branch [] l.
(** merge_match.rs:53-56: the map of outer branches; the last branch of a constructor wins. *)
Definition last_branch (c : name) (brs : list (name * list name * expr)) : option (list name * expr) :=
  match find (fun br => Nat.eqb (fst (fst br)) c) (rev brs) with Some br => Some (snd (fst br), snd br) | None => None end.
(** merge_match.rs:67-98 [merge_branch]. *)
Fixpoint merge_branch (c : name) (bs : list name) (v : expr) (e : expr) : option expr :=
  match e with
  | EConstruct c' _ fs => if Nat.eqb c' c && (length fs =? length bs) then Some (lets bs fs v) else None
  | ELet x a e => do e' <- merge_branch c bs v e ; Some (ELet x a e')
  | ELetRec x t a e => do e' <- merge_branch c bs v e ; Some (ELetRec x t a e')
  | EPi t e => do e' <- merge_branch c bs v e ; Some (EPi t e')
  | EPiApp e t => do e' <- merge_branch c bs v e ; Some (EPiApp e' t)
  | _ => None
  end.
(** merge_match.rs:57-60: one inner branch.  (The Rust code removes the outer branch from the map; as the inner
    branches end in different constructors, it is not looked for again.) *)
Definition merge_one (outer : list (name * list name * expr)) (br : name * list name * expr) : option (name * list name * expr) :=
  do c <- extract_ctor (snd br) ;
  do o <- last_branch c outer ;
  do v <- merge_branch c (fst o) (snd o) (snd br) ;
  Some (fst br, v).
(** merge_match.rs:11-19, 50-65 [optimize_expr], [merge_branches]. *)
Definition merge_match_step (e : expr) : option expr :=
  match e with
  | EMatch (EMatch d inner) outer =>
    if can_merge inner then do brs <- omap (merge_one outer) (sort_branches inner) ; Some (EMatch d brs) else Some e
  | _ => Some e
  end.
(** merge_match.rs:5-9 [optimize]. *)
Definition merge_match (p : program) : option program := on_defs (pre merge_match_step) p.
