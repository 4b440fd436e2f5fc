(** The verifier of core programs.  Models ticc-core/src/verify.rs.  [None] is a panic (rejection). *)
From Verif Require Export Ir Compile.
Set Implicit Arguments.

(** verify.rs:38-44 [Names] and 96-101 [Validator] in one record.  Sets are lists; [HashMap]s are
    association lists, newest binding first. *)
Record vstate := mkV {
  v_defined : list name; v_scope : list name;
  v_defty : list tyvar; v_scopety : list tyvar;
  v_kinds : list (name * nat);
  v_types : list (name * ty);
  v_ctors : list (name * (name * list tyvar * list ty))     (* 89-94 [Ctor] *)
}.

Notation "'do' x <- a ; b" := (match a with Some x => b | None => None end)
  (at level 200, x pattern, a at level 100, b at level 200).
Definition assert (b : bool) : option unit := if b then Some tt else None.

Definition rem (n : nat) (l : list nat) : list nat := filter (fun x => negb (Nat.eqb x n)) l.

Section Verify.
  Variable limit : nat.      (* id_limit, 10 *)

  (** verify.rs:47-55 [Names::enter]. *)
  Definition enter (n : name) (s : vstate) : option vstate :=
    if n <? limit then
      if mem n (v_defined s) then None
      else Some (mkV (n :: v_defined s) (n :: v_scope s) (v_defty s) (v_scopety s) (v_kinds s) (v_types s) (v_ctors s))
    else None.
  (** verify.rs:57-61 [exit]. *)
  Definition exit (n : name) (s : vstate) : option vstate :=
    if mem n (v_scope s)
    then Some (mkV (v_defined s) (rem n (v_scope s)) (v_defty s) (v_scopety s) (v_kinds s) (v_types s) (v_ctors s))
    else None.
  (** verify.rs:69-74 [enter_ty]. *)
  Definition enter_ty (v : tyvar) (s : vstate) : option vstate :=
    if mem v (v_defty s) then None
    else Some (mkV (v_defined s) (v_scope s) (v :: v_defty s) (v :: v_scopety s) (v_kinds s) (v_types s) (v_ctors s)).
  (** verify.rs:76-80 [exit_ty]. *)
  Definition exit_ty (v : tyvar) (s : vstate) : option vstate :=
    if mem v (v_scopety s)
    then Some (mkV (v_defined s) (v_scope s) (v_defty s) (rem v (v_scopety s)) (v_kinds s) (v_types s) (v_ctors s))
    else None.
  Definition set_type (n : name) (t : ty) (s : vstate) : vstate :=
    mkV (v_defined s) (v_scope s) (v_defty s) (v_scopety s) (v_kinds s) ((n, t) :: v_types s) (v_ctors s).
  Definition set_kind (n : name) (k : nat) (s : vstate) : vstate :=
    mkV (v_defined s) (v_scope s) (v_defty s) (v_scopety s) ((n, k) :: v_kinds s) (v_types s) (v_ctors s).
  Definition set_ctor (n : name) (c : name * list tyvar * list ty) (s : vstate) : vstate :=
    mkV (v_defined s) (v_scope s) (v_defty s) (v_scopety s) (v_kinds s) (v_types s) ((n, c) :: v_ctors s).

  (** [for x in l { f(x) }] over the state. *)
  Definition iterS {A} (f : A -> vstate -> option vstate) : list A -> vstate -> option vstate :=
    fix go (l : list A) (s : vstate) : option vstate :=
      match l with [] => Some s | a :: r => do s1 <- f a s; go r s1 end.

  (** verify.rs:130-158 [check_ty]. *)
  Fixpoint check_ty (t : ty) (s : vstate) : option vstate :=
    match t with
    | TBool | TInt | TString => Some s
    | TVar v => if mem v (v_scopety s) then Some s else None
    | TNamed n args =>
      if mem n (v_scope s) then
        do kind <- lookup n (v_kinds s);
        if kind =? length args then iterS check_ty args s else None
      else None
    | TFn ps o => do s1 <- iterS check_ty ps s; check_ty o s1
    | TAbs v t => do s1 <- enter_ty v s; do s2 <- check_ty t s1; exit_ty v s2
    end.

  (** verify.rs:117-128 [check_ty_case]. *)
  Definition check_ty_case (tn : name) (vars : list tyvar) (c : name * list ty) (s : vstate) : option vstate :=
    do s1 <- enter (fst c) s;
    do s2 <- iterS check_ty (snd c) s1;
    Some (set_ctor (fst c) (tn, vars, snd c) s2).
  (** verify.rs:104-115 [check_ty_def]. *)
  Definition check_ty_def (d : tydef) (s : vstate) : option vstate :=
    do s1 <- enter (td_name d) s;
    do s2 <- iterS enter_ty (td_vars d) (set_kind (td_name d) (length (td_vars d)) s1);
    do s3 <- iterS (check_ty_case (td_name d) (td_vars d)) (td_cases d) s2;
    iterS exit_ty (td_vars d) s3.

  (** verify.rs:363-391 [assert_fits]'s [check]: returns the answer and the pairs pushed so far (a failed
      comparison stops everything, so the pairs are only kept on success). *)
  Fixpoint fits_go (a b : ty) (pairs : list (tyvar * tyvar)) {struct a} : option (list (tyvar * tyvar)) :=
    match a, b with
    | TBool, TBool | TInt, TInt | TString, TString => Some pairs
    | TVar x, TVar y =>
      if Nat.eqb x y || existsb (fun p => Nat.eqb (fst p) x && Nat.eqb (snd p) y) pairs then Some pairs else None
    | TNamed n xs, TNamed m ys =>
      if Nat.eqb n m && (length xs =? length ys) then
        (fix all (xs ys : list ty) (pairs : list (tyvar * tyvar)) {struct xs} :=
           match xs, ys with
           | x :: xs', y :: ys' => do p <- fits_go x y pairs; all xs' ys' p
           | _, _ => Some pairs
           end) xs ys pairs
      else None
    | TFn xs o, TFn ys o' =>
      if length xs =? length ys then
        do p <- (fix all (xs ys : list ty) (pairs : list (tyvar * tyvar)) {struct xs} :=
                   match xs, ys with
                   | x :: xs', y :: ys' => do p <- fits_go x y pairs; all xs' ys' p
                   | _, _ => Some pairs
                   end) xs ys pairs;
        fits_go o o' p
      else None
    | TAbs x t, TAbs y t' => fits_go t t' ((x, y) :: pairs)
    | _, _ => None
    end.
  Definition fits (actual expected : ty) : bool :=
    match fits_go actual expected [] with Some _ => true | None => false end.
End Verify.

(** verify.rs:393-417 [replace]. *)
Fixpoint replace (t : ty) (v : tyvar) (w : ty) : ty :=
  match t with
  | TBool => TBool | TInt => TInt | TString => TString
  | TVar x => if Nat.eqb x v then w else TVar x
  | TNamed n args => TNamed n (map (fun a => replace a v w) args)
  | TFn ps o => TFn (map (fun a => replace a v w) ps) (replace o v w)
  | TAbs x t => TAbs x (replace t v w)
  end.
(** verify.rs:276-278, 302-304: [for (var, arg) in zip { replace(&mut ty, var, arg) }]. *)
Definition replace_all (t : ty) (vs : list tyvar) (ws : list ty) : ty :=
  fold_left (fun t p => replace t (fst p) (snd p)) (combine vs ws) t.

(** [==] on types (derived [PartialEq]). *)
Fixpoint ty_eqb (a b : ty) : bool :=
  match a, b with
  | TBool, TBool | TInt, TInt | TString, TString => true
  | TVar x, TVar y => Nat.eqb x y
  | TNamed n xs, TNamed m ys => Nat.eqb n m &&
    (fix all (xs ys : list ty) {struct xs} :=
       match xs, ys with
       | [], [] => true
       | x :: xs', y :: ys' => ty_eqb x y && all xs' ys'
       | _, _ => false
       end) xs ys
  | TFn xs o, TFn ys o' =>
    (fix all (xs ys : list ty) {struct xs} :=
       match xs, ys with
       | [], [] => true
       | x :: xs', y :: ys' => ty_eqb x y && all xs' ys'
       | _, _ => false
       end) xs ys && ty_eqb o o'
  | TAbs x t, TAbs y t' => Nat.eqb x y && ty_eqb t t'
  | _, _ => false
  end.

(** verify.rs:185-214: parameter and result types of the intrinsics. *)
Definition intr_params (i : intrinsic) : list ty :=
  match i with
  | StringLen => [TString]
  | StringConcat => [TString; TString]
  | StringCharAt => [TInt; TString]
  | StringSubstring => [TInt; TInt; TString]
  | StringFromChar => [TInt]
  | IntToString => [TInt]
  end.
Definition intr_result (i : intrinsic) : ty :=
  match i with
  | StringLen | StringCharAt => TInt
  | _ => TString
  end.
(** verify.rs:232-246. *)
Definition op_result (o : op) : ty :=
  match o with
  | Add | Subtract | Multiply | Divide | Modulo => TInt
  | _ => TBool
  end.

(** verify.rs:175-178, 356-359:
    [for (ty, x) in params.zip(xs) { let x = check_expr(x); assert_fits(&x, ty) }] with [chk] for
    [check_expr]. *)
Definition argsS (chk : expr -> vstate -> option (ty * vstate)) :
  list expr -> list ty -> vstate -> option vstate :=
  fix go (xs : list expr) (ps : list ty) (s : vstate) {struct xs} : option vstate :=
    match xs, ps with
    | x :: xs', p :: ps' =>
      do (t, s1) <- chk x s; do _ <- assert (fits t p); go xs' ps' s1
    | _, _ => Some s
    end.
(** verify.rs:300-307: the fields of a constructor application. *)
Definition fieldsS (chk : expr -> vstate -> option (ty * vstate)) (vars : list tyvar) (tys : list ty) :
  list expr -> list ty -> vstate -> option vstate :=
  fix go (xs : list expr) (ts : list ty) (s : vstate) {struct xs} : option vstate :=
    match xs, ts with
    | x :: xs', t :: ts' =>
      do (tx, s1) <- chk x s;
      do _ <- assert (fits (replace_all t vars tys) tx);
      go xs' ts' s1
    | _, _ => Some s
    end.

Section CheckExpr.
  Variable limit : nat.
  Let enter := enter limit.

  (** verify.rs:246-250: a lambda parameter. *)
  Definition param_in (p : name * ty) (s : vstate) : option vstate :=
    do s1 <- enter (fst p) s; do s2 <- check_ty (snd p) s1; Some (set_type (fst p) (snd p) s2).
  (** verify.rs:251-253. *)
  Definition param_out (p : name * ty) (s : vstate) : option vstate := exit (fst p) s.
  (** verify.rs:271-277: a variable bound by a branch. *)
  Definition bind_in (vars : list tyvar) (targs : list ty) (fb : ty * name) (s : vstate) : option vstate :=
    do s1 <- enter (snd fb) s;
    Some (set_type (snd fb) (replace_all (fst fb) vars targs) s1).
  (** verify.rs:265-290: the branches of a match on type [mt targs]. *)
  Definition branchesS (chk : expr -> vstate -> option (ty * vstate)) (mt : name) (targs : list ty) :
    list (name * list name * expr) -> option ty -> vstate -> option (option ty * vstate) :=
    fix go (brs : list (name * list name * expr)) (t : option ty) (s : vstate) : option (option ty * vstate) :=
      match brs with
      | [] => Some (t, s)
      | ((c, binds), value) :: r =>
        do (ctor, fields) <- lookup c (v_ctors s);
        let (tn, vars) := (ctor : name * list tyvar) in
        do _ <- assert (Nat.eqb mt tn);
        do _ <- assert (length vars =? length targs);
        do _ <- assert (length (fields : list ty) =? length binds);
        do s1 <- iterS (bind_in vars targs) (combine fields binds) s;
        do (tv, s2) <- chk value s1;
        do t' <- match t with
                 | Some t0 => if ty_eqb t0 tv then Some (Some t0) else None
                 | None => Some (Some tv)
                 end;
        do s3 <- iterS exit binds s2;
        go r t' s3
      end.

  (** verify.rs:160-350 [check_expr], with 352-360 [assert_params_fit]. *)
  Fixpoint check_expr (e : expr) (s : vstate) {struct e} : option (ty * vstate) :=
    match e with
    | EBool _ => Some (TBool, s)
    | EInt _ => Some (TInt, s)
    | EString _ => Some (TString, s)
    | EName n =>
      do _ <- assert (mem n (v_scope s));
      do t <- lookup n (v_types s);
      Some (t, s)
    | ECall f xs =>
      do (tf, s1) <- check_expr f s;
      match tf with
      | TFn ps o => do _ <- assert (length ps =? length xs); do s2 <- argsS check_expr xs ps s1; Some (o, s2)
      | _ => None
      end
    | EIntr i xs =>
      do _ <- assert (length (intr_params i) =? length xs);
      do s1 <- argsS check_expr xs (intr_params i) s; Some (intr_result i, s1)
    | EIf c t f =>
      do (tc, s1) <- check_expr c s;
      do _ <- assert (fits tc TBool);
      do (t1, s2) <- check_expr t s1;
      do (t2, s3) <- check_expr f s2;
      do _ <- assert (ty_eqb t1 t2);
      Some (t1, s3)
    | EOp a o b =>
      do (ta, s1) <- check_expr a s;
      do _ <- assert (fits ta TInt);
      do (tb, s2) <- check_expr b s1;
      do _ <- assert (fits tb TInt);
      Some (op_result o, s2)
    | ELam ps body =>
      do s1 <- iterS param_in ps s;
      do (tb, s2) <- check_expr body s1;
      do s3 <- iterS param_out ps s2;
      Some (TFn (map snd ps) tb, s3)
    | EMatch d brs =>
      do (td, s1) <- check_expr d s;
      match td with
      | TNamed mt targs =>
        do (t, s2) <- branchesS check_expr mt targs brs None s1;
        do ty <- t; Some (ty, s2)
      | _ => None
      end
    | EConstruct c tys fields =>
      do (ctor, ftys) <- lookup c (v_ctors s);
      let (tn, vars) := (ctor : name * list tyvar) in
      do _ <- assert (length vars =? length tys);
      do _ <- assert (length (ftys : list ty) =? length fields);
      do s1 <- fieldsS check_expr vars tys fields ftys s;
      Some (TNamed tn tys, s1)
    | ELet n a b =>
      do (ta, s1) <- check_expr a s;
      do s2 <- enter n (set_type n ta s1);
      do (tb, s3) <- check_expr b s2;
      do s4 <- exit n s3;
      Some (tb, s4)
    | ELetRec n t a b =>
      do s1 <- check_ty t s;
      do s2 <- enter n s1;
      do (ta, s3) <- check_expr a (set_type n t s2);
      do _ <- assert (fits ta t);
      do (tb, s4) <- check_expr b s3;
      do s5 <- exit n s4;
      Some (tb, s5)
    | ETrap _ t => do s1 <- check_ty t s; Some (t, s1)
    | EPi v e =>
      do s1 <- enter_ty v s;
      do (t, s2) <- check_expr e s1;
      do s3 <- exit_ty v s2;
      Some (TAbs v t, s3)
    | EPiApp e t =>
      do (te, s1) <- check_expr e s;
      match te with
      | TAbs v t' => Some (replace t' v t, s1)
      | _ => None
      end
    end.

  (** verify.rs:24-30, the loop over definitions. *)
  Definition check_def (d : valdef) (s : vstate) : option vstate :=
    do s1 <- check_ty (vd_ty d) s;
    do (t, s2) <- check_expr (vd_value d) s1;
    do _ <- assert (fits t (vd_ty d));
    do s3 <- enter (vd_name d) s2;
    Some (set_type (vd_name d) t s3).
  (** verify.rs:32-35, the loop over the values. *)
  Definition check_value (v : expr * ty) (s : vstate) : option vstate :=
    do (t, s1) <- check_expr (fst v) s;
    do _ <- assert (fits t (snd v));
    Some s1.
End CheckExpr.

Definition v_init : vstate := mkV [] [] [] [] [] [] [].

(** verify.rs:8-36 [assert_valid_with_values]; [assert_valid] is the case of no values. *)
Definition verify (limit : nat) (p : program) (values : list (expr * ty)) : option vstate :=
  do s1 <- iterS (check_ty_def limit) (p_types p) v_init;
  do s2 <- iterS (check_def limit) (p_defs p) s1;
  iterS (check_value limit) values s2.
Definition verified (limit : nat) (p : program) (values : list (expr * ty)) : bool :=
  match verify limit p values with Some _ => true | None => false end.
