(** The pass that turns curried functions into functions of several parameters.  Models
    ticc/src/codegen/opt/saturate.rs. *)
From Verif Require Export Compile OptWalk OptPasses OptInline.
Set Implicit Arguments.

(** saturate.rs:6-9 [Rewrite]. *)
Record rewrite := mkRw { rw_vars : list tyvar; rw_groups : list (list ty) }.

(** saturate.rs:144-165 [get_arg_groups]: the two loops. *)
Fixpoint ty_vars (t : ty) : list tyvar := match t with TAbs v t => v :: ty_vars t | _ => [] end.
Fixpoint ty_body (t : ty) : ty := match t with TAbs _ t => ty_body t | _ => t end.
Fixpoint ty_groups (t : ty) : list (list ty) := match t with TFn ps o => ps :: ty_groups o | _ => [] end.
(** saturate.rs:167-188 [get_actual_arg_groups]. *)
Fixpoint lam_vars (e : expr) : list tyvar := match e with EPi v e => v :: lam_vars e | _ => [] end.
Fixpoint lam_groups (e : expr) : list (list (name * ty)) := match e with ELam ps e => ps :: lam_groups e | _ => [] end.
(** What the second loop stops at. *)
Fixpoint lam_body (e : expr) : expr := match e with ELam _ e => lam_body e | _ => e end.
Fixpoint ty_out (t : ty) : ty := match t with TFn _ o => ty_out o | _ => t end.
(** saturate.rs:190-203 [collapse_arg_groups] and 205-218 [collapse_lambdas]. *)
Definition collapse_arg_groups (t : ty) : ty := TFn (concat (ty_groups t)) (ty_out t).
Definition collapse_lambdas (e : expr) : expr := ELam (concat (lam_groups e)) (lam_body e).
(** saturate.rs:125-140: the assignments behind the type abstractions. *)
Fixpoint under_abs (f : ty -> ty) (t : ty) : ty := match t with TAbs v t => TAbs v (under_abs f t) | _ => f t end.
Fixpoint under_pis (f : expr -> expr) (e : expr) : expr := match e with EPi v e => EPi v (under_pis f e) | _ => f e end.
(** saturate.rs:120-121: the comparison of the two vectors of lengths. *)
Fixpoint sizes_eqb (a b : list nat) : bool :=
  match a, b with
  | [], [] => true
  | x :: a', y :: b' => Nat.eqb x y && sizes_eqb a' b'
  | _, _ => false
  end.
(** saturate.rs:111-142 [check_for_rewrite]: the new type and value, and the rewrite. *)
Definition check_for_rewrite (t : ty) (e : expr) : option (ty * expr * rewrite) :=
  let groups := ty_groups (ty_body t) in
  let actual := lam_groups (strip_pis e) in
  if length groups <? 2 then None
  else if negb (length (ty_vars t) =? length (lam_vars e)) then None
  else if negb (sizes_eqb (map (@length _) groups) (map (@length _) actual)) then None
  else Some (under_abs collapse_arg_groups t, under_pis collapse_lambdas e, mkRw (ty_vars t) groups).

(** The name and type generators and the map [rewrites], where later insertions come first. *)
Record sst := mkSst { s_nn : nat; s_nt : nat; s_rw : list (name * rewrite) }.

(** saturate.rs:54-65: one parameter of a group; [names.next_synthetic()]. *)
Definition use_param (rw : rewrite) (inst : list tyvar) (nn : nat) (t : ty) : (name * ty) * nat :=
  ((nn, fold_left (fun t vi => tsub (fst vi) (TVar (snd vi)) t) (combine (rw_vars rw) inst) t), S nn).
(** saturate.rs:50-70: the lambdas, the last group first; [rest] is the expression inside, which ends in the
    call with no arguments yet.  The result is the lambdas and the names of all the parameters in order. *)
Fixpoint use_groups (rw : rewrite) (inst : list tyvar) (groups : list (list ty)) (nn : nat) : list (list (name * ty)) * nat :=
  match groups with
  | [] => ([], nn)
  | g :: gs =>
    let (hs, nn1) := use_groups rw inst gs nn in
    let (h, nn2) := mapS (use_param rw inst) nn1 g in (h :: hs, nn2)
  end.
(** saturate.rs:38-75 [rewrite_use], with [add_args] (103-109). *)
Definition rewrite_use (s : sst) (n : name) (rw : rewrite) : expr * sst :=
  let inst := seq (s_nt s) (length (rw_vars rw)) in
  let (hs, nn) := use_groups rw inst (rw_groups rw) (s_nn s) in
  let call := ECall (fold_left (fun e v => EPiApp e (TVar v)) inst (EName n)) (map (fun h => EName (fst h)) (concat hs)) in
  (fold_right EPi (fold_right ELam call hs) inst, mkSst nn (s_nt s + length (rw_vars rw)) (s_rw s)).

(** saturate.rs:20-24: the function of the first walk. *)
Definition collapse_rec (s : sst) (e : expr) : expr * sst :=
  match e with
  | ELetRec n t a b =>
    match check_for_rewrite t a with
    | Some (t', a', rw) => (ELetRec n t' a' b, mkSst (s_nn s) (s_nt s) ((n, rw) :: s_rw s))
    | None => (e, s)
    end
  | _ => (e, s)
  end.
(** opt.rs:114-163 [walk_expressions_mut] with it; [None] when the fuel, which bounds the depth of the
    recursion, runs out. *)
Fixpoint collapse_walk (fuel : nat) (s : sst) (e : expr) : option (expr * sst) :=
  match fuel with
  | O => None
  | S n =>
    let (e1, s1) := collapse_rec s e in
    do (l, s2) <- omapS (collapse_walk n) s1 (map snd (kids e1)) ; Some (rebuild e1 l, s2)
  end.
(** saturate.rs:30-36 [rewrite_expr] and opt.rs:165-214 [walk_expressions_postorder_mut] with it. *)
Definition rewrite_expr (s : sst) (e : expr) : expr * sst :=
  match e with
  | EName n => match lookup n (s_rw s) with Some rw => rewrite_use s n rw | None => (e, s) end
  | _ => (e, s)
  end.
Fixpoint rewrite_walk (fuel : nat) (s : sst) (e : expr) : option (expr * sst) :=
  match fuel with
  | O => None
  | S n => do (l, s1) <- omapS (rewrite_walk n) s (map snd (kids e)) ; Some (rewrite_expr s1 (rebuild e l))
  end.

(** saturate.rs:11-28 [optimize]: one definition. *)
Definition saturate_def (fuel : nat) (s : sst) (d : valdef) : option (valdef * sst) :=
  let '(t, v, s1) := match check_for_rewrite (vd_ty d) (vd_value d) with
                     | Some (t, v, rw) => (t, v, mkSst (s_nn s) (s_nt s) ((vd_name d, rw) :: s_rw s))
                     | None => (vd_ty d, vd_value d, s)
                     end in
  do (v1, s2) <- collapse_walk fuel s1 v ;
  do (v2, s3) <- rewrite_walk fuel s2 v1 ;
  Some (mkValDef (vd_name d) (vd_export d) t v2, s3).
Definition saturate_fuel (fuel nn nt : nat) (p : program) : option (program * (nat * nat)) :=
  do (ds, s) <- omapS (saturate_def fuel) (mkSst nn nt []) (p_defs p) ;
  Some (mkProgram (p_types p) ds, (s_nn s, s_nt s)).
