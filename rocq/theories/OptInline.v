(** The pass that replaces names by copies of their definitions.  Models ticc/src/codegen/opt/inline.rs. *)
From Verif Require Export Compile OptWalk OptPasses.
Set Implicit Arguments.

(** A traversal of a list that carries a state along. *)
Definition mapS {St A B} (f : St -> A -> B * St) : St -> list A -> list B * St :=
  fix go (s : St) (l : list A) : list B * St :=
    match l with
    | [] => ([], s)
    | a :: r => let (b, s1) := f s a in let (bs, s2) := go s1 r in (b :: bs, s2)
    end.
(** The same when the traversal may run out of fuel. *)
Definition omapS {St A B} (f : St -> A -> option (B * St)) : St -> list A -> option (list B * St) :=
  fix go (s : St) (l : list A) : option (list B * St) :=
    match l with
    | [] => Some ([], s)
    | a :: r => do (b, s1) <- f s a ; do (bs, s2) <- go s1 r ; Some (b :: bs, s2)
    end.

(** ** Copies with fresh names *)
(** inline.rs:26-31 [Names]: the next ids that [NameGenerator::new_copy] (ir.rs:127-134) and
    [TyGenerator::next] (ir.rs:157-161) give out, and the two maps; later insertions come first. *)
Record cst := mkCst { c_nn : nat; c_nt : nat; c_rn : list (name * name); c_rt : list (tyvar * tyvar) }.
(** [map.get(n).copied().unwrap_or(n)] *)
Definition ren (m : list (nat * nat)) (x : nat) : nat := match lookup x m with Some y => y | None => x end.
(** inline.rs:34-38 [copy_name]. *)
Definition copy_name (s : cst) (x : name) : name * cst :=
  (c_nn s, mkCst (S (c_nn s)) (c_nt s) ((x, c_nn s) :: c_rn s) (c_rt s)).
(** inline.rs:40-44 [copy_ty]. *)
Definition copy_tyvar (s : cst) (v : tyvar) : tyvar * cst :=
  (c_nt s, mkCst (c_nn s) (S (c_nt s)) (c_rn s) ((v, c_nt s) :: c_rt s)).
(** inline.rs:58-82 [copy_ty] in [create_copy]. *)
Fixpoint copy_ty (s : cst) (t : ty) : ty * cst :=
  match t with
  | TBool | TInt | TString => (t, s)
  | TVar v => (TVar (ren (c_rt s) v), s)
  | TNamed n ts => let (ts', s') := mapS copy_ty s ts in (TNamed n ts', s')
  | TFn ps o => let (ps', s1) := mapS copy_ty s ps in let (o', s2) := copy_ty s1 o in (TFn ps' o', s2)
  | TAbs v t => let (v', s1) := copy_tyvar s v in let (t', s2) := copy_ty s1 t in (TAbs v' t', s2)
  end.
(** inline.rs:117-123: one parameter. *)
Definition copy_param (s : cst) (p : name * ty) : (name * ty) * cst :=
  let (x, s1) := copy_name s (fst p) in let (t, s2) := copy_ty s1 (snd p) in ((x, t), s2).
(** inline.rs:83-181 [copy]. *)
Fixpoint copy (s : cst) (e : expr) : expr * cst :=
  match e with
  | EBool _ | EInt _ | EString _ => (e, s)
  | EName n => (EName (ren (c_rn s) n), s)
  | ECall a b => let (a', s1) := copy s a in let (b', s2) := mapS copy s1 b in (ECall a' b', s2)
  | EIntr i b => let (b', s1) := mapS copy s b in (EIntr i b', s1)
  | EIf a b c => let (a', s1) := copy s a in let (b', s2) := copy s1 b in let (c', s3) := copy s2 c in (EIf a' b' c', s3)
  | EOp a o b => let (a', s1) := copy s a in let (b', s2) := copy s1 b in (EOp a' o b', s2)
  | ELam ps a => let (ps', s1) := mapS copy_param s ps in let (a', s2) := copy s1 a in (ELam ps' a', s2)
  | EMatch a bs =>
    let (a', s1) := copy s a in
    let (bs', s2) := mapS (fun s br =>
      let (xs, s1) := mapS copy_name s (snd (fst br)) in
      let (v, s2) := copy s1 (snd br) in ((fst (fst br), xs, v), s2)) s1 bs in
    (EMatch a' bs', s2)
  | EConstruct c ts xs => let (xs', s1) := mapS copy s xs in let (ts', s2) := mapS copy_ty s1 ts in (EConstruct c ts' xs', s2)
  | ELet n a b => let (r, s1) := copy_name s n in let (a', s2) := copy s1 a in let (b', s3) := copy s2 b in (ELet r a' b', s3)
  | ELetRec n t a b =>
    let (r, s1) := copy_name s n in let (t', s2) := copy_ty s1 t in
    let (a', s3) := copy s2 a in let (b', s4) := copy s3 b in (ELetRec r t' a' b', s4)
  | ETrap m t => let (t', s1) := copy_ty s t in (ETrap m t', s1)
  | EPi v e => let (v', s1) := copy_tyvar s v in let (e', s2) := copy s1 e in (EPi v' e', s2)
  | EPiApp e t => let (e', s1) := copy s e in let (t', s2) := copy_ty s1 t in (EPiApp e' t', s2)
  end.

(** ** What may be inlined *)
(** inline.rs:324-350 [count_uses]. *)
Fixpoint uses_once (x : name) (single : bool) (e : expr) : nat :=
  match e with
  | EBool _ | EInt _ | EString _ | ETrap _ _ => 0
  | EName y => if Nat.eqb y x then 1 else 0
  | ECall a b => uses_once x single a + list_sum (map (uses_once x single) b)
  | EIntr _ b => list_sum (map (uses_once x single) b)
  | EOp a _ b | ELet _ a b | ELetRec _ _ a b => uses_once x false a + uses_once x false b
  | EIf a b c => uses_once x false a + uses_once x false b + uses_once x false c
  | ELam _ a => if single then uses_once x single a else 1000
  | EMatch a bs => uses_once x false a + list_sum (map (fun br => uses_once x false (snd br)) bs)
  | EConstruct _ _ xs => list_sum (map (uses_once x false) xs)
  | EPi _ a | EPiApp a _ => uses_once x false a
  end.
(** inline.rs:352-374 [size]. *)
Fixpoint isize (e : expr) : nat :=
  match e with
  | EBool _ | EInt _ | EString _ | EName _ | ETrap _ _ => 1
  | ECall f args => isize f + list_sum (map isize args) + 1
  | EIf a b c => isize a + isize b + isize c + 1
  | EOp a _ b => isize a + isize b + 1
  | EIntr _ args => list_sum (map isize args) + 1
  | ELam ps e => length ps + isize e + 1
  | EMatch e brs => isize e + list_sum (map (fun br => length (snd (fst br)) + isize (snd br) + 1) brs) + 1
  | EConstruct _ _ args => list_sum (map isize args) + 1
  | ELet _ v e | ELetRec _ _ v e => isize v + isize e + 1
  | EPi _ e | EPiApp e _ => isize e + 1
  end.
(** inline.rs:291-306 [check_inlinable]. *)
Fixpoint check_inlinable (e : expr) (complex : bool) : option nat :=
  match e with
  | ELam ps b =>
    if forallb (fun p => uses_once (fst p) true b <=? 1) ps then do n <- check_inlinable b true ; Some (S n) else None
  | EName _ | EInt _ | EBool _ => Some 0
  | EPi _ e => check_inlinable e complex
  | EConstruct _ _ [] => Some 0
  | _ => if complex then Some 0 else None
  end.
(** inline.rs:308-322 [check_small_inlinable]. *)
Fixpoint check_small (e : expr) : option nat :=
  match e with
  | ELam _ b => do n <- check_small b ; Some (S n)
  | EPi _ e => check_small e
  | _ => if isize e <=? 30 then Some 0 else None
  end.
(** inline.rs:282-289 [check_for_inline]. *)
Fixpoint head_calls (e : expr) : option (name * nat) :=
  match e with
  | EName n => Some (n, 0)
  | ECall f _ => do (n, x) <- head_calls f ; Some (n, S x)
  | EPiApp f _ => head_calls f
  | _ => None
  end.
(** inline.rs:273-280 [inline], only called when [check_for_inline] found a name. *)
Fixpoint put_head (d : expr) (e : expr) : expr :=
  match e with
  | EName _ => d
  | ECall f xs => ECall (put_head d f) xs
  | EPiApp f t => EPiApp (put_head d f) t
  | _ => e
  end.

(** ** The pass *)
(** The name and type generators (inline.rs:13-14) and the map [inlinables] (inline.rs:11, 47-50), where later
    insertions come first. *)
Record ist := mkIst { i_nn : nat; i_nt : nat; i_map : list (name * (expr * nat)) }.
Definition set_inl (s : ist) (x : name) (e : expr) (calls : nat) : ist := mkIst (i_nn s) (i_nt s) ((x, (e, calls)) :: i_map s).
(** inline.rs:57, 182-184 [create_copy]: the maps are cleared first. *)
Definition create_copy (s : ist) (e : expr) : expr * ist :=
  let (e', c) := copy (mkCst (i_nn s) (i_nt s) [] []) e in (e', mkIst (c_nn c) (c_nt c) (i_map s)).
(** inline.rs:253-271 [inline_functions]. *)
Definition note_let (s : ist) (e : expr) : ist :=
  match e with
  | ELet n v _ => match check_inlinable v false with Some c => set_inl s n v c | None => s end
  | _ => s
  end.
Definition inline_functions (s : ist) (e : expr) : expr * ist :=
  let s := note_let s e in
  match head_calls e with
  | Some (n, calls) =>
    match lookup n (i_map s) with
    | Some (d, c) => if c <=? calls then let (d', s') := create_copy s d in (put_head d' e, s') else (e, s)
    | None => (e, s)
    end
  | None => (e, s)
  end.

(** The children of a node in the order of inline.rs:202-246, each with the names bound around it, and the
    node with other children. *)
Definition kids (e : expr) : list (list name * expr) :=
  match e with
  | EBool _ | EInt _ | EString _ | EName _ | ETrap _ _ => []
  | ECall a b => ([], a) :: map (fun x => ([], x)) b
  | EIntr _ b | EConstruct _ _ b => map (fun x => ([], x)) b
  | EOp a _ b => [([], a); ([], b)]
  | EIf a b c => [([], a); ([], b); ([], c)]
  | ELam ps a => [(map fst ps, a)]
  | EPi _ a | EPiApp a _ => [([], a)]
  | EMatch a bs => ([], a) :: map (fun br => (snd (fst br), snd br)) bs
  | ELet n a b => [([], a); ([n], b)]
  | ELetRec n _ a b => [([n], a); ([n], b)]
  end.
Definition rebuild (e : expr) (l : list expr) : expr :=
  match e, l with
  | ECall _ _, a :: b => ECall a b
  | EIntr i _, b => EIntr i b
  | EConstruct c ts _, b => EConstruct c ts b
  | EOp _ o _, [a; b] => EOp a o b
  | EIf _ _ _, [a; b; c] => EIf a b c
  | ELam ps _, [a] => ELam ps a
  | EPi v _, [a] => EPi v a
  | EPiApp _ t, [a] => EPiApp a t
  | EMatch _ bs, a :: vs => EMatch a (map (fun p => (fst (fst p), snd p)) (combine bs vs))
  | ELet n _ _, [a; b] => ELet n a b
  | ELetRec n t _ _, [a; b] => ELetRec n t a b
  | _, _ => e
  end.
(** inline.rs:188-251 [walk_expressions] with [inline_functions]; [None] when the fuel, which bounds the depth
    of the recursion, runs out.  A [let] has its value walked before the visit and only the rest of it after. *)
Fixpoint iwalk (fuel : nat) (s : ist) (e : expr) : option (expr * ist) :=
  match fuel with
  | O => None
  | S n =>
    do (e1, s1) <- match e with
                   | ELet x a b => do (a', s1) <- iwalk n s a ; Some (ELet x a' b, s1)
                   | _ => Some (e, s)
                   end ;
    let (e2, s2) := inline_functions s1 e1 in
    match e2 with
    | ELet x a b => do (b', s3) <- iwalk n s2 b ; Some (ELet x a b', s3)
    | _ => do (l, s3) <- omapS (iwalk n) s2 (map snd (kids e2)) ; Some (rebuild e2 l, s3)
    end
  end.
(** inline.rs:10-24 [optimize]: one definition. *)
Definition inline_def (fuel : nat) (s : ist) (d : valdef) : option (valdef * ist) :=
  do (v, s1) <- iwalk fuel s (vd_value d) ;
  let found := match check_inlinable v false with Some c => Some c | None => check_small v end in
  Some (mkValDef (vd_name d) (vd_export d) (vd_ty d) v,
        match found with Some c => set_inl s1 (vd_name d) v c | None => s1 end).
(** [nn] and [nt] are the next name and type variable of the program's generators; the result has the new ones. *)
Definition inline_fuel (fuel nn nt : nat) (p : program) : option (program * (nat * nat)) :=
  do (ds, s) <- omapS (inline_def fuel) (mkIst nn nt []) (p_defs p) ;
  Some (mkProgram (p_types p) ds, (i_nn s, i_nt s)).
