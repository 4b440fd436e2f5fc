(** How source values and the values of generated code are related (C44). *)
From Verif Require Import SrcSem GenSpec FoldSpec GenFacts GenNames FoldOk EvalFacts IterateOk CompileStatic.
Set Implicit Arguments.

Definition tag (folded : bool) (k : ctor) : name := if folded then k_folded k else k_regular k.
Definition lams (ps : list (name * ty)) (e : expr) : expr := fold_right (fun p e => ELam [p] e) e ps.

Section Rel.
  Variable K : list (sym * ctor).        (* the constructors of the whole program *)
  Variable tys : stypes.                 (* its types *)

  (** States of the generator between items, and inside expressions. *)
  Record good (s : gst) : Prop := mkGood {
    gd_below : below s;
    gd_ctors : forall c k, lookup c (g_ctors s) = Some k -> lookup c K = Some k;
    gd_types : forall y n cs, lookup y (g_names s) = Some n -> lookup n (g_tyctors s) = Some cs ->
        lookup y tys = Some (map (fun c => (k_sym c, match lookup (k_sym c) (g_fields s) with
                                                      | Some fs => map is_rec fs | None => [] end)) cs) /\
        (forall c, In c cs -> lookup (k_sym c) K = Some c);
    gd_known : forall n cs, lookup n (g_tyctors s) = Some cs -> n < g_nn s;
    gd_tvs : forall y, lookup y tys <> None -> lookup y (g_tvs s) = None }.

  (** What a body needs, besides its environment. *)
  Definition static (s : gst) (D : list sym) (e : sexpr) : Prop :=
    sscoped D e = true /\ NoDup (sbinders e) /\ (forall x, In x D -> ~ In x (sbinders e)) /\
    plain_folds e = true /\ (forall y, lookup y tys <> None -> ~ In y (etvars e)).

  Inductive vrel : sval -> value -> Prop :=
  | VR_int n : vrel (WInt n) (VInt n)
  | VR_bool b : vrel (WBool b) (VBool b)
  | VR_str s : vrel (WStr s) (VStr s)
  | VR_con f c k fs fs' : lookup c K = Some k -> vrels fs fs' -> vrel (WCon f c fs) (VComp (tag f k) fs')
  | VR_fun en en' x b n b' D s s' :
      gen_expr b s = Some (b', s') -> good s -> static s (x :: D) b -> lookup x (g_names s) = Some n ->
      (forall y, In y D -> y <> x /\ lookup y (g_names s) <> Some n) -> erel s D en en' ->
      vrel (WFun en x b) (VFn en' None [n] b')
  | VR_keep en en' x b fold temp real b' D s s' :
      gen_expr b s = Some (b', s') -> good s -> static s (x :: D) b -> lookup x (g_names s) = Some real ->
      (forall y m, In y D -> lookup y (g_names s) = Some m -> y <> x /\ m <> real /\ m <> temp /\ m <> fold) ->
      temp <> fold -> erel s D en en' ->
      vrel (WFun en x b) (VFn en' (Some fold) [temp] (ELet real (EName temp) b'))
  | VR_fold en en' x b fold temp real b' D s s' cs ts brs :
      gen_expr b s = Some (b', s') -> good s -> static s (x :: D) b -> lookup x (g_names s) = Some real ->
      (forall y m, In y D -> lookup y (g_names s) = Some m -> y <> x /\ m <> real /\ m <> temp /\ m <> fold) ->
      temp <> fold -> erel s D en en' ->
      Forall2 (fbranch fold ts) brs (fold_table s cs) -> (forall c, In c cs -> lookup (k_sym c) K = Some c) ->
      vrel (WFold (map (fun c => (k_sym c, match lookup (k_sym c) (g_fields s) with
                                           | Some fs => map is_rec fs | None => [] end)) cs) en x b)
           (VFn en' (Some fold) [temp] (ELet real (EMatch (EName temp) brs) b'))
  | VR_ctor c k ts got done p rest en' :
      lookup c K = Some k -> NoDup (done ++ map fst (p :: rest)) -> names_rel done got en' ->
      vrel (WCtor c (length done + S (length rest)) got)
           (VFn en' None [fst p] (lams rest (EConstruct (k_regular k) ts (map EName (done ++ map fst (p :: rest))))))
  | VR_op i got done p rest en' :
      length done + S (length rest) = op_arity i -> NoDup (done ++ map fst (p :: rest)) -> names_rel done got en' ->
      vrel (WOp i got) (VFn en' None [fst p] (lams rest (EIntr i (map EName (done ++ map fst (p :: rest))))))
  | VR_iter0 en' n f x go n2 x2 a :
      NoDup [n; f; x; go; n2; x2] ->
      vrel (WIter []) (iterate_val en' a n f x go n2 x2)
  | VR_iter1 en' n f x go n2 x2 a nv nv' b :
      NoDup [n; f; x; go; n2; x2] -> lookup n en' = Some nv' -> vrel nv nv' ->
      iterate_core a n f x go n2 x2 = EPi a (ELam [(n, TInt)] (ELam [(f, TFn [TVar a] (TVar a))] b)) ->
      vrel (WIter [nv]) (VFn en' None [f] b)
  | VR_iter2 en' n f x go n2 x2 a nv nv' fv fv' b :
      NoDup [n; f; x; go; n2; x2] -> lookup n en' = Some nv' -> vrel nv nv' -> lookup f en' = Some fv' -> vrel fv fv' ->
      iterate_core a n f x go n2 x2 = EPi a (ELam [(n, TInt)] (ELam [(f, TFn [TVar a] (TVar a))] (ELam [(x, TVar a)] b))) ->
      vrel (WIter [nv; fv]) (VFn en' None [x] b)
  with vrels : list sval -> list value -> Prop :=
  | vrels_nil : vrels [] []
  | vrels_cons v v' l l' : vrel v v' -> vrels l l' -> vrels (v :: l) (v' :: l')
  with names_rel : list name -> list sval -> env -> Prop :=
  | names_nil en' : names_rel [] [] en'
  | names_cons n v v' ns vs en' : lookup n en' = Some v' -> vrel v v' -> names_rel ns vs en' -> names_rel (n :: ns) (v :: vs) en'
  with erel : gst -> list sym -> senv -> env -> Prop :=
  | erel_nil s en en' : erel s [] en en'
  | erel_cons s x n v v' D en en' : lookup x (g_names s) = Some n -> lookup x en = Some v -> lookup n en' = Some v' ->
      vrel v v' -> erel s D en en' -> erel s (x :: D) en en'.

  Definition rrel (r : res sval) (r' : res value) : Prop :=
    match r, r' with
    | Ok v, Ok v' => vrel v v'
    | Trap m, Trap m' => m = m'
    | Panic, Panic => True
    | OutOfFuel, OutOfFuel => True
    | _, _ => False
    end.
End Rel.
