(** Properties of the core verifier: C19, C20.  [verified limit p vals] is acceptance of the program [p]
    together with the expressions [vals] and their claimed types. *)
From Verif Require Import RunnerFacts Wf Vm Lambda LambdaProofs CompileTotal RunnerCorrect Compile.
From Verif Require Import VerifyNames TypeSpec TypeSafeProg VerifyRuns AlphaSpec AlphaProofs PropsRunner.
From Coq Require Import Permutation.

(** C19.  In an accepted program every name is used in the scope of its binder and no binder (definition,
    parameter, pattern variable, [let], [letrec]) is introduced twice. *)
Theorem C19_names_in_scope_and_distinct :
  forall (limit : nat) (p : program) (vals : list (expr * ty)),
    verified limit p vals = true ->
    scoped_defs [] (p_defs p) = true /\
    forallb (scoped (def_names (p_defs p))) (map fst vals) = true /\
    NoDup (all_binders p (map fst vals)).
Proof. exact verified_names. Qed.
Print Assumptions C19_names_in_scope_and_distinct.

(** C19.  Compilation to bytecode of an accepted program resolves every name and every label, provided
    recursive definitions are functions. *)
Theorem C19_bytecode_names_resolve :
  forall (limit : nat) (p : program) (vals : list (expr * ty)),
    verified limit p vals = true ->
    forallb (fun d => letrec_fns (vd_value d)) (p_defs p) && forallb letrec_fns (map fst vals) = true ->
    exists is code, compile p (map fst vals) = Some is /\ link is = Some code.
Proof.
  intros limit p vals A B. pose proof (verified_wf limit p vals A B) as W.
  destruct (compile_ok p (map fst vals) W) as (s2 & c2 & f2 & s3 & c3 & f3 & code & _ & _ & E1 & E2 & _). eauto.
Qed.
Print Assumptions C19_bytecode_names_resolve.

(** C19.  Together with the shape conditions an accepted program satisfies all well-formedness conditions
    under which the runners are proved to agree. *)
Theorem C19_well_formed :
  forall (limit : nat) (p : program) (vals : list (expr * ty)),
    verified limit p vals = true ->
    forallb (fun d => letrec_fns (vd_value d)) (p_defs p) && forallb letrec_fns (map fst vals) = true ->
    wf_program p (map fst vals) = true.
Proof. exact verified_wf. Qed.
Print Assumptions C19_well_formed.

(** The side condition is needed: the verifier does not look at the shape of recursive definitions, and
    the bytecode compiler fails on one that is not a function. *)
Theorem C19_letrec_not_function_refuted :
  exists (p : program) (vals : list (expr * ty)),
    verified 100 p vals = true /\ compile p (map fst vals) = None /\
    (forall n, treewalk n p (map fst vals) = Panic).
Proof.
  exists (mkProgram [] []), [(ELetRec 1 TInt (EOp (EName 1) Add (EInt 1)) (EInt 0), TInt)].
  repeat split. intros [|n]; reflexivity.
Qed.
Print Assumptions C19_letrec_not_function_refuted.

Definition ex_vals : list (expr * ty) := combine ex_exprs [TInt; TString; TNamed 100 []; TAbs 1 (TFn [TVar 1] (TVar 1))].
(* [ex_prog] uses one type variable name in both a definition's type and its value, which the verifier
   rejects: type variables must be distinct too. *)
Definition ex_vprog : program := mkProgram (p_types ex_prog)
  (match p_defs ex_prog with d :: r => mkValDef (vd_name d) (vd_export d) (TAbs 2 (TFn [TVar 2] (TVar 2))) (vd_value d) :: r | [] => [] end).
Example C19_hypotheses_met :
  verified 1000 ex_vprog ex_vals = true /\ verified 1000 ex_prog ex_vals = false /\
  verified 9 ex_vprog ex_vals = false /\
  forallb (fun d => letrec_fns (vd_value d)) (p_defs ex_vprog) && forallb letrec_fns (map fst ex_vals) = true /\
  plain_program ex_vprog (map fst ex_vals) = true /\ map fst ex_vals = ex_exprs.
Proof. vm_compute. auto 6. Qed.

(** C20.  An accepted program never goes wrong (no application of a non-function or with the wrong number
    of arguments, no branch on a non-boolean, no missing name or case), for any bound [n] on the number of
    nested calls and under both evaluation orders; and its values have the kind their type says.
    Partial: restricted to [plain_program], i.e. quantifiers only in prenex position and instantiated with
    types in scope and without quantifiers, matches listing all constructors, recursive definitions being
    functions and at most nine constructor fields.  Outside of it the claim is false, see below. *)
Theorem C20_no_wrong_kind_partial :
  forall (limit : nat) (p : program) (vals : list (expr * ty)) (o : order) (n : nat),
    verified limit p vals = true -> plain_program p (map fst vals) = true ->
    match run_o o n p (map fst vals) with
    | Ok vs => Forall2 (has_kind p) vs (map snd vals)
    | Panic => False
    | _ => True
    end.
Proof. exact verified_safe. Qed.
Print Assumptions C20_no_wrong_kind_partial.

(** C20 for the bytecode runner. *)
Theorem C20_bytecode_no_wrong_kind_partial :
  forall (limit : nat) (p : program) (vals : list (expr * ty)) (k : nat),
    verified limit p vals = true -> plain_program p (map fst vals) = true ->
    bytecode k p (map fst vals) <> Panic.
Proof. exact verified_bytecode_no_panic. Qed.
Print Assumptions C20_bytecode_no_wrong_kind_partial.

(** C01 and C03 without conditions on runs, for accepted plain programs. *)
Theorem C01_verified_programs_agree :
  forall (limit : nat) (p : program) (vals : list (expr * ty)),
    verified limit p vals = true -> plain_program p (map fst vals) = true ->
    forall os,
      (exists n vs, treewalk n p (map fst vals) = Ok vs /\ map obs_value vs = os) <->
      (exists k, bytecode k p (map fst vals) = Ok os).
Proof. exact verified_runs_agree. Qed.
Print Assumptions C01_verified_programs_agree.
Theorem C03_verified_programs_agree :
  forall (limit : nat) (p : program) (vals : list (expr * ty)) (ord : expr -> list name -> list name) (n : nat),
    verified limit p vals = true -> plain_program p (map fst vals) = true ->
    (forall e l, Permutation (ord e l) l) ->
    lambda_obs ord n p (map fst vals) = (vs <- treewalk n p (map fst vals) ;; Ok (map obs_value vs)).
Proof.
  intros limit p vals ord n A B Ho. apply lambda_correct; auto.
  - eapply verified_plain_wf; eauto.
  - exact (verified_no_panic limit p vals FnFirst n A B).
Qed.
Print Assumptions C03_verified_programs_agree.

Example C20_hypotheses_met :
  verified 1000 ex_vprog ex_vals = true /\ plain_program ex_vprog (map fst ex_vals) = true /\
  treewalk 4 ex_vprog (map fst ex_vals) =
    Ok [VInt 42; VStr [104; 105]%N; VComp 102 [VInt 1; VComp 102 [VInt 40; VComp 101 []]]; VFn [] None [2] (EName 2)] /\
  map snd ex_vals = [TInt; TString; TNamed 100 []; TAbs 1 (TFn [TVar 1] (TVar 1))] /\
  verified 1000 ex_vprog [(EIf (EInt 1) (EInt 2) (EInt 3), TInt)] = false.
Proof. vm_compute. auto 6. Qed.

(** C20 in full is false.  Witness 1: matches need not be exhaustive. *)
Theorem C20_missing_case_refuted :
  exists (p : program) (vals : list (expr * ty)),
    verified 1000 p vals = true /\ (forall n, treewalk n p (map fst vals) = Panic).
Proof.
  exists (mkProgram [mkTyDef 1 [] [(2, []); (3, [])]] []),
    [(EMatch (EConstruct 2 [] []) [((3, []), EInt 1)], TInt)].
  split; [reflexivity|]. intros [|n]; reflexivity.
Qed.
Print Assumptions C20_missing_case_refuted.

(** Witness 2: instantiating a quantified type with a quantified type lets [replace] capture a variable;
    the number 5 is applied to 0 in a program whose matches and recursive definitions are fine. *)
Definition cap_prog : program := mkProgram []
  [mkValDef 1 None (TAbs 50 (TFn [TVar 50] (TVar 50))) (EPi 51 (ELam [(2, TVar 51)] (EName 2)));
   mkValDef 3 None (TAbs 52 (TFn [TFn [TVar 52] TInt] (TAbs 53 (TFn [TVar 52] TInt))))
     (EPi 54 (ELam [(4, TFn [TVar 54] TInt)]
        (ECall (EPiApp (EName 1) (TAbs 60 (TFn [TVar 54] TInt))) [EPi 55 (EName 4)])));
   mkValDef 5 None (TAbs 56 (TFn [TFn [TVar 56] TInt] TInt))
     (EPi 60 (ELam [(6, TFn [TVar 60] TInt)]
        (ECall (EPiApp (ECall (EPiApp (EName 3) (TVar 60)) [EName 6]) TInt) [EInt 5])))].
Definition cap_vals : list (expr * ty) :=
  [(ECall (EPiApp (EName 5) (TFn [TInt] TInt)) [ELam [(7, TFn [TInt] TInt)] (ECall (EName 7) [EInt 0])], TInt)].
Theorem C20_capture_refuted :
  exists (p : program) (vals : list (expr * ty)),
    verified 1000 p vals = true /\ wf_program p (map fst vals) = true /\
    (forall n, 4 <= n -> treewalk n p (map fst vals) = Panic).
Proof.
  exists cap_prog, cap_vals. split; [reflexivity|]. split; [reflexivity|].
  intros n H. do 4 (destruct n as [|n]; [lia|]). reflexivity.
Qed.
Print Assumptions C20_capture_refuted.

(** C20, type comparison.  It accepts all pairs of alpha-equivalent types. *)
Theorem C20_fits_accepts_alpha_equivalent :
  forall a b : ty, alpha [] a b -> fits a b = true.
Proof. exact fits_alpha_complete. Qed.
Print Assumptions C20_fits_accepts_alpha_equivalent.
(** It accepts only alpha-equivalent types, if all binders of the two types are distinct from each other and
    from the free variables. *)
Theorem C20_fits_only_alpha_equivalent_partial :
  forall a b : ty,
    NoDup (ty_binders a ++ ty_binders b) ->
    (forall x, In x (ty_binders a ++ ty_binders b) -> ~ ty_free x a /\ ~ ty_free x b) ->
    fits a b = true -> alpha [] a b.
Proof. exact fits_alpha_sound. Qed.
Print Assumptions C20_fits_only_alpha_equivalent_partial.
(** Without the condition it accepts different types: [forall a b. a] and [forall b a. a]. *)
Theorem C20_fits_not_alpha_refuted :
  exists a b : ty, fits a b = true /\ ~ alpha [] a b.
Proof.
  exists (TAbs 0 (TAbs 1 (TVar 0))), (TAbs 1 (TAbs 0 (TVar 0))). split; [reflexivity|].
  intros H. 
  repeat match goal with H : alpha _ _ _ |- _ => inversion H; clear H; subst end.
  simpl in *. intuition (subst; lia || discriminate).
Qed.
Print Assumptions C20_fits_not_alpha_refuted.
Example C20_fits_hypotheses_met :
  let a := TAbs 0 (TFn [TVar 0; TVar 9] (TAbs 1 (TNamed 7 [TVar 1; TVar 0]))) in
  let b := TAbs 2 (TFn [TVar 2; TVar 9] (TAbs 3 (TNamed 7 [TVar 3; TVar 2]))) in
  alpha [] a b /\ fits a b = true /\ NoDup (ty_binders a ++ ty_binders b) /\
  (forall x, In x (ty_binders a ++ ty_binders b) -> ~ ty_free x a /\ ~ ty_free x b) /\
  fits a (TAbs 2 (TFn [TVar 2; TVar 9] (TAbs 3 (TNamed 7 [TVar 2; TVar 3])))) = false.
Proof.
  cbv zeta. split; [|split; [reflexivity|split; [|split; [|reflexivity]]]].
  - repeat (match goal with |- alpha _ (TVar _) _ => apply a_var; simpl; lia | _ => constructor end).
  - simpl. repeat (constructor; [simpl; lia|]). constructor.
  - intros x Hx. assert (x <> 9) by (simpl in Hx; lia). clear Hx.
    assert (Q : forall u v, ~ ty_free x (TAbs u (TFn [TVar u; TVar 9] (TAbs v (TNamed 7 [TVar v; TVar u]))))).
    { intros u v HF. inversion HF as [| | | |? ? H1 H2]; subst.
      inversion H2 as [| |? ? ? I1 I2|? ? I1|]; subst.
      - destruct I1 as [<-|[<-|[]]]; inversion I2; congruence.
      - inversion I1 as [| | | |? ? J1 J2]; subst. inversion J2 as [|? ? ? K1 K2| | |]; subst.
        destruct K1 as [<-|[<-|[]]]; inversion K2; congruence. }
    split; apply Q.
Qed.
