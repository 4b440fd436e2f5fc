(** C58: types have no effect on a run. *)
From Coq Require Import Permutation.
From Verif Require Import EvalFacts Orders Compile CompileStatic Wf Vm Lambda LambdaProofs Verify VerifyNames VerifyLimit RunnerFacts RunnerCorrect OptEv OptRel OptGood OptWalk OptPasses OptProg Erase PropsOpt PropsRunner PropsLambda.

(** Specification: two expressions that differ in nothing but types: in the types written in them, and in what they
    abstract over or apply to types. *)
Fixpoint function (e : expr) : Prop := match e with ELam _ _ => True | EPi _ e => function e | _ => False end.
Inductive same_code : expr -> expr -> Prop :=
| SC_bool b : same_code (EBool b) (EBool b)
| SC_int i : same_code (EInt i) (EInt i)
| SC_string s : same_code (EString s) (EString s)
| SC_name x : same_code (EName x) (EName x)
| SC_call f f' xs xs' : same_code f f' -> Forall2 same_code xs xs' -> same_code (ECall f xs) (ECall f' xs')
| SC_intr i xs xs' : Forall2 same_code xs xs' -> same_code (EIntr i xs) (EIntr i xs')
| SC_if a b c a' b' c' : same_code a a' -> same_code b b' -> same_code c c' -> same_code (EIf a b c) (EIf a' b' c')
| SC_op o a b a' b' : same_code a a' -> same_code b b' -> same_code (EOp a o b) (EOp a' o b')
| SC_lam ps ps' b b' : map fst ps = map fst ps' -> same_code b b' -> same_code (ELam ps b) (ELam ps' b')
| SC_match d d' bs bs' : same_code d d' -> Forall2 (fun x y => fst x = fst y /\ same_code (snd x) (snd y)) bs bs' -> same_code (EMatch d bs) (EMatch d' bs')
| SC_construct c ts ts' xs xs' : Forall2 same_code xs xs' -> same_code (EConstruct c ts xs) (EConstruct c ts' xs')
| SC_let x a b a' b' : same_code a a' -> same_code b b' -> same_code (ELet x a b) (ELet x a' b')
| SC_letrec x t t' a b a' b' : function a -> function a' -> same_code a a' -> same_code b b' -> same_code (ELetRec x t a b) (ELetRec x t' a' b')
| SC_trap m t t' : same_code (ETrap m t) (ETrap m t')
| SC_pi_left v e e' : same_code e e' -> same_code (EPi v e) e'
| SC_pi_right v e e' : same_code e e' -> same_code e (EPi v e')
| SC_app_left t e e' : same_code e e' -> same_code (EPiApp e t) e'
| SC_app_right t e e' : same_code e e' -> same_code e (EPiApp e' t).

Lemma params_er : forall (ps ps' : list (name * ty)), map fst ps = map fst ps' -> map (fun p => (fst p, TInt)) ps = map (fun p => (fst p, TInt)) ps'.
Proof. induction ps as [|p ps IH]; intros [|q ps'] H; cbn in *; try discriminate; auto. injection H as E H. f_equal; [congruence|auto]. Qed.
Lemma function_strip e : function e -> exists ps b, strip_pis e = ELam ps b.
Proof. induction e; cbn; try tauto; eauto. Qed.
Lemma code_er : forall e e', same_code e e' -> er e = er e'.
Proof.
  fix IH 3. intros e e' H. destruct H; cbn [er]; auto.
  - f_equal; auto. revert H0. clear H. revert xs xs'. fix F 3. intros xs xs' H0. destruct H0; cbn; f_equal; auto.
  - f_equal. revert H. revert xs xs'. fix F 3. intros xs xs' H0. destruct H0; cbn; f_equal; auto.
  - f_equal; auto.
  - f_equal; auto.
  - f_equal; auto using params_er.
  - f_equal; auto. revert H0. clear H. revert bs bs'. fix F 3. intros xs xs' H0. destruct H0 as [|x y l l' [E1 E2] E3]; cbn; f_equal; auto. f_equal; auto.
  - f_equal. revert H. revert xs xs'. fix F 3. intros xs xs' H0. destruct H0; cbn; f_equal; auto.
  - f_equal; auto.
  - destruct (function_strip _ H) as (ps & b1 & ->), (function_strip _ H0) as (qs & b2 & ->). f_equal; auto.
Qed.

(** C58.  Two programs whose definitions, and two lists of expressions which, differ in nothing but types end with
    the same results, in the same trap or in a crash, or run on, call depth for call depth. *)
Theorem C58_types_do_not_matter :
  forall (p p' : program) (exprs exprs' : list expr) (n : nat),
    Forall2 (fun d d' => vd_name d = vd_name d' /\ same_code (vd_value d) (vd_value d')) (p_defs p) (p_defs p') ->
    Forall2 same_code exprs exprs' ->
    observed n p exprs = observed n p' exprs'.
Proof.
  intros p p' exprs exprs' n HD HE.
  assert (D : forall ds ds', Forall2 (fun d d' => vd_name d = vd_name d' /\ same_code (vd_value d) (vd_value d')) ds ds' -> forall en en', er_env en' = er_env en ->
    rmap er_env (eval_defs_o FnFirst n en' ds') = rmap er_env (eval_defs_o FnFirst n en ds)).
  { induction 1 as [|d d' ds ds' [E1 E2] _ IH]; intros en en' E; cbn [eval_defs_o]; [cbn; congruence|].
    assert (V : rmap er_v (eval_o FnFirst n en' (vd_value d')) = rmap er_v (eval_o FnFirst n en (vd_value d))) by (apply same_ev; auto; symmetry; apply code_er; auto).
    destruct (eval_o FnFirst n en' (vd_value d')), (eval_o FnFirst n en (vd_value d)); cbn in V |- *; try congruence. apply IH. injection V as V. unfold er_env in *. cbn. congruence. }
  assert (X : forall en en', er_env en' = er_env en -> rmap (map er_v) (mapM (eval_o FnFirst n en') exprs') = rmap (map er_v) (mapM (eval_o FnFirst n en) exprs)).
  { intros en en' E. clear D HD. induction HE as [|e e' l l' E1 _ IH]; auto. rewrite !mapM_cons.
    assert (V : rmap er_v (eval_o FnFirst n en' e') = rmap er_v (eval_o FnFirst n en e)) by (apply same_ev; auto; symmetry; apply code_er; auto).
    destruct (eval_o FnFirst n en' e'), (eval_o FnFirst n en e); cbn in V |- *; try congruence.
    destruct (mapM (eval_o FnFirst n en') l'), (mapM (eval_o FnFirst n en) l); cbn in IH |- *; congruence. }
  assert (S : rmap (map er_v) (treewalk n p' exprs') = rmap (map er_v) (treewalk n p exprs)).
  { unfold treewalk, run_o. specialize (D _ _ HD [] [] eq_refl). destruct (eval_defs_o FnFirst n [] (p_defs p')), (eval_defs_o FnFirst n [] (p_defs p)); cbn in D |- *; try congruence. apply X. congruence. }
  assert (Q : forall vs, map obs_value vs = map obs_value (map er_v vs)) by (intros vs; rewrite map_map; apply map_ext; intros; symmetry; apply obs_er).
  unfold observed. destruct (treewalk n p' exprs') as [us| | |], (treewalk n p exprs) as [vs| | |]; cbn in S |- *; congruence.
Qed.
Print Assumptions C58_types_do_not_matter.

(** The bytecode runner likewise gives the results of one of them for the other. *)
Theorem C58_bytecode :
  forall (p p' : program) (exprs exprs' : list expr) (n : nat) (os : list obs),
    wf_program p' exprs' = true ->
    Forall2 (fun d d' => vd_name d = vd_name d' /\ same_code (vd_value d) (vd_value d')) (p_defs p) (p_defs p') ->
    Forall2 same_code exprs exprs' ->
    observed n p exprs = Ok os -> exists k, forall k', k <= k' -> bytecode k' p' exprs' = Ok os.
Proof.
  intros p p' exprs exprs' n os Hw HD HE H. rewrite (@C58_types_do_not_matter p p' exprs exprs' n HD HE) in H.
  unfold observed in H. destruct (treewalk n p' exprs') as [vs| | |] eqn:E; try discriminate. injection H as <-.
  eapply C01_bytecode_agrees; eauto.
Qed.
Print Assumptions C58_bytecode.

(** The closure-compiling runner, whatever order it takes captured names in, ends with the same for both. *)
Theorem C58_lambda :
  forall (ord : expr -> list name -> list name) (p p' : program) (exprs exprs' : list expr) (n : nat),
    (forall e l, Permutation (ord e l) l) -> wf_program p exprs = true -> wf_program p' exprs' = true ->
    Forall2 (fun d d' => vd_name d = vd_name d' /\ same_code (vd_value d) (vd_value d')) (p_defs p) (p_defs p') ->
    Forall2 same_code exprs exprs' ->
    treewalk n p exprs <> Panic -> lambda_obs ord n p exprs = lambda_obs ord n p' exprs'.
Proof.
  intros ord p p' exprs exprs' n Ho Hw Hw' HD HE H. pose proof (@C58_types_do_not_matter p p' exprs exprs' n HD HE) as E.
  assert (H' : treewalk n p' exprs' <> Panic).
  { intros E'. unfold observed in E. rewrite E' in E. destruct (treewalk n p exprs); cbn in E; congruence. }
  rewrite (@C03_lambda_agrees ord p exprs n Ho Hw H), (@C03_lambda_agrees ord p' exprs' n Ho Hw' H'). exact E.
Qed.
Print Assumptions C58_lambda.

(** A generic identity and its use at [int], against the same code without type abstractions. *)
Example C58_example :
  let ds := [mkValDef 1 None (TAbs 0 (TFn [TVar 0] (TVar 0))) (EPi 0 (ELam [(2, TVar 0)] (EName 2))); mkValDef 3 (Some [97%N]) TInt (ECall (EPiApp (EName 1) TInt) [EInt 5])] in
  let es := [mkValDef 1 None (TFn [TInt] TInt) (ELam [(2, TInt)] (EName 2)); mkValDef 3 (Some [97%N]) TInt (ECall (EName 1) [EInt 5])] in
  Forall2 (fun d d' => vd_name d = vd_name d' /\ same_code (vd_value d) (vd_value d')) ds es /\ observed 3 (mkProgram [] ds) [EName 3] = Ok [OInt 5] /\ wf_program (mkProgram [] es) [EName 3] = true.
Proof. cbn zeta. split; [repeat constructor|]. split; reflexivity. Qed.
