(** Properties of the optimisation passes: C09 - C14, C18.  [None] as the result of a pass is a Rust panic. *)
From Verif Require Import EvalFacts Orders Compile Wf Vm OptEv OptRel OptWalk OptGood OptPasses OptProg OptSmall OptMove OptDce OptMerge.

(** What is observed of running the program: the values, with functions opaque. *)
Definition observed (n : nat) (p : program) (exprs : list expr) : res (list obs) :=
  vs <- treewalk n p exprs ;; Ok (map obs_value vs).
Definition same_results (p p' : program) (exprs : list expr) : Prop :=
  forall n os, observed n p exprs = Ok os -> exists m, observed m p' exprs = Ok os.

Lemma kept_same p p' exprs : results_kept p p' exprs -> same_results p p' exprs.
Proof.
  intros H n os Ho. unfold observed in Ho. apply bind_ok in Ho as (vs & E & Ho). injection Ho as <-.
  destruct (H _ _ E) as (m & vs' & E' & <-). exists m. unfold observed. rewrite E'. reflexivity.
Qed.

(** C09.  Applying function literals keeps every result, and adds none. *)
Theorem C09_reduce_apply :
  forall (p p' : program) (exprs : list expr),
    wf_program p exprs = true -> reduce_apply p = Some p' ->
    same_results p p' exprs /\ same_results p' p exprs.
Proof. intros p p' exprs Hw H. destruct (@reduce_apply_ok p exprs p' (wf_ok _ _ Hw) H). split; apply kept_same; auto. Qed.
Print Assumptions C09_reduce_apply.

(** C10.  The same for applying type abstractions; this pass cannot panic. *)
Theorem C10_reduce_pi :
  forall (p p' : program) (exprs : list expr),
    wf_program p exprs = true -> reduce_pi p = Some p' ->
    same_results p p' exprs /\ same_results p' p exprs.
Proof. intros p p' exprs Hw H. destruct (@reduce_pi_ok p exprs p' (wf_ok _ _ Hw) H). split; apply kept_same; auto. Qed.
Print Assumptions C10_reduce_pi.
Theorem C10_reduce_pi_total : forall (p : program), exists p', reduce_pi p = Some p'.
Proof. exact reduce_pi_total. Qed.
Print Assumptions C10_reduce_pi_total.

(** C11.  Removing unused definitions and bindings always finishes, keeps the exported definitions (names,
    export names and types, in order) and the result of every expression over exported definitions. *)
Theorem C11_dce_results :
  forall (p p' : program) (exprs : list expr),
    wf_program p exprs = true ->
    (forall e x, In e exprs -> In x (fv e) -> exists d s, In d (p_defs p) /\ vd_name d = x /\ vd_export d = Some s) ->
    dce p = Some p' -> same_results p p' exprs.
Proof.
  intros p p' exprs Hw Hx H. apply kept_same. apply dce_ok; auto. { eapply wf_ok; eauto. }
  intros e x He Hf. destruct (Hx e x He Hf) as (d & s & Hd & <- & Es). apply in_map. apply filter_In. rewrite Es. auto.
Qed.
Print Assumptions C11_dce_results.
Theorem C11_dce_exports :
  forall (p : program), exists p', dce p = Some p' /\ p_types p' = p_types p /\
    map (fun d => (vd_name d, vd_export d, vd_ty d)) (filter (fun d => match vd_export d with Some _ => true | None => false end) (p_defs p')) =
    map (fun d => (vd_name d, vd_export d, vd_ty d)) (filter (fun d => match vd_export d with Some _ => true | None => false end) (p_defs p)).
Proof. intros p. destruct (dce_total p) as [p' H]. exists p'. destruct (dce_exports p H). auto. Qed.
Print Assumptions C11_dce_exports.

(** C12.  Replacing a name by its definition at its only use. *)
Theorem C12_inline_simple :
  forall (p p' : program) (exprs : list expr),
    wf_program p exprs = true -> inline_simple p = Some p' -> same_results p p' exprs.
Proof. intros p p' exprs Hw H. apply kept_same. eapply inline_simple_ok; eauto. eapply wf_ok; eauto. Qed.
Print Assumptions C12_inline_simple.
Theorem C12_inline_simple_total : forall (p : program), exists p', inline_simple p = Some p'.
Proof. exact inline_simple_total. Qed.
Print Assumptions C12_inline_simple_total.

(** C13.  Moving the first binding of a curried recursive function under its next parameters; no panic if
    recursive definitions are functions directly, as the code generator makes them. *)
Theorem C13_move_match :
  forall (p p' : program) (exprs : list expr),
    wf_program p exprs = true -> move_match p = Some p' -> same_results p p' exprs.
Proof. intros p p' exprs Hw H. apply kept_same. eapply move_match_ok; eauto. eapply wf_ok; eauto. Qed.
Print Assumptions C13_move_match.
Theorem C13_move_match_total :
  forall (p : program), forallb (fun d => plain_recs (vd_value d)) (p_defs p) = true -> exists p', move_match p = Some p'.
Proof. exact move_match_total. Qed.
Print Assumptions C13_move_match_total.
(** ... and the pass does panic on recursive definitions under type abstractions, which the verifier and all
    the runners accept. *)
Theorem C13_move_match_panics_refuted :
  exists (p : program) (exprs : list expr) (v : value),
    wf_program p exprs = true /\ treewalk 3 p exprs = Ok [v] /\ move_match p = None.
Proof.
  exists (mkProgram [] [mkValDef 1 (Some [97%N]) TInt
    (ELetRec 2 (TAbs 0 (TFn [TVar 0] (TVar 0))) (EPi 0 (ELam [(3, TVar 0)] (EName 3))) (ECall (EPiApp (EName 2) TInt) [EInt 5]))]), [EName 1], (VInt 5).
  vm_compute. auto.
Qed.
Print Assumptions C13_move_match_panics_refuted.

(** C14.  Fusing a match on a match whose branches end in different constructors, for programs in which no
    match has two branches for one constructor. *)
Fixpoint branches_distinct (e : expr) : bool :=
  match e with
  | EBool _ | EInt _ | EString _ | ETrap _ _ | EName _ => true
  | ECall f args => branches_distinct f && forallb branches_distinct args
  | EIf c t e => branches_distinct c && branches_distinct t && branches_distinct e
  | EOp a _ b => branches_distinct a && branches_distinct b
  | EIntr _ args => forallb branches_distinct args
  | ELam _ b => branches_distinct b
  | EMatch d brs => branches_distinct d && forallb (fun br => branches_distinct (snd br)) brs && nodupb (map (fun br => fst (fst br)) brs)
  | EConstruct _ _ fs => forallb branches_distinct fs
  | ELet _ v e | ELetRec _ _ v e => branches_distinct v && branches_distinct e
  | EPi _ e | EPiApp e _ => branches_distinct e
  end.
Lemma distinct_recs e : recs false e = true -> branches_distinct e = true -> recs true e = true.
Proof.
  assert (HL : forall es, Forall (fun e => recs false e = true -> branches_distinct e = true -> recs true e = true) es ->
    forallb (recs false) es = true -> forallb branches_distinct es = true -> forallb (recs true) es = true).
  { induction 1 as [|e0 es He _ IH]; simpl; auto. rewrite !andb_true_iff. intuition. }
  induction e using expr_ind'; cbn [recs branches_distinct]; rewrite ?andb_true_iff; auto; try (intuition; fail).
  intros [[H1 H2] _] [[D1 D2] D3]. repeat split; auto. rewrite forallb_forall in *. rewrite Forall_forall in H. auto.
Qed.

Theorem C14_merge_match :
  forall (p p' : program) (exprs : list expr),
    wf_program p exprs = true -> forallb (fun d => branches_distinct (vd_value d)) (p_defs p) = true ->
    merge_match p = Some p' -> same_results p p' exprs.
Proof.
  intros p p' exprs Hw Hd H. apply kept_same. eapply merge_match_ok; eauto; [eapply wf_ok; eauto|].
  destruct (wf_ok _ _ Hw) as (_ & _ & Hr). unfold distinct_branches. rewrite forallb_forall in *. intros d Hin. apply distinct_recs; auto.
Qed.
Print Assumptions C14_merge_match.

(** Without that condition, which neither the verifier nor the runners ask for, the result changes: the runners
    take the first of two branches, the pass the last one. *)
Definition ex_dup : program := mkProgram [mkTyDef 100 [] [(101, [])]]
  [mkValDef 1 (Some [97%N]) TInt
     (EMatch (EMatch (EConstruct 101 [] []) [((101, []), EConstruct 101 [] [])])
             [((101, []), EInt 1); ((101, []), EInt 2)])].
Theorem C14_duplicate_branches_refuted :
  exists (p p' : program) (exprs : list expr),
    wf_program p exprs = true /\ merge_match p = Some p' /\
    treewalk 1 p exprs = Ok [VInt 1] /\ treewalk 1 p' exprs = Ok [VInt 2].
Proof.
  exists ex_dup. eexists. exists [EName 1]. split; [reflexivity|]. split; [reflexivity|]. split; reflexivity.
Qed.
Print Assumptions C14_duplicate_branches_refuted.
(** A match that lacks a branch it never needs makes the pass panic. *)
Theorem C14_missing_branch_panics_refuted :
  exists (p : program) (exprs : list expr),
    wf_program p exprs = true /\ forallb (fun d => branches_distinct (vd_value d)) (p_defs p) = true /\
    treewalk 1 p exprs = Ok [VInt 1] /\ merge_match p = None.
Proof.
  exists (mkProgram [mkTyDef 100 [] [(101, []); (102, [])]]
    [mkValDef 1 (Some [97%N]) TInt
       (EMatch (EMatch (EConstruct 101 [] []) [((101, []), EConstruct 101 [] []); ((102, []), EConstruct 102 [] [])])
               [((101, []), EInt 1)])]), [EName 1].
  repeat split; reflexivity.
Qed.
Print Assumptions C14_missing_branch_panics_refuted.

(** C18.  A trap can be lost: an unused binding of a hole is removed.  The program is an exported definition
    [let x = ?hole; 7]. *)
Theorem C18_trap_lost_refuted :
  exists (p p' : program) (exprs : list expr) (m : bytes),
    wf_program p exprs = true /\ dce p = Some p' /\
    (forall n, treewalk n p exprs = Trap m) /\ (forall n, treewalk n p' exprs = Ok [VInt 7]).
Proof.
  exists (mkProgram [] [mkValDef 1 (Some [97%N]) TInt (ELet 2 (ETrap [104%N] TInt) (EInt 7))]).
  eexists. exists [EName 1], [104%N]. split; [reflexivity|]. split; [reflexivity|]. split; intros [|n]; reflexivity.
Qed.
Print Assumptions C18_trap_lost_refuted.
(** So is an unused definition, and inline_simple moves the trap behind a condition. *)
Theorem C18_trap_moved_refuted :
  exists (p p' : program) (exprs : list expr) (m : bytes),
    wf_program p exprs = true /\ inline_simple p = Some p' /\
    (forall n, treewalk n p exprs = Trap m) /\ (forall n, treewalk n p' exprs = Ok [VInt 7]).
Proof.
  exists (mkProgram [] [mkValDef 1 (Some [97%N]) TInt (ELet 2 (ETrap [104%N] TInt) (EIf (EBool true) (EInt 7) (EName 2)))]).
  eexists. exists [EName 1], [104%N]. split; [reflexivity|]. split; [reflexivity|]. split; intros [|n]; reflexivity.
Qed.
Print Assumptions C18_trap_moved_refuted.

(** A program on which each pass has something to do. *)
Definition ex_opt : program := mkProgram [mkTyDef 100 [] [(101, []); (102, [TInt])]]
  [mkValDef 1 None (TAbs 0 (TFn [TVar 0] (TVar 0))) (EPi 0 (ELam [(2, TVar 0)] (EName 2)));
   mkValDef 3 None TInt (EInt 30);
   mkValDef 4 (Some [97%N]) TInt
     (ELet 5 (EInt 2)
       (ECall (EPiApp (EPi 1 (ELam [(6, TInt); (7, TVar 1)]
                 (EOp (EName 6) Add (ECall (EPiApp (EName 1) TInt) [EName 5])))) TInt) [EInt 40; EInt 9]));
   mkValDef 8 (Some [98%N]) TInt
     (ELetRec 9 (TFn [TNamed 100 []] (TFn [TInt] TInt))
        (ELam [(10, TNamed 100 [])]
           (ELet 11 (EMatch (EName 10) [((101, []), EInt 1); ((102, [12]), EName 12)])
              (ELam [(13, TInt)] (EOp (EName 11) Multiply (EName 13)))))
        (ECall (ECall (EName 9) [EMatch (EConstruct 102 [] [EInt 5]) [((101, []), EConstruct 101 [] []); ((102, [14]), EConstruct 102 [] [EName 14])]]) [EInt 8]));
   mkValDef 15 (Some [99%N]) TInt
     (EMatch (EMatch (EConstruct 102 [] [EInt 5]) [((102, [16]), ELet 17 (EName 16) (EConstruct 102 [] [EOp (EName 17) Add (EInt 1)])); ((101, []), EConstruct 101 [] [])])
        [((101, []), EInt 0); ((102, [18]), EOp (EName 18) Multiply (EInt 7))])].
Definition ex_opt_exprs : list expr := [EName 4; EName 8; EName 15].
Example ex_opt_wf : wf_program ex_opt ex_opt_exprs = true /\ forallb (fun d => branches_distinct (vd_value d)) (p_defs ex_opt) = true /\
  forallb (fun d => plain_recs (vd_value d)) (p_defs ex_opt) = true.
Proof. repeat split. Qed.
Example ex_opt_runs : observed 3 ex_opt ex_opt_exprs = Ok [OInt 42; OInt 40; OInt 42].
Proof. reflexivity. Qed.
Definition changed (f : program -> option program) (p : program) : Prop := exists p', f p = Some p' /\ p' <> p.
Ltac changes := eexists; split; [vm_compute; reflexivity|intros E; vm_compute in E; discriminate E].
Example ex_pi : changed reduce_pi ex_opt. Proof. changes. Qed.
Example ex_apply : exists q, reduce_pi ex_opt = Some q /\ changed reduce_apply q. Proof. eexists; split; [vm_compute; reflexivity|changes]. Qed.
Example ex_dce : changed dce ex_opt. Proof. changes. Qed.
Example ex_inline_simple : changed inline_simple ex_opt. Proof. changes. Qed.
Example ex_move : changed move_match ex_opt. Proof. changes. Qed.
Example ex_merge : changed merge_match ex_opt. Proof. changes. Qed.
