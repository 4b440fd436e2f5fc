(** C18: what optimization does keep of traps. *)
From Verif Require Import EvalFacts Orders Compile CompileStatic Wf Vm Lambda LambdaProofs Verify VerifyNames VerifyLimit RunnerFacts RunnerCorrect
  OptEv OptRel OptWalk OptGood OptPasses OptProg OptDce OptInline OptInlineOk OptSaturate OptSatDefs OptAll OptAllOk Erase PropsOpt PropsInline PropsSaturate PropsRunner PropsLambda PropsOptAll.
Set Implicit Arguments.

(** The program ends: with these results, in a trap, or in a crash. *)
Definition gives (p : program) (exprs : list expr) (vs : list value) : Prop := exists n, treewalk n p exprs = Ok vs.
Definition traps (p : program) (exprs : list expr) : Prop := exists n m, treewalk n p exprs = Trap m.
Definition crashes (p : program) (exprs : list expr) : Prop := exists n, treewalk n p exprs = Panic.

Lemma ends_once p exprs n m r r' : treewalk n p exprs = r -> treewalk m p exprs = r' -> r <> OutOfFuel -> r' <> OutOfFuel -> r = r'.
Proof.
  intros E E' H H'. destruct (Nat.le_ge_cases n m) as [L|L].
  - destruct (@run_mono FnFirst _ _ p exprs L) as [F|F]; unfold treewalk in *; congruence.
  - destruct (@run_mono FnFirst _ _ p exprs L) as [F|F]; unfold treewalk in *; congruence.
Qed.
Lemma gives_obs p exprs n os : observed n p exprs = Ok os <-> exists vs, treewalk n p exprs = Ok vs /\ map obs_value vs = os.
Proof.
  unfold observed. destruct (treewalk n p exprs) as [vs| | |]; cbn; split; try discriminate; try (intros (? & ? & ?); discriminate).
  - intros [= <-]. eauto.
  - intros (? & [= <-] & <-). auto.
Qed.
Lemma gives_kept p p' exprs vs : same_results p p' exprs -> gives p exprs vs -> exists vs', gives p' exprs vs' /\ map obs_value vs' = map obs_value vs.
Proof.
  intros S [n E]. destruct (S n (map obs_value vs)) as [m H]; [apply gives_obs; eauto|]. apply gives_obs in H as (vs' & H & O). exists vs'. split; auto. exists m. auto.
Qed.
Lemma not_other p exprs vs : gives p exprs vs -> ~ traps p exprs /\ ~ crashes p exprs.
Proof.
  intros [n E]. split; [intros (m & t & F)|intros (m & F)]; assert (G := @ends_once _ _ _ _ _ _ E F); specialize (G ltac:(discriminate) ltac:(discriminate)); discriminate.
Qed.

(** C18, the part that holds.  Optimization adds no trap (and no crash): a program that gave results over exported
    definitions gives the same ones, so it neither traps nor crashes.  Missing: the other direction, which is
    refuted in PropsOpt.v. *)
Theorem C18_no_trap_is_added_partial :
  forall (verify : state -> bool) (hash : state -> N) (fuel : nat) (opt : bool) (p p' : program) (nn nt nn' nt' : nat) (exprs : list expr),
    wf_program p exprs = true -> forallb (fun d => branches_distinct (vd_value d)) (p_defs p) = true ->
    (forall x, In x (names_used p) -> x < nn) ->
    (forall e, In e exprs -> over_exports p e) ->
    optimize_fuel verify hash fuel opt (p, (nn, nt)) = Some (p', (nn', nt')) ->
    traps p' exprs \/ crashes p' exprs -> forall vs, ~ gives p exprs vs.
Proof.
  intros verify hash fuel opt p p' nn nt nn' nt' exprs Hw Hd Hb He H T vs G.
  pose proof (@C17_optimize_results verify hash fuel opt p p' nn nt nn' nt' exprs Hw Hd Hb He H) as S.
  destruct (gives_kept S G) as (vs' & G' & _). destruct (not_other G'). tauto.
Qed.
Print Assumptions C18_no_trap_is_added_partial.

(** Applying literal functions and type abstractions does not lose one either: a program that trapped gives no
    results afterwards, and one that gives results afterwards gave them before. *)
Theorem C18_reductions_lose_no_trap_partial :
  forall (p p' : program) (exprs : list expr),
    wf_program p exprs = true -> reduce_apply p = Some p' \/ reduce_pi p = Some p' ->
    (traps p exprs \/ crashes p exprs -> forall vs, ~ gives p' exprs vs) /\
    (traps p' exprs \/ crashes p' exprs -> forall vs, ~ gives p exprs vs).
Proof.
  intros p p' exprs Hw H.
  assert (S : same_results p p' exprs /\ same_results p' p exprs) by (destruct H; [apply C09_reduce_apply|apply C10_reduce_pi]; auto).
  destruct S as [S S']. split; intros T vs G.
  - destruct (gives_kept S' G) as (vs' & G' & _). destruct (not_other G'). tauto.
  - destruct (gives_kept S G) as (vs' & G' & _). destruct (not_other G'). tauto.
Qed.
Print Assumptions C18_reductions_lose_no_trap_partial.

(** Reducing type applications changes nothing at all: the same results, traps and crashes, call depth for call depth. *)
Theorem C18_type_reduction_keeps_traps_partial :
  forall (p p' : program) (exprs : list expr) (n : nat),
    wf_program p exprs = true -> reduce_pi p = Some p' -> observed n p' exprs = observed n p exprs.
Proof.
  intros p p' exprs n Hw H. destruct (wf_ok _ _ Hw) as (_ & _ & R). pose proof (@reduce_pi_er FnFirst n p p' exprs R H) as E.
  unfold observed, treewalk. destruct (run_o FnFirst n p' exprs), (run_o FnFirst n p exprs); cbn in *; congruence.
Qed.
Print Assumptions C18_type_reduction_keeps_traps_partial.
Example type_reduction_example :
  let p := mkProgram [] [mkValDef 1 (Some [97%N]) TInt (EPiApp (EPi 0 (ETrap [104%N] (TVar 0))) TInt)] in
  wf_program p [EName 1] = true /\ exists p', reduce_pi p = Some p' /\ p_defs p' <> p_defs p /\ observed 1 p' [EName 1] = Trap [104%N].
Proof. cbn zeta. split; [reflexivity|]. eexists. split; [reflexivity|]. split; [discriminate|reflexivity]. Qed.

(** A program that traps, and still does when a literal function has been applied: [(\x -> #trap)(1)]. *)
Example traps_example :
  let p := mkProgram [] [mkValDef 1 (Some [97%N]) TInt (ECall (ELam [(2, TInt)] (ETrap [104%N] TInt)) [EInt 1])] in
  wf_program p [EName 1] = true /\ traps p [EName 1] /\ exists p', reduce_apply p = Some p' /\ traps p' [EName 1] /\ p_defs p' <> p_defs p.
Proof.
  cbn zeta. split; [reflexivity|]. split; [exists 3, [104%N]; reflexivity|]. eexists. split; [reflexivity|]. split; [exists 3, [104%N]; reflexivity|discriminate].
Qed.

(** A third pass that loses traps: move_match moves a trap of a partial application into the function that it returns.
    The program, which the verifier accepts, is an exported [let rec f = \x -> let y = ?hole; \z -> 1; let g = f 0; 7]. *)
Theorem C18_trap_delayed_refuted :
  exists (p p' : program) (exprs : list expr),
    verified 10 p [] = true /\ wf_program p exprs = true /\ move_match p = Some p' /\ traps p exprs /\ gives p' exprs [VInt 7].
Proof.
  exists (mkProgram [] [mkValDef 1 (Some [97%N]) TInt
    (ELetRec 2 (TFn [TInt] (TFn [TInt] TInt)) (ELam [(3, TInt)] (ELet 4 (ETrap [104%N] TInt) (ELam [(5, TInt)] (EInt 1))))
       (ELet 6 (ECall (EName 2) [EInt 0]) (EInt 7)))]).
  eexists. exists [EName 1]. split; [vm_compute; reflexivity|]. split; [reflexivity|]. split; [reflexivity|]. split; [exists 3, [104%N]; reflexivity|exists 3; reflexivity].
Qed.
Print Assumptions C18_trap_delayed_refuted.
