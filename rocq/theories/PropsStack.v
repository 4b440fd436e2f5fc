(** Properties of the bytecode runner's stack: C02. *)
From Verif Require Import RunnerFacts Wf Vm CompileTotal RunnerCorrect Compile.
From Verif Require Import VerifyNames TypeSpec TypeSafeProg VerifyRuns PropsRunner PropsVerify.
From Verif Require Import StackSpec StackProg StackLoops.

(** The value stack of the bytecode machine after [n] instructions, [None] when it has stopped before. *)
Fixpoint stack_after (code : list mop) (n pc : nat) (st : stack) : option stack :=
  match n with
  | O => Some st
  | S k => match step code pc st with Next pc' st' => stack_after code k pc' st' | _ => None end
  end.
(** The machine code of a program. *)
Definition machine_code (p : program) (exprs : list expr) : option (list mop) :=
  match compile p exprs with Some is => link is | None => None end.

Lemma stack_after_steps code n : forall pc st st', stack_after code n pc st = Some st' ->
  exists pc', CompileCorrect.steps code n pc st pc' st'.
Proof.
  induction n as [|n IH]; simpl; intros pc st st' H.
  - injection H as <-. exists pc. constructor.
  - destruct (step code pc st) as [pc1 st1| | |] eqn:E; try discriminate.
    destruct (IH _ _ _ H) as [pc' H']. exists pc'. econstructor; eauto.
Qed.

(** C02.  The height of the value stack is at most a constant, which depends on the program text only,
    times the number of function activations that are nested in each other, where a call of a recursive
    function to itself in tail position ([self_call] in [StackSpec.eval_d]) is not a new activation. *)
Theorem C02_stack_bounded_by_nesting :
  forall (p : program) (exprs : list expr), wf_program p exprs = true ->
  exists code K, machine_code p exprs = Some code /\
    forall n st, run_o ArgsFirst n p exprs <> Panic -> stack_after code n 0 [] = Some st ->
      length st <= K * S (nesting n p exprs).
Proof.
  intros p exprs H. destruct (stack_bound p exprs H) as (is & code & K & Hc & Hl & Hb).
  exists code, K. unfold machine_code. rewrite Hc. split; auto.
  intros n st Hn Hs. destruct (@stack_after_steps _ _ _ _ _ Hs) as [pc Hp]. eapply Hb; eauto.
Qed.
Print Assumptions C02_stack_bounded_by_nesting.

(** The counting evaluator is the evaluator: it only adds the count. *)
Theorem C02_nesting_of_the_same_run :
  forall (n : nat) (p : program) (exprs : list expr), fst (run_d n p exprs) = run_o ArgsFirst n p exprs.
Proof. exact run_d_outcome. Qed.
Print Assumptions C02_nesting_of_the_same_run.

(** The same for programs the verifier accepts. *)
Theorem C02_verified_stack_bounded :
  forall (limit : nat) (p : program) (vals : list (expr * ty)),
  verified limit p vals = true -> plain_program p (map fst vals) = true ->
  exists code K, machine_code p (map fst vals) = Some code /\
    forall n st, stack_after code n 0 [] = Some st ->
      length st <= K * S (nesting n p (map fst vals)).
Proof.
  intros limit p vals Hv Hp.
  destruct (C02_stack_bounded_by_nesting p (map fst vals) (verified_plain_wf _ _ _ Hv Hp)) as (code & K & Hm & Hb).
  exists code, K. split; auto. intros n st. apply Hb. eapply verified_no_panic; eauto.
Qed.
Print Assumptions C02_verified_stack_bounded.

(** Loops run in constant stack: when the only calls inside function bodies are self tail calls, under
    any nesting of if, match and let, the stack stays below one bound for ever, whatever the number of
    iterations. *)
Theorem C02_loops_run_in_constant_stack :
  forall (limit : nat) (p : program) (vals : list (expr * ty)),
  verified limit p vals = true -> plain_program p (map fst vals) = true ->
  only_loops_program p (map fst vals) = true ->
  exists code B, machine_code p (map fst vals) = Some code /\
    forall n st, stack_after code n 0 [] = Some st -> length st <= B.
Proof.
  intros limit p vals Hv Hp Ho.
  destruct (C02_verified_stack_bounded _ _ _ Hv Hp) as (code & K & Hm & Hb).
  exists code, (K * 2). split; auto. intros n st Hs. pose proof (Hb n st Hs).
  pose proof (only_loops_nesting n p (map fst vals) Ho). nia.
Qed.
Print Assumptions C02_loops_run_in_constant_stack.

(** A loop with its self calls below if, let and match: [go n acc] adds up 1..n, written with a needless
    let, a constructor and a match.  The number of iterations is the argument. *)
Definition ex_sum (k : N) : list (expr * ty) :=
  [(ELetRec 10 (TFn [TInt; TInt] TInt)
      (ELam [(11, TInt); (12, TInt)]
         (EIf (EOp (EName 11) LessEq (EInt 0))
            (EName 12)
            (ELet 13 (EConstruct 101 [] [EOp (EName 11) Subtract (EInt 1); EOp (EName 12) Add (EName 11)])
               (EMatch (EName 13) [((101, [14; 15]), ECall (EName 10) [EName 14; EName 15])]))))
      (ECall (EName 10) [EInt k; EInt 0]), TInt)].
Definition ex_pair : program := mkProgram [mkTyDef 100 [] [(101, [TInt; TInt])]] [].
(** The same sum without the accumulator, whose self call is not in tail position. *)
Definition ex_deep (k : N) : list (expr * ty) :=
  [(ELetRec 10 (TFn [TInt] TInt)
      (ELam [(11, TInt)]
         (EIf (EOp (EName 11) LessEq (EInt 0))
            (EInt 0)
            (EOp (EName 11) Add (ECall (EName 10) [EOp (EName 11) Subtract (EInt 1)]))))
      (ECall (EName 10) [EInt k]), TInt)].

Definition highest (code : list mop) (n : nat) : nat :=
  fold_right (fun k m => match stack_after code k 0 [] with Some st => Nat.max (length st) m | None => m end) 0
    (seq 0 n).
Example C02_hypotheses_met :
  verified 1000 ex_pair (ex_sum 20) = true /\ plain_program ex_pair (map fst (ex_sum 20)) = true /\
  only_loops_program ex_pair (map fst (ex_sum 20)) = true /\
  bytecode 1000 ex_pair (map fst (ex_sum 20)) = Ok [OInt 210] /\
  nesting 1000 ex_pair (map fst (ex_sum 20)) = 1 /\
  verified 1000 ex_pair (ex_deep 20) = true /\ nesting 1000 ex_pair (map fst (ex_deep 20)) = 21 /\
  only_loops_program ex_pair (map fst (ex_deep 20)) = false.
Proof. vm_compute. repeat split. Qed.
Example C02_heights :
  (do code <- machine_code ex_pair (map fst (ex_sum 2)) ; Some (highest code 100)) =
  (do code <- machine_code ex_pair (map fst (ex_sum 20)) ; Some (highest code 500)) /\
  (do code <- machine_code ex_pair (map fst (ex_deep 20)) ; Some (highest code 500)) = Some 86.
Proof. vm_compute. split; reflexivity. Qed.
