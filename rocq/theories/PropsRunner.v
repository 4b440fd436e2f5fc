(** Properties of the runners: C01. *)
From Verif Require Import EvalFacts Orders Wf Vm RunnerFacts.

(** C01.  If the tree-walking runner yields values, the bytecode runner terminates and yields values
    that print the same ([obs_value] is the whole value with functions opaque). *)
Theorem C01_bytecode_agrees :
  forall (p : program) (exprs : list expr) (n : nat) (vs : list value),
    wf_program p exprs = true ->
    treewalk n p exprs = Ok vs ->
    exists k, forall k', k <= k' -> bytecode k' p exprs = Ok (map obs_value vs).
Proof. exact bytecode_agrees. Qed.
Print Assumptions C01_bytecode_agrees.

(** C01, converse.  If the bytecode runner yields values then so does the tree-walker, and the same
    ones.  [run_o ArgsFirst k p exprs <> Panic] says the program does not go wrong (apply a non-function
    and so on), which holds of programs accepted by the verifier. *)
Theorem C01_bytecode_sound :
  forall (p : program) (exprs : list expr) (k : nat) (os : list obs),
    wf_program p exprs = true ->
    bytecode k p exprs = Ok os ->
    run_o ArgsFirst k p exprs <> Panic ->
    exists vs, treewalk k p exprs = Ok vs /\ map obs_value vs = os.
Proof. exact bytecode_sound. Qed.
Print Assumptions C01_bytecode_sound.

(** C01, traps.  When every callee is a name or a function literal (under type abstraction), the two
    runners stop with the same trap message. *)
Theorem C01_traps_agree_partial :
  forall (p : program) (exprs : list expr) (n : nat) (m : bytes),
    wf_program p exprs = true -> atomic_program p exprs = true ->
    treewalk n p exprs = Trap m ->
    exists k, forall k', k <= k' -> bytecode k' p exprs = Trap m.
Proof. exact bytecode_traps. Qed.
Print Assumptions C01_traps_agree_partial.

(** C01, divergence: for the same programs, if the tree-walker never stops, neither does the VM. *)
Theorem C01_divergence_agrees_partial :
  forall (p : program) (exprs : list expr),
    wf_program p exprs = true -> atomic_program p exprs = true ->
    (forall n, treewalk n p exprs = OutOfFuel) ->
    forall k, bytecode k p exprs = OutOfFuel.
Proof. exact bytecode_diverges. Qed.
Print Assumptions C01_divergence_agrees_partial.

(** A program for the examples: an exported recursive [sum] over a list-like type, a closure over a
    top-level definition, strings and a type-polymorphic identity. *)
Definition ex_prog : program := mkProgram
  [mkTyDef 100 [] [(101, []); (102, [TInt; TNamed 100 []])]]
  [mkValDef 1 None (TAbs 0 (TFn [TVar 0] (TVar 0))) (EPi 0 (ELam [(2, TVar 0)] (EName 2)));
   mkValDef 3 (Some [115%N]) (TFn [TNamed 100 []; TInt] TInt)
     (ELetRec 4 (TFn [TNamed 100 []; TInt] TInt)
        (ELam [(5, TNamed 100 []); (6, TInt)]
           (EMatch (EName 5)
              [((101, []), EName 6);
               ((102, [7; 8]), ECall (EName 4) [EName 8; EOp (EName 6) Add (EName 7)])]))
        (EName 4));
   mkValDef 9 None TInt (EInt 40)].
Definition ex_list : expr :=
  EConstruct 102 [] [EInt 1; EConstruct 102 [] [EName 9; EConstruct 101 [] []]].
Definition ex_exprs : list expr :=
  [ECall (EPiApp (EName 1) TInt) [ECall (EName 3) [ex_list; EInt 1]];
   EIntr StringConcat [EString [104%N]; EString [105%N]]; ex_list; EName 1].

Example C01_hypotheses_met :
  wf_program ex_prog ex_exprs = true /\ atomic_program ex_prog ex_exprs = true /\
  (exists vs, treewalk 4 ex_prog ex_exprs = Ok vs /\
              map obs_value vs = [OInt 42; OString [104; 105]%N;
                                  OComp 102 [OInt 1; OComp 102 [OInt 40; OComp 101 []]]; OFn]) /\
  run_o ArgsFirst 200 ex_prog ex_exprs <> Panic /\
  bytecode 200 ex_prog ex_exprs = Ok [OInt 42; OString [104; 105]%N;
                                  OComp 102 [OInt 1; OComp 102 [OInt 40; OComp 101 []]]; OFn].
Proof. vm_compute. repeat split; eauto. discriminate. Qed.

(** A diverging program: [letrec f = \x -> f x in f 1]. *)
Definition ex_loop : list expr :=
  [ELetRec 1 (TFn [TInt] TInt) (ELam [(2, TInt)] (ECall (EName 1) [EName 2])) (ECall (EName 1) [EInt 1])].
Example C01_divergence_hypotheses_met :
  wf_program (mkProgram [] []) ex_loop = true /\ atomic_program (mkProgram [] []) ex_loop = true /\
  (forall n, treewalk n (mkProgram [] []) ex_loop = OutOfFuel).
Proof.
  split; [reflexivity|split; [reflexivity|]]. intros n. unfold treewalk, run_o. simpl eval_defs_o. cbn [bind].
  unfold ex_loop. rewrite mapM_cons.
  assert (H : forall k v,
     eval_o FnFirst k (call_env [] (Some 1) [2] (ECall (EName 1) [EName 2]) [v]) (ECall (EName 1) [EName 2]) = OutOfFuel).
  { induction k as [|k IH]; intros v; [reflexivity|]. exact (IH v). }
  destruct n as [|n]; [reflexivity|]. change (bind (eval_o FnFirst n (call_env [] (Some 1) [2] (ECall (EName 1) [EName 2]) [VInt 1]) (ECall (EName 1) [EName 2])) (fun v => Ok [v]) = OutOfFuel).
  rewrite H. reflexivity.
Qed.

(** C01 as stated for traps is false in general: when callee and argument both trap, the tree-walker
    reports the callee's message and the bytecode runner the argument's. *)
Theorem C01_trap_message_refuted :
  exists (p : program) (exprs : list expr) (m m' : bytes),
    wf_program p exprs = true /\ m <> m' /\
    (forall n, treewalk n p exprs = Trap m) /\
    (forall k, 2 <= k -> bytecode k p exprs = Trap m').
Proof.
  exists (mkProgram [] []), [ECall (ETrap [97%N] (TFn [TInt] TInt)) [ETrap [98%N] TInt]], [97%N], [98%N].
  split; [reflexivity|]. split; [discriminate|]. split.
  - intros [|n]; reflexivity.
  - intros k Hk. destruct k as [|[|k]]; try lia. reflexivity.
Qed.
Print Assumptions C01_trap_message_refuted.
