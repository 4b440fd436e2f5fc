(** Properties of the closure-compiling runner: C03. *)
From Verif Require Import EvalFacts Wf Vm Lambda LambdaProofs.
From Coq Require Import Permutation.

(** Results with functions made opaque. *)
Definition treewalk_obs (n : nat) (p : program) (exprs : list expr) : res (list obs) :=
  vs <- treewalk n p exprs ;; Ok (map obs_value vs).

(** C03.  Whatever order the sets of captured names are iterated in, the lambda runner ends with the same
    values, the same trap, or runs on exactly when the tree-walker does, call depth for call depth.
    [treewalk n p exprs <> Panic] says the program does not go wrong. *)
Theorem C03_lambda_agrees :
  forall (ord : expr -> list name -> list name) (p : program) (exprs : list expr) (n : nat),
    (forall e l, Permutation (ord e l) l) ->
    wf_program p exprs = true ->
    treewalk n p exprs <> Panic ->
    lambda_obs ord n p exprs = treewalk_obs n p exprs.
Proof. intros ord p exprs n Ho Hw Hp. exact (lambda_correct ord p exprs n Ho Hw Hp). Qed.
Print Assumptions C03_lambda_agrees.

(** C03, compilation.  The first phase never panics on a well-formed expression (unresolved names, the
    assertions about the resolver's stack) and leaves no name behind. *)
Theorem C03_lambda_compiles :
  forall (ord : expr -> list name -> list name) (known : list (name * lval)) (e : expr),
    (forall e l, Permutation (ord e l) l) ->
    scoped (map fst known) e = true -> NoDup (binders e) ->
    (forall x, In x (binders e) -> ~ In x (map fst known)) ->
    shape None false e = true ->
    exists code, lcompile ord e (mkRes [] [] known) = Some (code, mkRes [] [] known).
Proof.
  intros ord known e Ho H1 H2 H3 H4.
  apply (@lcompile_total ord Ho e None false [] known); auto using NoDup_nil. repeat split; auto.
Qed.
Print Assumptions C03_lambda_compiles.

(** Both orders of the captured names [x] and [y] are met: a curried recursive function capturing two
    outer locals, called twice; then a program that traps. *)
Definition c03_prog : program := mkProgram [] [mkValDef 1 None TInt (EInt 7)].
Definition c03_exprs : list expr :=
  [ELet 2 (EInt 10) (ELet 3 (EInt 20)
     (ELetRec 4 (TFn [TInt] TInt)
        (ELam [(5, TInt)]
           (EIf (EOp (EName 5) Equal (EInt 0)) (EOp (EName 2) Add (EOp (EName 3) Add (EName 1)))
              (ECall (EName 4) [EOp (EName 5) Subtract (EInt 1)])))
        (ECall (ELam [(6, TInt)] (EOp (EName 6) Multiply (EName 3))) [ECall (EName 4) [EInt 3]])))].
Example C03_hypotheses_met :
  wf_program c03_prog c03_exprs = true /\ treewalk 6 c03_prog c03_exprs = Ok [VInt 740] /\
  lambda_obs (fun _ l => l) 6 c03_prog c03_exprs = Ok [OInt 740] /\
  lambda_obs (fun _ l => rev l) 6 c03_prog c03_exprs = Ok [OInt 740] /\
  lambda_obs (fun _ l => l) 1 c03_prog [ECall (ETrap [97%N] (TFn [TInt] TInt)) [ETrap [98%N] TInt]] = Trap [97%N] /\
  (forall (e : expr) (l : list name), Permutation (rev l) l).
Proof. repeat split. intros e l. apply Permutation_sym, Permutation_rev. Qed.
