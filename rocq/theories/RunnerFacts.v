(** Consequences of [bytecode_correct] in terms of the tree-walking runner. *)
From Verif Require Import EvalFacts Orders Wf Vm CompileStatic CompileCorrect RunnerCorrect.
Set Implicit Arguments.

Lemma vm_run_mono code fuel : forall fuel' pc st, fuel <= fuel' -> lres (vm_run code fuel pc st) (vm_run code fuel' pc st).
Proof.
  induction fuel as [|fuel IH]; intros fuel' pc st H; [left; auto|].
  destruct fuel' as [|fuel']; [lia|]. simpl. destruct (step code pc st); try apply lres_refl.
  apply IH; lia.
Qed.
Lemma bytecode_mono k k' p exprs : k <= k' -> lres (bytecode k p exprs) (bytecode k' p exprs).
Proof.
  intros H. unfold bytecode. destruct (compile p exprs); [|apply lres_refl].
  destruct (link l); [|apply lres_refl]. apply lres_bind; [apply vm_run_mono; auto|]. intros; apply lres_refl.
Qed.

Lemma bytecode_agrees p exprs n vs : wf_program p exprs = true -> treewalk n p exprs = Ok vs ->
  exists k, forall k', k <= k' -> bytecode k' p exprs = Ok (map obs_value vs).
Proof.
  intros Hwf H. apply (run_order FnFirst ArgsFirst) in H.
  pose proof (bytecode_correct p exprs n Hwf) as HB. rewrite H in HB. auto.
Qed.

Lemma bytecode_sound p exprs k os : wf_program p exprs = true -> bytecode k p exprs = Ok os ->
  run_o ArgsFirst k p exprs <> Panic ->
  exists vs, treewalk k p exprs = Ok vs /\ map obs_value vs = os.
Proof.
  intros Hwf H Hp. pose proof (bytecode_correct p exprs k Hwf) as HB.
  destruct (run_o ArgsFirst k p exprs) as [vs|m| |] eqn:E; try congruence.
  - exists vs. split; [eapply run_order; eauto|]. destruct HB as [k0 HB].
    destruct (@bytecode_mono k (k + k0) p exprs) as [E1|E1]; [lia|congruence|].
    rewrite (HB (k + k0)) in E1 by lia. congruence.
  - destruct HB as [k0 HB]. destruct (@bytecode_mono k (k + k0) p exprs) as [E1|E1]; [lia|congruence|].
    rewrite (HB (k + k0)) in E1 by lia. congruence.
  - rewrite HB in H by lia. congruence.
Qed.

Lemma bytecode_traps p exprs n m : wf_program p exprs = true -> atomic_program p exprs = true ->
  treewalk n p exprs = Trap m -> exists k, forall k', k <= k' -> bytecode k' p exprs = Trap m.
Proof.
  intros Hwf Ha H. destruct (run_agree n p exprs Ha) as [E|E]; unfold treewalk in *; [congruence|].
  pose proof (bytecode_correct p exprs n Hwf) as HB. rewrite E, H in HB. auto.
Qed.

Lemma bytecode_diverges p exprs : wf_program p exprs = true -> atomic_program p exprs = true ->
  (forall n, treewalk n p exprs = OutOfFuel) -> forall k, bytecode k p exprs = OutOfFuel.
Proof.
  intros Hwf Ha H k. destruct (run_agree k p exprs Ha) as [E|E]; pose proof (H k) as Hk; unfold treewalk in *; [congruence|].
  pose proof (bytecode_correct p exprs k Hwf) as HB. rewrite E, Hk in HB. apply HB. lia.
Qed.

