(** What acceptance by the verifier gives for the runners. *)
From Verif Require Import RunnerFacts Orders RunnerCorrect VerifyNames TypeSpec TypeSafeProg Lambda LambdaProofs.
From Verif Require Import Wf Vm.
From Coq Require Import Lia.
Set Implicit Arguments.

Lemma plain_letrec p e : forall D, plain p D e = true -> letrec_fns e = true.
Proof.
  assert (L : forall es, Forall (fun e => forall D, plain p D e = true -> letrec_fns e = true) es ->
              forall D, forallb (plain p D) es = true -> forallb letrec_fns es = true).
  { induction 1; simpl; intros D H1; auto. apply andb_true_iff in H1 as [H1 H2]. rewrite (H D H1). simpl. eauto. }
  assert (ST : forall v, letrec_fns v = true -> letrec_fns (strip_pis v) = true).
  { induction v; simpl; intros; eauto. }
  induction e using expr_ind'; simpl; intros D HP; rewrite ?andb_true_iff in *;
    repeat match goal with H : _ /\ _ |- _ => destruct H end; eauto 6.
  - split; eauto. match goal with H : Forall _ brs, H2 : forallb _ brs = true |- _ => revert H H2 end.
    clear. induction 1; simpl; auto. rewrite !andb_true_iff. intros [A B]. split; eauto.
  - split; eauto. match goal with H : plain p D e1 = true |- _ => apply IHe1, ST in H end.
    destruct (strip_pis e1); auto.
Qed.

Lemma plain_program_letrec p vals : plain_program p vals = true ->
  forallb (fun d => letrec_fns (vd_value d)) (p_defs p) && forallb letrec_fns vals = true.
Proof.
  unfold plain_program. rewrite !andb_true_iff, !forallb_forall. intros [[_ A] B].
  split; intros x Hx; eapply plain_letrec; eauto.
Qed.

Lemma verified_plain_wf limit p vals : verified limit p vals = true -> plain_program p (map fst vals) = true ->
  wf_program p (map fst vals) = true.
Proof. intros A B. eapply verified_wf; eauto. apply plain_program_letrec. auto. Qed.

Lemma verified_no_panic limit p vals o n : verified limit p vals = true ->
  plain_program p (map fst vals) = true -> run_o o n p (map fst vals) <> Panic.
Proof. intros A B C. pose proof (verified_safe limit p vals o n A B) as H. rewrite C in H. auto. Qed.

(** The three runners on an accepted program: the two compiled ones never fail internally. *)
Lemma verified_bytecode_no_panic limit p vals k : verified limit p vals = true ->
  plain_program p (map fst vals) = true -> bytecode k p (map fst vals) <> Panic.
Proof.
  intros A B C. pose proof (verified_plain_wf _ _ _ A B) as W.
  pose proof (bytecode_correct p (map fst vals) k W) as H.
  pose proof (@verified_no_panic limit p vals ArgsFirst k A B) as NP.
  destruct (run_o ArgsFirst k p (map fst vals)) as [vs|m| |]; try congruence.
  - destruct H as [k0 H]. destruct (@bytecode_mono k (k + k0) p (map fst vals)) as [E1|E1]; [lia|congruence|].
    rewrite (H (k + k0)) in E1 by lia. congruence.
  - destruct H as [k0 H]. destruct (@bytecode_mono k (k + k0) p (map fst vals)) as [E1|E1]; [lia|congruence|].
    rewrite (H (k + k0)) in E1 by lia. congruence.
  - rewrite H in C by lia. congruence.
Qed.

Lemma verified_runs_agree limit p vals : verified limit p vals = true -> plain_program p (map fst vals) = true ->
  forall os,
  (exists n vs, treewalk n p (map fst vals) = Ok vs /\ map obs_value vs = os) <->
  (exists k, bytecode k p (map fst vals) = Ok os).
Proof.
  intros A B os. pose proof (verified_plain_wf _ _ _ A B) as W. split.
  - intros (n & vs & H & <-). destruct (bytecode_agrees _ _ n W H) as [k Hk]. eauto.
  - intros (k & H). destruct (bytecode_sound p (map fst vals) k W H) as (vs & H1 & H2); eauto.
    eapply verified_no_panic; eauto.
Qed.
