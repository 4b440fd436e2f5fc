(** move_match preserves results. *)
From Verif Require Import EvalFacts Orders Compile CompileStatic Wf Vm OptEv OptRel OptWalk OptGood OptPasses OptLaws OptProg OptSmall.
Set Implicit Arguments.

Lemma move_let_eq f e : move_let f e = match e with
  | ELam ps b => ELam ps (move_let f b)
  | ELet x v b => match b with ELam qs b' => if is_simple f v then ELam qs (ELet x v b') else e | _ => e end
  | _ => e end.
Proof. destruct e; reflexivity. Qed.

Lemma move_let_good f e : uq e -> lr e (move_let f e) /\ tame e (move_let f e) /\ size (move_let f e) = size e.
Proof.
  induction e; intros Hu; rewrite move_let_eq; try (split; [apply rel_refl|split; [apply tame_refl|auto]]; fail).
  - destruct IHe as (H1 & [T1 T2 T3] & H3); [apply (@uq_child e (ELam ps e)); simpl; auto|]. split; [|split].
    + apply (c_lam cong_lr); auto.
    + split; simpl; auto.
      * intros x. rewrite !cnt_app. specialize (T1 x); lia.
      * intros x. rewrite !in_minus. intuition.
    + simpl. lia.
  - destruct e2; try (split; [apply rel_refl|split; [apply tame_refl|auto]]; fail).
    destruct (is_simple f e1); [|split; [apply rel_refl|split; [apply tame_refl|auto]]].
    destruct Hu as (U1 & U2 & _). cbn [binders fv] in *. split; [|split].
    + apply law_let_lam.
      * intros Hx. specialize (U1 n). apply cnt_in in Hx. rewrite cnt_cons, !cnt_app in U1. destruct (Nat.eq_dec n n); [lia|congruence].
      * intros q Hq Hf. apply (U2 q); rewrite ?in_app_iff; auto. right. rewrite !in_app_iff. auto.
    + split; cbn [binders fv recs].
      * intros x. rewrite !cnt_app, !cnt_cons, !cnt_app. lia.
      * intros x. rewrite !in_app_iff, !in_minus, !in_app_iff, !in_minus. intuition.
      * intros m; auto.
    + simpl. lia.
Qed.

Lemma move_match_step_good e e' : uq e -> move_match_step e = Some e' -> good lr e e' /\ size e' <= size e.
Proof.
  intros Hu H. destruct e; try (injection H as <-; split; [apply (good_refl cong_lr)|lia]).
  destruct e1; try discriminate. cbn [move_match_step] in H. injection H as <-.
  assert (Hb : uq e1).
  { apply (@uq_child _ (ELam ps e1)); [simpl; auto|]. eapply uq_child; [|exact Hu]. simpl; auto. }
  destruct (move_let_good n Hb) as (H1 & [T1 T2 T3] & H3). split; [|simpl; lia].
  apply good_head; [|split|discriminate].
  - eapply (c_letrec cong_lr); [reflexivity|reflexivity|auto|auto|apply rel_refl].
  - intros x. cbn [binders]. rewrite !cnt_cons, !cnt_app. specialize (T1 x). lia.
  - intros x. cbn [fv]. rewrite !in_minus, !in_app_iff, !in_minus. intuition.
  - intros m. cbn [recs strip_pis]. rewrite !andb_true_iff. intuition.
Qed.

Theorem move_match_ok p exprs p' : ok_names p -> move_match p = Some p' -> results_kept p p' exprs.
Proof.
  intros Hw H. eapply on_defs_lr; eauto. intros e e' Hu He.
  destruct (@pre_good lr cong_lr move_match_step (fun _ => True)) with (n := size e) (e := e) (e' := e') as (H1 & _); auto.
  intros e0 e1 Hu0 _ E. split; auto. eapply move_match_step_good; eauto.
Qed.

(** It needs every recursive definition to be written as a function, without type abstractions around it. *)
Fixpoint plain_recs (e : expr) : bool :=
  match e with
  | EBool _ | EInt _ | EString _ | ETrap _ _ | EName _ => true
  | ECall f args => plain_recs f && forallb plain_recs args
  | EIf c t e => plain_recs c && plain_recs t && plain_recs e
  | EOp a _ b => plain_recs a && plain_recs b
  | EIntr _ args => forallb plain_recs args
  | ELam _ b => plain_recs b
  | EMatch d brs => plain_recs d && forallb (fun br => plain_recs (snd br)) brs
  | EConstruct _ _ fs => forallb plain_recs fs
  | ELet _ v e => plain_recs v && plain_recs e
  | ELetRec _ _ v e => match v with ELam _ _ => true | _ => false end && plain_recs v && plain_recs e
  | EPi _ e => plain_recs e
  | EPiApp e _ => plain_recs e
  end.
Lemma plain_child c e : child c e -> plain_recs e = true -> plain_recs c = true.
Proof.
  destruct e; cbn [child plain_recs]; try contradiction; rewrite ?andb_true_iff.
  - intros [->|H] [H1 H2]; auto. rewrite forallb_forall in H2; auto.
  - intros [->|[->| ->]]; intuition.
  - intros [->| ->]; intuition.
  - intros H H1. rewrite forallb_forall in H1; auto.
  - intros ->; auto.
  - intros [->|H] [H1 H2]; auto. apply in_map_iff in H as (br & <- & Hin). rewrite forallb_forall in H2. apply (H2 _ Hin).
  - intros H H1. rewrite forallb_forall in H1; auto.
  - intros [->| ->]; intuition.
  - intros [->| ->]; intuition.
  - intros ->; auto.
  - intros ->; auto.
Qed.
Lemma plain_move f e : plain_recs e = true -> plain_recs (move_let f e) = true.
Proof.
  induction e; rewrite move_let_eq; auto.
  destruct e2; auto. destruct (is_simple f e1); auto.
Qed.
Lemma move_match_some n : forall e, plain_recs e = true -> exists e', pre_fuel move_match_step n e = Some e'.
Proof.
  induction n as [|n IH]; intros e H; simpl; eauto.
  assert (HS : exists e1, move_match_step e = Some e1 /\ plain_recs e1 = true).
  { destruct e; try (eexists; split; [reflexivity|auto]; fail). cbn [plain_recs] in H. rewrite !andb_true_iff in H. destruct H as [[H0 H1] H2].
    destruct e1; try discriminate. eexists; split; [reflexivity|]. cbn [plain_recs]. rewrite !andb_true_iff. repeat split; auto.
    apply plain_move; auto. }
  destruct HS as (e1 & -> & H1). simpl. apply children_some. intros c Hc. apply IH. eapply plain_child; eauto.
Qed.
Theorem move_match_total p : forallb (fun d => plain_recs (vd_value d)) (p_defs p) = true -> exists p', move_match p = Some p'.
Proof.
  intros H. apply on_defs_some. intros d Hd. rewrite forallb_forall in H. apply move_match_some. auto.
Qed.
