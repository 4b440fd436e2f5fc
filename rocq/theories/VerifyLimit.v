(** Names the verifier accepts are below its limit. *)
From Verif Require Import Verify Wf VerifyState VerifyNames.
Set Implicit Arguments.

Section Limit.
  Variable limit : nat.
  Definition bel (s : vstate) : Prop := forall x, In x (v_defined s) -> x < limit.
  Definition stays (f : vstate -> option vstate) : Prop := forall s s', bel s -> f s = Some s' -> bel s'.

  Lemma enter_bel n : stays (enter limit n).
  Proof.
    intros s s' H E. unfold enter in E. destruct (Nat.ltb_spec n limit); [|discriminate]. destruct (mem n (v_defined s)); [discriminate|].
    injection E as <-. intros x [<-|Hx]; simpl in *; auto.
  Qed.
  Lemma exit_bel n : stays (exit n).
  Proof. intros s s' H E. unfold exit in E. destruct (mem n (v_scope s)); [|discriminate]. injection E as <-. exact H. Qed.
  Lemma enter_ty_bel n : stays (enter_ty n).
  Proof. intros s s' H E. unfold enter_ty in E. destruct (mem n (v_defty s)); [discriminate|]. injection E as <-. exact H. Qed.
  Lemma exit_ty_bel n : stays (exit_ty n).
  Proof. intros s s' H E. unfold exit_ty in E. destruct (mem n (v_scopety s)); [|discriminate]. injection E as <-. exact H. Qed.
  Lemma iter_bel {A} (f : A -> vstate -> option vstate) l : (forall a, In a l -> stays (f a)) -> stays (iterS f l).
  Proof.
    induction l as [|a l IH]; intros Hf s s' H E; simpl in E; [injection E as <-; auto|].
    destruct (f a s) as [s1|] eqn:E1; [|discriminate]. apply (IH (fun b Hb => Hf b (or_intror Hb)) s1 s'); auto. apply (Hf a (or_introl eq_refl) s s1); auto.
  Qed.
  Ltac step E := match type of E with
    | (match ?a with Some _ => _ | None => None end) = Some _ => let E1 := fresh "E" in destruct a eqn:E1; [|discriminate]; cbn beta iota zeta in E
    | (if ?b then _ else None) = Some _ => destruct b; [|discriminate]
    | (let (_, _) := ?a in _) = Some _ => let a1 := fresh "a" in let b1 := fresh "b" in destruct a as [a1 b1]; cbn beta iota zeta in E
    | (match ?a with TBool => None | _ => _ end) = Some _ => destruct a; try discriminate
    end.
  Lemma check_ty_bel t : stays (check_ty t).
  Proof.
    induction t using ty_ind'; intros s s' Hb E; simpl in E; try (injection E as <-; auto; fail); repeat step E.
    - injection E as <-; auto.
    - eapply iter_bel; [|eauto|eauto]. rewrite Forall_forall in H. auto.
    - eapply IHt; [|eauto]. eapply iter_bel; [|eauto|eauto]. rewrite Forall_forall in H. auto.
    - eapply exit_ty_bel; [|eauto]. eapply IHt; [|eauto]. eapply enter_ty_bel; eauto.
  Qed.
  Lemma check_ty_case_bel tn vars c : stays (check_ty_case limit tn vars c).
  Proof.
    intros s s' Hb E. unfold check_ty_case in E. repeat step E. injection E as <-.
    change (bel v0). eapply iter_bel; [|eapply enter_bel; eauto|eauto]. intros; apply check_ty_bel.
  Qed.
  Lemma check_ty_def_bel d : stays (check_ty_def limit d).
  Proof.
    intros s s' Hb E. unfold check_ty_def in E. repeat step E.
    eapply iter_bel; [intros; apply exit_ty_bel| |eauto]. eapply iter_bel; [intros; apply check_ty_case_bel| |eauto].
    eapply iter_bel; [intros; apply enter_ty_bel| |eauto]. eapply enter_bel in E0; eauto.
  Qed.

  Definition cstays (f : vstate -> option (ty * vstate)) : Prop := forall s t s', bel s -> f s = Some (t, s') -> bel s'.
  Lemma args_bel chk xs : Forall (fun x => cstays (chk x)) xs -> forall ps, stays (argsS chk xs ps).
  Proof.
    induction 1 as [|x xs Hx _ IH]; intros ps s s' Hb E; simpl in E; [injection E as <-; auto|].
    destruct ps as [|p ps]; [injection E as <-; auto|]. destruct (chk x s) as [[t s1]|] eqn:E1; [|discriminate].
    destruct (assert (fits t p)); [|discriminate]. eapply IH; [|eauto]. eapply Hx; eauto.
  Qed.
  Lemma fields_bel chk vars tys xs : Forall (fun x => cstays (chk x)) xs -> forall ts, stays (fieldsS chk vars tys xs ts).
  Proof.
    induction 1 as [|x xs Hx _ IH]; intros ps s s' Hb E; simpl in E; [injection E as <-; auto|].
    destruct ps as [|p ps]; [injection E as <-; auto|]. destruct (chk x s) as [[t s1]|] eqn:E1; [|discriminate].
    destruct (assert _); [|discriminate]. eapply IH; [|eauto]. eapply Hx; eauto.
  Qed.
  Lemma branches_bel chk mt targs brs : Forall (fun br => cstays (chk (snd br))) brs ->
    forall t s t' s', bel s -> branchesS limit chk mt targs brs t s = Some (t', s') -> bel s'.
  Proof.
    induction 1 as [|[[c binds] v] brs Hx _ IH]; intros t s t' s' Hb E; simpl in E; [injection E as <- <-; auto|].
    destruct (lookup c (v_ctors s)) as [[[tn vars] fields]|]; [|discriminate].
    do 3 (destruct (assert _); [|discriminate]).
    destruct (iterS _ (combine fields binds) s) as [s1|] eqn:E1; [|discriminate].
    destruct (chk v s1) as [[tv s2]|] eqn:E2; [|discriminate].
    destruct (match t with Some _ => _ | None => _ end) as [t1|]; [|discriminate].
    destruct (iterS exit binds s2) as [s3|] eqn:E3; [|discriminate].
    eapply IH; [|eauto]. eapply iter_bel; [intros; apply exit_bel| |eauto]. eapply Hx; [|eauto].
    eapply iter_bel; [|exact Hb|exact E1]. intros fb _ a b Ha Eb. unfold bind_in in Eb. destruct (enter limit (snd fb) a) as [a1|] eqn:Ea; [|discriminate].
    injection Eb as <-. change (bel a1). eapply enter_bel; eauto.
  Qed.
  Lemma param_in_bel p : stays (param_in limit p).
  Proof.
    intros s s' Hb E. unfold param_in in E. repeat step E. injection E as <-. change (bel v0). eapply check_ty_bel; [|eauto]. eapply enter_bel; eauto.
  Qed.

  Lemma check_expr_bel e : cstays (check_expr limit e).
  Proof.
    induction e using expr_ind'; intros s0 T s' Hb E; cbn [check_expr] in E; try (injection E as <- <-; auto; fail).
    all: repeat match type of E with
    | (match ?a with Some _ => _ | None => None end) = Some _ =>
        let E1 := fresh "E" in destruct a as [?x|] eqn:E1; [|discriminate];
        try match goal with y : (ty * vstate)%type |- _ => destruct y | y : (_ * _)%type |- _ => destruct y end; cbn beta iota zeta in E
    | (match ?a with TBool => None | _ => _ end) = Some _ => destruct a; try discriminate
    end; try (injection E as <- <-).
    all: try (auto; fail).
    - eapply args_bel; [eauto| |eauto]. eapply IHe; eauto.
    - eapply IHe3; [|eauto]. eapply IHe2; [|eauto]. eapply IHe1; eauto.
    - eapply IHe2; [|eauto]. eapply IHe1; eauto.
    - eapply args_bel; eauto.
    - eapply iter_bel; [intros; apply exit_bel| |eauto]. eapply IHe; [|eauto]. eapply iter_bel; [intros; apply param_in_bel|eauto|eauto].
    - eapply branches_bel; [exact H| |eauto]. eapply IHe; eauto.
    - destruct p. repeat step E. injection E as <- <-. eapply fields_bel; eauto.
    - eapply exit_bel; [|eauto]. eapply IHe2; [|eauto]. eapply enter_bel; [|eauto]. eapply IHe1 in E0; eauto.
    - eapply exit_bel; [|eauto]. eapply IHe2; [|eauto]. eapply IHe1; [|eauto]. eapply check_ty_bel in E0; [|eauto]. eapply enter_bel in E1; eauto.
    - eapply exit_ty_bel; [|eauto]. eapply IHe; [|eauto]. eapply enter_ty_bel; eauto.
    - eapply IHe; eauto.
    - eapply check_ty_bel; eauto.
  Qed.
  Lemma check_def_bel d : stays (check_def limit d).
  Proof.
    intros s s' Hb E. unfold check_def in E. step E. destruct (check_expr limit (vd_value d) v) as [[t s2]|] eqn:E1; [|discriminate].
    repeat step E. injection E as <-. change (bel v0). eapply enter_bel; [|eauto]. eapply check_expr_bel; [|eauto]. eapply check_ty_bel; eauto.
  Qed.
End Limit.

Theorem verified_below limit p vals : verified limit p vals = true ->
  forall x, In x (def_names (p_defs p) ++ flat_map (fun d => binders (vd_value d)) (p_defs p)) -> x < limit.
Proof.
  unfold verified. destruct (verify limit p vals) as [s'|] eqn:E; [|discriminate]. intros _.
  unfold verify in E.
  destruct (iterS (check_ty_def limit) _ _) as [s1|] eqn:E1; [|discriminate].
  assert (B1 : bel limit s1). { eapply iter_bel; [intros; apply check_ty_def_bel| |eauto]. intros x []. }
  apply tydefs_wf in E1 as (W1 & T1 & _); [|split; simpl; tauto].
  destruct (iterS (check_def limit) _ _) as [s2|] eqn:E2; [|discriminate].
  assert (B2 : bel limit s2). { eapply iter_bel; [intros; apply check_def_bel|exact B1|eauto]. }
  destruct (defs_wf limit _ W1 (covers_nil _ T1) E2) as (SD & W2 & C2 & X2 & _).
  intros x Hx. apply B2. apply (e_def X2). left. exact Hx.
Qed.
