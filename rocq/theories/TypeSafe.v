(** Type safety: evaluating accepted programs of the plain fragment never goes wrong. *)
From Verif Require Import Verify VerifyState VerifyNames TypeSpec TypeTr EvalFacts CompileCorrect.
Set Implicit Arguments.

Section Safe.
  Variable limit : nat.
  Variable p : program.
  Variable CT : list (name * (name * list tyvar * list ty)).
  Hypothesis CT_spec : forall c tn vars fields, lookup c CT = Some (tn, vars, fields) <->
    exists td, In td (p_types p) /\ td_name td = tn /\ td_vars td = vars /\ In (c, fields) (td_cases td).
  Hypothesis TD_inj : forall td td', In td (p_types p) -> In td' (p_types p) -> td_name td = td_name td' -> td = td'.
  Hypothesis CT_fields : forall c tn vars fields f, lookup c CT = Some (tn, vars, fields) -> In f fields ->
    monob f = true /\ forall x, In x (fv f) -> In x vars.

  Record tyok (s : vstate) (T : ty) : Prop := mkTyok {
    t_fv : forall x, In x (fv T) -> In x (v_scopety s);
    t_b : forall x, In x (tbind T) -> In x (v_defty s) /\ ~ In x (v_scopety s);
    t_nest : nest T;
    t_rank : rank1 T = true
  }.
  Record good (s : vstate) : Prop := mkGood {
    g_wf : wfs s;
    g_ct : v_ctors s = CT;
    g_ty : forall x T, In x (v_scope s) -> lookup x (v_types s) = Some T -> tyok s T;
    g_vars : forall c tn vars fields x, lookup c CT = Some (tn, vars, fields) -> In x vars ->
      In x (v_defty s) /\ ~ In x (v_scopety s)
  }.

  Lemma tyok_mono s s' T :
    v_scopety s' = v_scopety s -> (forall x, In x (v_defty s) -> In x (v_defty s')) -> tyok s T -> tyok s' T.
  Proof.
    intros E D []. constructor; auto.
    - intros x Hx. rewrite E. auto.
    - intros x Hx. rewrite E. apply t_b0 in Hx as []. auto.
  Qed.
  Lemma tyok_ext L P s s' T : ext L P [] s s' -> tyok s T -> tyok s' T.
  Proof. intros X. apply tyok_mono; [apply (e_scopety X)|apply (e_defty X)]. Qed.
  Lemma mono_tyok s T : monob T = true -> (forall x, In x (fv T) -> In x (v_scopety s)) -> tyok s T.
  Proof.
    intros M F. constructor; auto.
    - rewrite mono_tbind; simpl; tauto.
    - apply mono_nest; auto.
    - apply mono_rank1; auto.
  Qed.

  Lemma tyok_scope s T l : tyok s T -> tyok (set_scope l s) T.
  Proof. apply tyok_mono; auto. Qed.

  (** Extending a good state by names with good types. *)
  Lemma good_ext L P s s' :
    good s -> ext L P [] s s' -> wfs s' ->
    (forall x T, In x P -> lookup x (v_types s') = Some T -> tyok s' T) -> good s'.
  Proof.
    intros [W C T V] X W' HP. constructor; auto.
    - rewrite (e_ctors X); auto.
    - intros x U Hx Hl. rewrite (e_scope X) in Hx. apply in_app_iff in Hx as [Hx|Hx]; eauto.
      eapply tyok_ext; eauto. eapply T; eauto. rewrite <- Hl. symmetry. apply (e_types X).
      intros HL. apply (e_new X) in HL. apply HL, (w_scope W), Hx.
    - intros c tn vars fields x Hl Hx. apply (V _ _ _ _ _ Hl) in Hx as [H1 H2]. split.
      + apply (e_defty X); auto.
      + rewrite (e_scopety X). auto.
  Qed.
  Lemma good_ext0 L s s' : good s -> ext L [] [] s s' -> good s'.
  Proof. intros G X. eapply good_ext; eauto. - eapply ext0_wfs; eauto. apply G. - simpl; tauto. Qed.

  Lemma good_enter_ty v s s' : good s -> enter_ty v s = Some s' -> good s'.
  Proof.
    intros [W C T V] H. apply enter_ty_ext in H as (X & Hv & Hd & HT). constructor.
    - eapply ext_wfs; eauto; simpl; try tauto. rewrite Hd. simpl. intuition.
    - rewrite (e_ctors X); auto.
    - intros x U Hx Hl. rewrite (e_scope X) in Hx. rewrite HT in Hl. destruct (T x U Hx Hl). constructor; auto.
      + intros y Hy. rewrite (e_scopety X). simpl. auto.
      + intros y Hy. rewrite (e_scopety X), Hd. simpl. apply t_b0 in Hy as [H1 H2]. split; auto.
        intros [<-|Hi]; auto.
    - intros c tn vars fields x Hl Hx. apply (V _ _ _ _ _ Hl) in Hx as [H1 H2].
      rewrite (e_scopety X), Hd. simpl. split; auto. intros [<-|Hi]; auto.
  Qed.

  (** Parameters. *)
  Lemma params_good ps : forall s s',
    good s -> iterS (param_in limit) ps s = Some s' -> forallb (fun p : name * ty => monob (snd p)) ps = true ->
    good s' /\ (forall q, In q ps -> In (fst q) (v_scope s') /\ lookup (fst q) (v_types s') = Some (snd q) /\
                                     forall x, In x (fv (snd q)) -> In x (v_scopety s)).
  Proof.
    induction ps as [|q ps IH]; simpl; intros s s' G H M.
    - injection H as <-. split; auto. tauto.
    - unfold param_in in H at 1. apply andb_true_iff in M as [M1 M2].
      destruct (enter limit (fst q) s) as [s1|] eqn:E1; [|discriminate].
      destruct (check_ty (snd q) s1) as [s2|] eqn:E2; [|discriminate].
      apply enter_ext in E1 as (X1 & N1 & T1 & D1).
      assert (Hw1 : wfs s1) by (eapply ext_wfs; eauto; simpl; try tauto; apply G).
      apply check_ty_ok in E2 as (X2 & T2 & F2 & B2 & NN2); auto.
      pose proof (set_type_ext (fst q) (snd q) (ext_trans X1 X2)) as X3. simpl in X3.
      specialize (X3 (or_introl eq_refl)).
      assert (W3 : wfs (set_type (fst q) (snd q) s2)) by (eapply ext_wfs; eauto; simpl; try tauto; apply G).
      assert (G3 : good (set_type (fst q) (snd q) s2)).
      { eapply good_ext; eauto. intros x T Hx Hl. simpl in Hx, Hl. destruct Hx as [<-|[]].
        rewrite Nat.eqb_refl in Hl. injection Hl as <-. apply mono_tyok; auto.
        intros x Hx. simpl. rewrite (e_scopety X2). auto. }
      destruct (params_ext limit ps W3 H) as [X4 W4].
      apply IH in H as [G4 R4]; auto. split; auto.
      intros q' [<-|Hi].
      + split; [|split].
        * rewrite (e_scope X4). apply in_app_iff. right. simpl. rewrite (e_scope X2). simpl.
          rewrite (e_scope X1). simpl; auto.
        * rewrite (e_types X4). { simpl. rewrite Nat.eqb_refl. auto. }
          intros HL. apply (e_new X4) in HL. apply HL. simpl. apply (e_def X2). right. apply (e_def X1). simpl; auto.
        * intros x Hx. apply F2 in Hx. rewrite (e_scopety X1) in Hx. auto.
      + destruct (R4 q' Hi) as (A & B & C). split; auto. split; auto.
        intros x Hx. apply C in Hx. rewrite (e_scopety X3) in Hx. auto.
  Qed.

  (** Variables bound by a branch. *)
  Lemma binds_good vars targs fbs : forall s s',
    good s -> iterS (bind_in limit vars targs) fbs s = Some s' ->
    (forall f b, In (f, b) fbs -> tyok s (replace_all f vars targs)) ->
    good s' /\ (forall f b, In (f, b) fbs -> In b (v_scope s') /\ lookup b (v_types s') = Some (replace_all f vars targs)).
  Proof.
    induction fbs as [|[f b] fbs IH]; simpl; intros s s' G H M.
    - injection H as <-. split; auto. tauto.
    - unfold bind_in in H at 1. simpl in H.
      destruct (enter limit b s) as [s1|] eqn:E1; [|discriminate].
      apply enter_ext in E1 as (X1 & N1 & T1 & D1).
      pose proof (set_type_ext b (replace_all f vars targs) X1) as X3.
      specialize (X3 (or_introl eq_refl)).
      assert (W3 : wfs (set_type b (replace_all f vars targs) s1)) by (eapply ext_wfs; eauto; simpl; try tauto; apply G).
      assert (G3 : good (set_type b (replace_all f vars targs) s1)).
      { eapply good_ext; eauto. intros x T Hx Hl. simpl in Hx, Hl. destruct Hx as [<-|[]].
        rewrite Nat.eqb_refl in Hl. injection Hl as <-. eapply tyok_ext; eauto. }
      destruct (binds_ext limit vars targs fbs W3 H) as (X4 & W4 & _).
      apply IH in H as [G4 R4]; auto.
      2:{ intros f' b' Hi. eapply tyok_ext; eauto. }
      split; auto.
      intros f' b' [E|Hi]; auto. injection E as <- <-. split.
      + rewrite (e_scope X4). apply in_app_iff. right. rewrite (e_scope X3). simpl; auto.
      + rewrite (e_types X4). { simpl. rewrite Nat.eqb_refl. auto. }
        intros HL. apply (e_new X4) in HL. apply HL. simpl. apply (e_def X1). simpl; auto.
  Qed.

  Lemma match_tyok s mt targs c vars fields f :
    good s -> tyok s (TNamed mt targs) -> lookup c CT = Some (mt, vars, fields) -> In f fields ->
    length vars = length targs -> tyok s (replace_all f vars targs).
  Proof.
    intros G T Hl Hf L. destruct (CT_fields _ _ Hl Hf) as [M F].
    assert (MT : forall U, In U targs -> monob U = true).
    { pose proof (t_rank T) as R. simpl in R. rewrite forallb_forall in R. auto. }
    apply mono_tyok.
    - apply replace_all_mono; auto.
    - intros x Hx. apply replace_all_fv in Hx as [(U & HU & Hx)|[Hx Hn]]; auto.
      + apply (t_fv T). simpl. apply in_flat_map. eauto.
      + exfalso. auto.
  Qed.

  Definition chk_tyok (e : expr) : Prop :=
    forall s T s', good s -> plain p (v_scopety s) e = true -> check_expr limit e s = Some (T, s') -> tyok s' T.

  Lemma branches_tyok mt targs brs : Forall (fun br => chk_tyok (snd br)) brs -> forall t s t' s' D,
    good s -> v_scopety s = D -> forallb (fun br => plain p D (snd br)) brs = true ->
    tyok s (TNamed mt targs) -> (forall T, t = Some T -> tyok s T) ->
    branchesS limit (check_expr limit) mt targs brs t s = Some (t', s') ->
    forall T, t' = Some T -> tyok s' T.
  Proof.
    induction 1 as [|[[c bs] v] brs Hx _ IH]; simpl; intros t s t' s' D G ED PL TN Ht H T HT.
    - injection H as <- <-. auto.
    - apply andb_true_iff in PL as [P1 P2].
      destruct (lookup c (v_ctors s)) as [[[tn vars] fields]|] eqn:EC; [|discriminate].
      rewrite (g_ct G) in EC.
      destruct (assert (mt =? tn)) eqn:E1; [|discriminate]. apply assert_some, Nat.eqb_eq in E1. subst tn.
      destruct (assert (length vars =? length targs)) eqn:E2; [|discriminate]. apply assert_some, Nat.eqb_eq in E2.
      destruct (assert (length fields =? length bs)) eqn:EL; [|discriminate].
      apply assert_some, Nat.eqb_eq in EL.
      destruct (iterS (bind_in limit vars targs) (combine fields bs) s) as [s1|] eqn:E3; [|discriminate].
      destruct (binds_ext limit vars targs _ (g_wf G) E3) as (X1 & W1 & DD1).
      apply binds_good in E3 as [G1 R1]; auto.
      2:{ intros f b Hi. eapply match_tyok; eauto. eapply in_combine_l; eauto. }
      rewrite map_snd_combine in X1; auto.
      destruct (check_expr limit v s1) as [[tv s2]|] eqn:E4; [|discriminate].
      pose proof (check_expr_ext limit v (g_wf G1) E4) as X2.
      assert (T4 : tyok s2 tv).
      { eapply Hx; [exact G1| |exact E4]. simpl. rewrite (e_scopety X1). simpl. rewrite ED. auto. }
      match type of H with match ?x with _ => _ end = _ => destruct x as [t1|] eqn:E5; [|discriminate] end.
      destruct (iterS exit bs s2) as [s3|] eqn:E6; [|discriminate].
      destruct (exits_ext _ (ext_trans X1 X2) (g_wf G) E6) as [X3 ES].
      { simpl. intros x. rewrite <- in_rev. auto. }
      { intros x Hi. apply in_app_iff; auto. }
      eapply (IH t1 s3 t' s' D); [| |exact P2| | |exact H|exact HT].
      + exact (good_ext0 G X3).
      + rewrite (e_scopety X3). auto.
      + exact (tyok_ext X3 TN).
      + intros U HU. destruct t as [t0|].
        * destruct (ty_eqb t0 tv); [|discriminate]. injection E5 as <-. exact (tyok_ext X3 (Ht U HU)).
        * injection E5 as <-. injection HU as <-. rewrite ES. apply tyok_scope; auto.
  Qed.

  (** Good states after the steps of the checker. *)
  Lemma good_let n ta s1 s2 :
    good s1 -> tyok s1 ta -> enter limit n (set_type n ta s1) = Some s2 ->
    good s2 /\ ext [n] [n] [] s1 s2 /\ lookup n (v_types s2) = Some ta /\ In n (v_scope s2).
  Proof.
    intros G1 T1 E2. apply enter_ext in E2 as (X2 & N2 & T2 & D2). simpl in *.
    assert (X2' : ext [n] [n] [] s1 s2).
    { destruct X2. constructor; auto. intros x Hx. rewrite e_types; auto. simpl.
      destruct (Nat.eqb_spec x n); auto. subst. simpl in Hx. tauto. }
    assert (EL : lookup n (v_types s2) = Some ta) by (rewrite T2; simpl; rewrite Nat.eqb_refl; auto).
    split; [|split; [auto|split; auto]].
    - eapply good_ext; eauto.
      + eapply ext_wfs; eauto; simpl; try tauto. apply G1.
      + simpl. intros x T [<-|[]] Hl. rewrite EL in Hl. injection Hl as <-. eapply tyok_ext; eauto.
    - rewrite (e_scope X2). simpl; auto.
  Qed.
  Lemma good_letrec n t s1 s2 s0 :
    good s0 -> check_ty t s0 = Some s1 -> rank1 t = true -> enter limit n s1 = Some s2 ->
    good (set_type n t s2) /\ ext [n] [n] [] s0 (set_type n t s2) /\ tyok (set_type n t s2) t /\
    (forall x, In x (tbind t) -> In x (v_defty s2)).
  Proof.
    intros G0 E1 R E2. apply check_ty_ok in E1 as (X1 & T1 & F1 & B1 & NN1); [|apply G0].
    apply enter_ext in E2 as (X2 & N2 & T2 & D2).
    assert (G1 : good s1) by (eapply good_ext0; eauto).
    pose proof (set_type_ext n t X2 (or_introl eq_refl)) as X2'.
    assert (TT : tyok (set_type n t s2) t).
    { constructor; auto.
      - intros x Hx. simpl. rewrite (e_scopety X2). simpl. rewrite (e_scopety X1). auto.
      - intros x Hx. simpl. rewrite (e_scopety X2), D2. simpl. rewrite (e_scopety X1).
        apply B1 in Hx as [H1 H2]. split; auto. intros Hi. apply H2, (w_scopety (g_wf G0)), Hi. }
    split; [|split; [exact (ext_trans X1 X2')|split; auto]].
    - eapply good_ext; eauto.
      + eapply ext_wfs; eauto; simpl; try tauto. apply G1.
      + simpl. intros x T [<-|[]] Hl. rewrite Nat.eqb_refl in Hl. injection Hl as <-. auto.
    - intros x Hx. rewrite D2. apply B1; auto.
  Qed.

  Lemma check_tyok e : chk_tyok e.
  Proof.
    induction e using expr_ind'; intros s0 T s' G PL HH; simpl in HH, PL; rewrite ?andb_true_iff in PL.
    1-3: (injection HH as <- <-; apply mono_tyok; simpl; auto; tauto).
    - destruct (assert _) eqn:E; [|discriminate]. apply assert_some, mem_In in E.
      destruct (lookup _ _) eqn:E2; [|discriminate]. injection HH as <- <-. eapply (g_ty G); eauto.
    - destruct PL as [P1 P2].
      destruct (check_expr limit e s0) as [[tf s1]|] eqn:E1; [|discriminate].
      destruct tf as [| | | | |ps o|]; try discriminate. destruct (assert _) eqn:EL; [|discriminate].
      apply assert_some, Nat.eqb_eq in EL.
      destruct (argsS _ _ _ _) as [s2|] eqn:E2; [|discriminate]. injection HH as <- <-.
      pose proof (check_expr_ext limit e (g_wf G) E1) as X1. pose proof (ext0_wfs X1 (g_wf G)) as W1.
      apply IHe in E1; auto.
      assert (X2 : ext (flat_map binders args) [] [] s1 s2).
      { eapply args_ext; eauto. apply Forall_forall. intros x _. apply check_expr_ext. }
      eapply tyok_ext; eauto. destruct E1. simpl in *. rewrite ?andb_true_iff in *. constructor; try tauto.
      + intros x Hx. apply t_fv0, in_app_iff; auto.
      + intros x Hx. apply t_b0, in_app_iff; auto.
    - destruct PL as [[P1 P2] P3].
      destruct (check_expr limit e1 s0) as [[t1 s1]|] eqn:E1; [|discriminate].
      destruct (assert _); [|discriminate].
      destruct (check_expr limit e2 s1) as [[t2 s2]|] eqn:E2; [|discriminate].
      destruct (check_expr limit e3 s2) as [[t3 s3]|] eqn:E3; [|discriminate].
      destruct (assert _); [|discriminate]. injection HH as <- <-.
      pose proof (check_expr_ext limit e1 (g_wf G) E1) as X1. pose proof (good_ext0 G X1) as G1.
      pose proof (check_expr_ext limit e2 (g_wf G1) E2) as X2. pose proof (good_ext0 G1 X2) as G2.
      pose proof (check_expr_ext limit e3 (g_wf G2) E3) as X3.
      eapply tyok_ext; eauto. eapply IHe2; [exact G1| |exact E2]. rewrite (e_scopety X1). auto.
    - destruct (check_expr limit e1 s0) as [[t1 s1]|] eqn:E1; [|discriminate].
      destruct (assert _); [|discriminate].
      destruct (check_expr limit e2 s1) as [[t2 s2]|] eqn:E2; [|discriminate].
      destruct (assert _); [|discriminate]. injection HH as <- <-.
      apply mono_tyok; destruct o; simpl; auto; tauto.
    - destruct (assert _); [|discriminate].
      destruct (argsS _ _ _ _) as [s2|] eqn:E2; [|discriminate]. injection HH as <- <-.
      apply mono_tyok; destruct i; simpl; auto; tauto.
    - destruct PL as [P1 P2].
      destruct (iterS _ ps s0) as [s1|] eqn:E1; [|discriminate].
      destruct (check_expr limit e s1) as [[t1 s2]|] eqn:E2; [|discriminate].
      rewrite param_outs in HH.
      destruct (iterS _ _ s2) as [s3|] eqn:E3; [|discriminate]. injection HH as <- <-.
      destruct (params_ext limit ps (g_wf G) E1) as [X1 W1].
      apply params_good in E1 as [G1 R1]; auto.
      pose proof (check_expr_ext limit e (g_wf G1) E2) as X2.
      destruct (exits_ext _ (ext_trans X1 X2) (g_wf G) E3) as [X3 ES].
      { simpl. intros x. rewrite <- in_rev. auto. }
      { intros x Hi. apply in_app_iff; auto. }
      apply IHe in E2; auto. 2:{ rewrite (e_scopety X1). auto. }
      assert (E2' : tyok s3 t1) by (rewrite ES; apply tyok_scope; auto).
      assert (MP : forallb monob (map snd ps) = true).
      { rewrite forallb_forall in *. intros w0 Hw0. apply in_map_iff in Hw0 as (q & <- & Hq). auto. }
      assert (TB : flat_map tbind (map snd ps) = []).
      { clear - MP. induction ps as [|q ps IH]; simpl in *; auto. apply andb_true_iff in MP as [M1 M2].
        rewrite mono_tbind, IH; auto. }
      destruct E2'. constructor; simpl.
      + intros x Hx. apply in_app_iff in Hx as [Hx|Hx]; auto.
        apply in_flat_map in Hx as (w0 & Hw0 & Hx). apply in_map_iff in Hw0 as (q & <- & Hq).
        apply R1 in Hq as (_ & _ & Hq). rewrite (e_scopety X3). auto.
      + rewrite TB. simpl. auto.
      + split; auto. apply nest_all. intros w0 Hw0. apply mono_nest. rewrite forallb_forall in MP. auto.
      + rewrite MP. auto.
    - destruct PL as [[P1 PC] P2].
      destruct (check_expr limit e s0) as [[td s1]|] eqn:E1; [|discriminate].
      destruct td as [| | | |mt targs| |]; try discriminate.
      destruct (branchesS _ _ _ _ _ _ _) as [[t2 s2]|] eqn:E2; [|discriminate].
      destruct t2; [|discriminate]. injection HH as <- <-.
      pose proof (check_expr_ext limit e (g_wf G) E1) as X1. pose proof (good_ext0 G X1) as G1.
      apply IHe in E1; auto.
      eapply (branches_tyok H); [exact G1| | | | |exact E2|]; eauto.
      + rewrite (e_scopety X1); auto.
      + discriminate.
    - destruct PL as [[P1 PC] P2].
      destruct (lookup c (v_ctors s0)) as [[[tn vars] ftys]|]; [|discriminate].
      destruct (assert _); [|discriminate]. destruct (assert _) eqn:EL in HH; [|discriminate].
      apply assert_some, Nat.eqb_eq in EL.
      destruct (fieldsS _ _ _ _ _ _) as [s1|] eqn:E1; [|discriminate]. injection HH as <- <-.
      assert (X1 : ext (flat_map binders fs) [] [] s0 s1).
      { eapply fields_ext; eauto. - apply Forall_forall. intros x _. apply check_expr_ext. - apply G. }
      assert (MI : forall w0, In w0 tys -> monob w0 = true /\ forall x, In x (fv w0) -> In x (v_scopety s0)).
      { rewrite forallb_forall in P1. intros w0 Hw0. apply mono_in_spec; auto. }
      apply mono_tyok; simpl.
      + apply forallb_forall. intros w0 Hw0. apply MI; auto.
      + intros x Hx. apply in_flat_map in Hx as (w0 & Hw0 & Hx). rewrite (e_scopety X1). simpl.
        apply MI in Hw0 as [_ Hw0]. auto.
    - destruct PL as [P1 P2].
      destruct (check_expr limit e1 s0) as [[t1 s1]|] eqn:E1; [|discriminate].
      destruct (enter _ _ _) as [s2|] eqn:E2; [|discriminate].
      destruct (check_expr limit e2 s2) as [[t2 s3]|] eqn:E3; [|discriminate].
      destruct (exit n s3) as [s4|] eqn:E4; [|discriminate]. injection HH as <- <-.
      pose proof (check_expr_ext limit e1 (g_wf G) E1) as X1. pose proof (good_ext0 G X1) as G1.
      apply IHe1 in E1; auto.
      apply good_let in E2 as (G2 & X2 & _); auto.
      pose proof (check_expr_ext limit e2 (g_wf G2) E3) as X3.
      apply IHe2 in E3; auto. 2:{ rewrite (e_scopety X2). simpl. rewrite (e_scopety X1). auto. }
      apply exit_one in E4. apply exits_spec in E4. rewrite E4. apply tyok_scope; auto.
    - destruct PL as [[[P1 PF] P2] P3].
      destruct (check_ty t s0) as [s1|] eqn:E0; [|discriminate].
      destruct (enter _ _ _) as [s2|] eqn:E2; [|discriminate].
      destruct (check_expr limit e1 _) as [[t1 s3]|] eqn:E1; [|discriminate].
      destruct (assert _); [|discriminate].
      destruct (check_expr limit e2 s3) as [[t2 s4]|] eqn:E3; [|discriminate].
      destruct (exit n s4) as [s5|] eqn:E4; [|discriminate]. injection HH as <- <-.
      destruct (good_letrec _ _ G E0 (prenex_rank1 _ P1) E2) as (G2 & X2 & _ & _).
      pose proof (check_expr_ext limit e1 (g_wf G2) E1) as X3. pose proof (good_ext0 G2 X3) as G3.
      apply IHe2 in E3; auto.
      2:{ rewrite (e_scopety X3), (e_scopety X2). auto. }
      apply exit_one in E4. apply exits_spec in E4. rewrite E4. apply tyok_scope; auto.
    - destruct (enter_ty v s0) as [s1|] eqn:E1; [|discriminate].
      destruct (check_expr limit e s1) as [[t2 s2]|] eqn:E2; [|discriminate].
      destruct (exit_ty v s2) as [s3|] eqn:E3; [|discriminate]. injection HH as <- <-.
      pose proof (good_enter_ty _ G E1) as G1.
      apply enter_ty_ext in E1 as (X & Hv & Hd & HT).
      pose proof (check_expr_ext limit e (g_wf G1) E2) as X2.
      apply IHe in E2; auto. 2:{ rewrite (e_scopety X). auto. }
      destruct (exit_ty_ext (ext_trans X X2) (g_wf G) Hv E3) as [X3 ES].
      assert (SC : v_scopety s2 = v :: v_scopety s0) by (rewrite (e_scopety X2), (e_scopety X); auto).
      destruct E2 as [F B N R]. rewrite SC in F, B.
      assert (HV : ~ In v (v_scopety s0)) by (intros Hi; apply Hv, (w_scopety (g_wf G)), Hi).
      rewrite ES. constructor; simpl; auto.
      + intros x Hx. apply In_rem in Hx as [Hx Hn]. apply F in Hx as [->|Hx]; tauto.
      + intros x [<-|Hx].
        * split; auto. apply (e_defty X2). rewrite Hd. simpl; auto.
        * apply B in Hx as [H1 H2]. split; auto. intros Hi. apply H2. simpl; auto.
      + split; auto. intros Hi. apply B in Hi as [_ Hi]. apply Hi. simpl; auto.
    - destruct PL as [P1 P2].
      destruct (check_expr limit e s0) as [[te s1]|] eqn:E1; [|discriminate].
      destruct te as [| | | | | |v t']; try discriminate. injection HH as <- <-.
      pose proof (check_expr_ext limit e (g_wf G) E1) as X1.
      apply IHe in E1; auto. destruct E1 as [F B [N1 N2] R]. simpl in *.
      apply mono_in_spec in P2 as [M F2]. constructor.
      + intros x Hx. apply replace_fv in Hx as [Hx|[Hx Ho]].
        * rewrite (e_scopety X1). simpl. auto.
        * apply F, In_rem. split; auto. destruct Ho; auto.
      + rewrite replace_tbind; auto.
      + apply replace_nest; auto.
      + apply replace_rank1; auto.
    - destruct (check_ty t s0) as [s1|] eqn:E0; [|discriminate]. injection HH as <- <-.
      apply check_ty_ok in E0 as (X1 & T1 & F1 & B1 & NN1); [|apply G].
      constructor; auto.
      + intros x Hx. rewrite (e_scopety X1). simpl; auto.
      + intros x Hx. apply B1 in Hx as [H1 H2]. split; auto. rewrite (e_scopety X1). simpl.
        intros Hi. apply H2, (w_scopety (g_wf G)), Hi.
  Qed.

  (** Instances of a quantified function type. *)
  Inductive inst : dty -> dty -> Prop :=
  | inst_fn ps o : inst (DFn ps o) (DFn ps o)
  | inst_abs t U D : closed U -> inst (dsub 0 U t) D -> inst (DAbs t) D.

  Lemma inst_isfn d D : inst d D -> exists Ds Do, D = DFn Ds Do.
  Proof. induction 1; eauto. Qed.

  Definition g0 : tyvar -> dty := fun _ => DInt.
  Lemma g0_cl : cl g0.
  Proof. intros x k U. auto. Qed.

  (** Typing of values.  A closure carries the state in which its body was checked. *)
  Inductive vt : value -> dty -> Prop :=
  | vt_int i : vt (VInt i) DInt
  | vt_bool b : vt (VBool b) DBool
  | vt_str s : vt (VStr s) DStr
  | vt_comp c tn vars fields args fs :
      lookup c CT = Some (tn, vars, fields) -> length vars = length args ->
      Forall2 vt fs (map (tr [] (upds g0 vars args)) fields) ->
      vt (VComp c fs) (DNamed tn args)
  | vt_fn en ps body s T s' g :
      good s -> cl g -> check_expr limit body s = Some (T, s') -> plain p (v_scopety s) body = true ->
      NoDup (map fst ps) -> (forall q, In q ps -> lookup (fst q) (v_types s) = Some (snd q)) ->
      (forall x U, In x (v_scope s) -> ~ In x (map fst ps) -> lookup x (v_types s) = Some U ->
        exists v, lookup x en = Some v /\ vt v (tr [] g U)) ->
      vt (VFn en None (map fst ps) body) (DFn (map (fun q => tr [] g (snd q)) ps) (tr [] g T))
  | vt_rec en n ps body v s ta s' t g Ds Do :
      good s -> cl g -> check_expr limit v s = Some (ta, s') -> plain p (v_scopety s) v = true ->
      strip_pis v = ELam ps body -> lookup n (v_types s) = Some t -> In n (v_scope s) ->
      (forall g', cl g' -> tr [] g' ta = tr [] g' t) ->
      (forall x U, In x (v_scope s) -> x <> n -> lookup x (v_types s) = Some U ->
        exists v, lookup x en = Some v /\ vt v (tr [] g U)) ->
      inst (tr [] g ta) (DFn Ds Do) ->
      vt (VFn en (Some n) (map fst ps) body) (DFn Ds Do)
  | vt_abs v t : (forall U, closed U -> vt v (dsub 0 U t)) -> vt v (DAbs t).

  Definition env_ok (s : vstate) (g : tyvar -> dty) (en : env) : Prop :=
    forall x U, In x (v_scope s) -> lookup x (v_types s) = Some U ->
      exists v, lookup x en = Some v /\ vt v (tr [] g U).
  Definition ok_res (r : res value) (d : dty) : Prop :=
    match r with Ok v => vt v d | Panic => False | _ => True end.
  Definition ok_list (r : res (list value)) (ds : list dty) : Prop :=
    match r with Ok vs => Forall2 vt vs ds | Panic => False | _ => True end.

  Lemma env_ext L s s' g en : good s -> ext L [] [] s s' -> env_ok s g en -> env_ok s' g en.
  Proof.
    intros G X H x U Hx Hl. rewrite (e_scope X) in Hx. simpl in Hx. apply (H x U Hx). rewrite <- Hl. symmetry.
    apply (e_types X). intros HL. apply (e_new X) in HL. apply HL, (w_scope (g_wf G)), Hx.
  Qed.

  (** Quantified function types are inhabited once all their instances are. *)
  Fixpoint nabs (d : dty) : nat := match d with DAbs t => S (nabs t) | _ => 0 end.
  Fixpoint absfn (d : dty) : Prop := match d with DAbs t => absfn t | DFn _ _ => True | _ => False end.
  Lemma absfn_sub d : forall k U, absfn d -> absfn (dsub k U d) /\ nabs (dsub k U d) = nabs d.
  Proof.
    induction d; simpl; intros k0 U H; try tauto. destruct (IHd (S k0) U H) as [A B]. split; auto.
  Qed.
  Lemma vt_chain v n : forall d, nabs d = n -> absfn d -> (forall D, inst d D -> vt v D) -> vt v d.
  Proof.
    induction n as [|n IH]; intros d E A H; destruct d; simpl in *; try discriminate; try tauto.
    - apply H. constructor.
    - apply vt_abs. intros U HU. destruct (absfn_sub d 0 U A) as [A1 A2]. apply IH; auto; try lia.
      intros D HD. apply H. econstructor; eauto.
  Qed.
  Lemma strip_absfn v : forall s ta s' ps body g ctx,
    check_expr limit v s = Some (ta, s') -> strip_pis v = ELam ps body -> absfn (tr ctx g ta).
  Proof.
    induction v using expr_ind'; simpl; intros s0 ta s' ps0 body g ctx HC HS; try discriminate.
    - destruct (iterS _ ps s0); [|discriminate]. destruct (check_expr limit v v0) as [[tb s2]|]; [|discriminate].
      destruct (iterS _ _ s2); [|discriminate]. injection HC as <- <-. simpl. auto.
    - destruct (enter_ty v s0); [|discriminate].
      destruct (check_expr limit v0 v1) as [[t2 s2]|] eqn:E; [|discriminate]. destruct (exit_ty v s2); [|discriminate].
      injection HC as <- <-. simpl. eapply IHv; eauto.
  Qed.

  Lemma strip_fresh v : forall s ta s' ps body,
    check_expr limit v s = Some (ta, s') -> strip_pis v = ELam ps body -> prenex ta = true ->
    forall x, In x (tbind ta) -> ~ In x (v_defty s).
  Proof.
    induction v using expr_ind'; intros s0 ta s' ps0 body HC HS PX x Hx; simpl in HC, HS; try discriminate.
    - destruct (iterS _ ps s0); [|discriminate]. destruct (check_expr limit v v0) as [[tb s2]|]; [|discriminate].
      destruct (iterS _ _ s2); [|discriminate]. injection HC as <- <-.
      rewrite mono_tbind in Hx; auto.
    - destruct (enter_ty v s0) as [s1|] eqn:E1; [|discriminate].
      destruct (check_expr limit v0 s1) as [[t2 s2]|] eqn:E; [|discriminate]. destruct (exit_ty v s2); [|discriminate].
      injection HC as <- <-. apply enter_ty_ext in E1 as (_ & Hv & Hd & _).
      destruct Hx as [<-|Hx]; auto. intros Hi. eapply IHv; eauto. rewrite Hd. simpl; auto.
  Qed.

  (** The state in which the body of an instantiated recursive function was checked. *)
  Lemma strip_inst v : forall s ta s' ps body g D,
    good s -> cl g -> check_expr limit v s = Some (ta, s') -> plain p (v_scopety s) v = true ->
    strip_pis v = ELam ps body -> inst (tr [] g ta) D ->
    exists s1 T1 s2 g1 P Q,
      good s1 /\ cl g1 /\ check_expr limit body s1 = Some (T1, s2) /\ plain p (v_scopety s1) body = true /\
      D = DFn (map (fun q => tr [] g1 (snd q)) ps) (tr [] g1 T1) /\
      NoDup (map fst ps) /\ (forall q, In q ps -> lookup (fst q) (v_types s1) = Some (snd q)) /\
      ext (map fst ps) P Q s s1 /\ (forall x, In x P -> In x (map fst ps)) /\
      (forall x, In x (v_defty s) -> g1 x = g x).
  Proof.
    induction v using expr_ind'; simpl; intros s0 ta s' ps0 body g D G Hg HC PL HS HI; try discriminate.
    - injection HS as -> ->. apply andb_true_iff in PL as [P1 P2].
      destruct (iterS _ ps0 s0) as [s1|] eqn:E1; [|discriminate].
      destruct (check_expr limit body s1) as [[tb s2]|] eqn:E2; [|discriminate].
      destruct (iterS _ _ s2); [|discriminate]. injection HC as <- <-.
      destruct (params_ext limit ps0 (g_wf G) E1) as [X1 W1].
      apply params_good in E1 as [G1 R1]; auto.
      inversion HI; subst. exists s1, tb, s2, g, (rev (map fst ps0)), [].
      split; auto. split; auto. split; auto. split; [rewrite (e_scopety X1); auto|].
      split; [rewrite map_map; auto|]. split; [apply (e_nd X1)|]. split; [intros q Hq; apply R1; auto|].
      split; auto. split; auto. intros x Hx. apply in_rev; auto.
    - destruct (enter_ty v s0) as [s1|] eqn:E1; [|discriminate].
      destruct (check_expr limit v0 s1) as [[t2 s2]|] eqn:E2; [|discriminate].
      destruct (exit_ty v s2) as [s3|] eqn:E3; [|discriminate]. injection HC as <- <-.
      pose proof (good_enter_ty _ G E1) as G1.
      apply enter_ty_ext in E1 as (X & Hv & Hd & HT).
      simpl in HI. inversion HI as [|t U D' HU HI' ]; subst. rewrite tr_inst0 in HI'; auto.
      destruct (IHv s1 t2 s2 ps0 body (upd g v U) D G1) as (s4 & T1 & s5 & g1 & P & Q & R); auto using upd_cl.
      { rewrite (e_scopety X). auto. }
      destruct R as (A & B & C & E & F & H & I & J & K & L).
      exists s4, T1, s5, g1. do 2 eexists. do 7 (split; [eassumption|]).
      split; [exact (ext_trans X J)|]. split.
      + intros x Hx. rewrite app_nil_r in Hx. auto.
      + intros x Hx. rewrite L; [|rewrite Hd; simpl; auto]. unfold upd. destruct (Nat.eqb_spec x v); auto.
        subst. tauto.
  Qed.

  Lemma lookup_app {A} x (l m : list (nat * A)) :
    lookup x (l ++ m) = match lookup x l with Some v => Some v | None => lookup x m end.
  Proof. induction l as [|[y v] l IH]; simpl; auto. destruct (Nat.eqb x y); auto. Qed.
  Lemma lookup_none {A} x (l : list (nat * A)) : ~ In x (map fst l) -> lookup x l = None.
  Proof.
    induction l as [|[y v] l IH]; simpl; auto. intros H. destruct (Nat.eqb_spec x y); [subst; tauto|]. apply IH. tauto.
  Qed.
  Lemma lookup_nodup {A} x (v : A) l : NoDup (map fst l) -> In (x, v) l -> lookup x l = Some v.
  Proof.
    induction l as [|[y w] l IH]; simpl; [tauto|]. intros N H. apply NoDup_cons_iff in N as [N1 N2].
    destruct H as [H|H].
    - injection H as -> ->. rewrite Nat.eqb_refl. auto.
    - destruct (Nat.eqb_spec x y); auto. subst. exfalso. apply N1. apply in_map_iff. exists (y, v). auto.
  Qed.
  Lemma map_fst_combine {A B} (l : list A) (m : list B) : length l = length m -> map fst (combine l m) = l.
  Proof. revert m; induction l; destruct m; simpl; intros; try discriminate; f_equal; auto. Qed.
  Lemma lookup_add_in en ns : forall (vs : list value) x v, NoDup ns -> length ns = length vs ->
    In (x, v) (combine ns vs) -> lookup x (add_all en ns vs) = Some v.
  Proof.
    intros vs x v N L H. rewrite add_all_eq; auto. rewrite lookup_app.
    rewrite (@lookup_nodup _ x v); auto.
    - rewrite map_rev, map_fst_combine; auto. apply NoDup_rev; auto.
    - apply -> in_rev; auto.
  Qed.
  Lemma lookup_add_out en ns (vs : list value) x : length ns = length vs ->
    ~ In x ns -> lookup x (add_all en ns vs) = lookup x en.
  Proof.
    intros L H. rewrite add_all_eq; auto. rewrite lookup_app, lookup_none; auto.
    rewrite map_rev, map_fst_combine; auto. intros Hi. apply H, in_rev; auto.
  Qed.
  Lemma Forall2_length {A B} (R : A -> B -> Prop) l m : Forall2 R l m -> length l = length m.
  Proof. induction 1; simpl; auto. Qed.
  Lemma Forall2_combine {A} (vs : list value) (f : A -> dty) (qs : list A) q :
    Forall2 vt vs (map f qs) -> In q qs -> forall ns : list nat, length ns = length qs ->
    exists v, vt v (f q) /\ forall (h : A -> nat), ns = map h qs -> In (h q, v) (combine ns vs).
  Proof.
    revert vs. induction qs as [|q' qs IH]; simpl; intros vs H Hq ns L; [tauto|].
    inversion H as [|v ? vs' ? Hv Hvs]; subst. destruct ns as [|n ns]; [discriminate|]. destruct Hq as [->|Hq].
    - exists v. split; auto. intros h E. injection E as -> ->. simpl; auto.
    - destruct (IH vs' Hvs Hq ns) as (w & A1 & A2); auto. exists w. split; auto.
      intros h E. injection E as -> ->. simpl. right. apply A2; auto.
  Qed.

  Section Dyn.
    Variable o : order.
    Definition safe_at (n : nat) : Prop :=
      forall e s T s' g en, good s -> cl g -> plain p (v_scopety s) e = true ->
        check_expr limit e s = Some (T, s') -> env_ok s g en -> ok_res (eval_o o n en e) (tr [] g T).

    Lemma call_safe n f vs Ds Do :
      (forall k, n = S k -> safe_at k) ->
      vt f (DFn Ds Do) -> Forall2 vt vs Ds -> ok_res (call_o o n f vs) Do.
    Proof.
      intros IH Hf Hvs. pose proof (Forall2_length Hvs) as HL.
      inversion Hf as [| | | |en ps body s T s' g G Hg HC PL ND HP HE E1 E2|en m ps body v s ta s' t g Ds' Do' G Hg HC PL HS Hl Hn HEQ HE HI E1 E2|]; subst; simpl.
      - rewrite map_length in HL. rewrite map_length, HL, Nat.eqb_refl.
        destruct n as [|k]; [simpl; auto|].
        eapply (IH k eq_refl); eauto.
        intros x U Hx Hl. destruct (in_dec Nat.eq_dec x (map fst ps)) as [Hi|Hi].
        + apply in_map_iff in Hi as (q & <- & Hq). rewrite (HP q Hq) in Hl. injection Hl as <-.
          destruct (Forall2_combine (fun q => tr [] g (snd q)) _ _ Hvs Hq (map fst ps)) as (w & A & B).
          { apply map_length. }
          exists w. split; auto. apply lookup_add_in; auto. rewrite map_length; auto.
        + destruct (HE x U Hx Hi Hl) as (w & A & B). exists w. split; auto.
          rewrite lookup_add_out; auto. rewrite map_length; auto.
      - destruct (strip_inst v G Hg HC PL HS HI) as (s1 & T1 & s2 & g1 & P & Q & R).
        destruct R as (G1 & Hg1 & C1 & PL1 & ED & ND & HP & X1 & HPP & Hgg).
        injection ED as -> ->. rewrite map_length in HL. rewrite map_length, HL, Nat.eqb_refl.
        destruct n as [|k]; [simpl; auto|].
        eapply (IH k eq_refl); eauto.
        assert (Hnm : ~ In m (map fst ps)).
        { intros Hi. apply (e_new X1) in Hi. apply Hi, (w_scope (g_wf G)), Hn. }
        intros x U Hx Hlx. unfold call_env. simpl. destruct (Nat.eqb_spec x m) as [->|Hxm].
        + exists (VFn en (Some m) (map fst ps) body). split; auto.
          assert (EU : U = t) by (rewrite (e_types X1) in Hlx; congruence). subst U.
          replace (tr [] g1 t) with (tr [] g t).
          2:{ apply tr_ext. intros y Hy _. symmetry. apply Hgg.
              apply (w_scopety (g_wf G)). apply (t_fv (g_ty G _ Hn Hl)), Hy. }
          rewrite <- HEQ; auto.
          eapply vt_chain; [reflexivity|eapply strip_absfn; eauto|].
          intros D HD. destruct (inst_isfn HD) as (Ds & Do & ->). exact (@vt_rec en m ps body v s ta s' t g Ds Do G Hg HC PL HS Hl Hn HEQ HE HD).
        + destruct (in_dec Nat.eq_dec x (map fst ps)) as [Hi|Hi].
          * apply in_map_iff in Hi as (q & <- & Hq). rewrite (HP q Hq) in Hlx. injection Hlx as <-.
            destruct (Forall2_combine (fun q => tr [] g1 (snd q)) _ _ Hvs Hq (map fst ps)) as (w & A & B).
            { apply map_length. }
            exists w. split; auto. apply lookup_add_in; auto. rewrite map_length; auto.
          * rewrite (e_scope X1) in Hx. apply in_app_iff in Hx as [Hx|Hx]; [exfalso; auto|].
            rewrite (e_types X1) in Hlx; auto.
            destruct (HE x U Hx Hxm Hlx) as (w & A & B). exists w. split.
            { rewrite lookup_add_out; auto. rewrite map_length; auto. }
            replace (tr [] g1 U) with (tr [] g U); auto.
            apply tr_ext. intros y Hy _. symmetry. apply Hgg.
            apply (w_scopety (g_wf G)). apply (t_fv (g_ty G _ Hx Hlx)), Hy.
    Qed.

    Definition safe_e (n : nat) (e : expr) : Prop :=
      forall s T s' g en, good s -> cl g -> plain p (v_scopety s) e = true ->
        check_expr limit e s = Some (T, s') -> env_ok s g en -> ok_res (eval_o o n en e) (tr [] g T).

    Lemma args_each n en xs : Forall (safe_e n) xs -> forall ps s s' g D,
      good s -> cl g -> v_scopety s = D -> forallb (plain p D) xs = true -> forallb monob ps = true ->
      length ps = length xs -> argsS (check_expr limit) xs ps s = Some s' -> env_ok s g en ->
      Forall2 (fun x d => ok_res (eval_o o n en x) d) xs (map (tr [] g) ps).
    Proof.
      induction 1 as [|x xs Hx _ IH]; intros [|q ps] s s' g D G Hg ED PL M L H HE; simpl in *; try discriminate.
      - constructor.
      - apply andb_true_iff in PL as [P1 P2]. apply andb_true_iff in M as [M1 M2].
        destruct (check_expr limit x s) as [[T s1]|] eqn:E; [|discriminate].
        destruct (assert (fits T q)) eqn:E2; [|discriminate]. apply assert_some in E2.
        apply fits_eq in E2; auto. subst q.
        pose proof (check_expr_ext limit x (g_wf G) E) as X. pose proof (good_ext0 G X) as G1.
        constructor.
        + eapply Hx; [exact G|exact Hg| |exact E|exact HE]. rewrite ED. auto.
        + apply (IH ps s1 s' g D G1 Hg); auto.
          * rewrite (e_scopety X). auto.
          * exact (env_ext G X HE).
    Qed.
    Lemma fields_each n en vars tys xs : Forall (safe_e n) xs -> forall ps s s' g D,
      good s -> cl g -> v_scopety s = D -> forallb (plain p D) xs = true ->
      (forall q, In q ps -> monob (replace_all q vars tys) = true) ->
      length ps = length xs -> fieldsS (check_expr limit) vars tys xs ps s = Some s' -> env_ok s g en ->
      Forall2 (fun x d => ok_res (eval_o o n en x) d) xs (map (fun q => tr [] g (replace_all q vars tys)) ps).
    Proof.
      induction 1 as [|x xs Hx _ IH]; intros [|q ps] s s' g D G Hg ED PL M L H HE; simpl in *; try discriminate.
      - constructor.
      - apply andb_true_iff in PL as [P1 P2].
        destruct (check_expr limit x s) as [[T s1]|] eqn:E; [|discriminate].
        destruct (assert _) eqn:E2; [|discriminate]. apply assert_some in E2.
        apply fits_eq in E2; auto.
        pose proof (check_expr_ext limit x (g_wf G) E) as X. pose proof (good_ext0 G X) as G1.
        constructor.
        + rewrite E2. eapply Hx; [exact G|exact Hg| |exact E|exact HE]. rewrite ED. auto.
        + apply (IH ps s1 s' g D G1 Hg); auto.
          * rewrite (e_scopety X). auto.
          * exact (env_ext G X HE).
    Qed.
    Lemma each_mapM n en xs ds :
      Forall2 (fun x d => ok_res (eval_o o n en x) d) xs ds -> ok_list (mapM (eval_o o n en) xs) ds.
    Proof.
      induction 1 as [|x d xs ds Hx _ IH]; simpl; [constructor|].
      destruct (eval_o o n en x); simpl in *; auto.
      destruct (mapM (eval_o o n en) xs); simpl in *; auto.
    Qed.

    Lemma ok_int r : ok_res r DInt -> (exists i, r = Ok (VInt i)) \/ (exists m, r = Trap m) \/ r = OutOfFuel.
    Proof. destruct r as [v|m| |]; simpl; intros H; [inversion H; subst; eauto | right; left; eauto | tauto | auto]. Qed.
    Lemma ok_str r : ok_res r DStr -> (exists i, r = Ok (VStr i)) \/ (exists m, r = Trap m) \/ r = OutOfFuel.
    Proof. destruct r as [v|m| |]; simpl; intros H; [inversion H; subst; eauto | right; left; eauto | tauto | auto]. Qed.
    Lemma ok_bool r : ok_res r DBool -> (exists i, r = Ok (VBool i)) \/ (exists m, r = Trap m) \/ r = OutOfFuel.
    Proof. destruct r as [v|m| |]; simpl; intros H; [inversion H; subst; eauto | right; left; eauto | tauto | auto]. Qed.

    Lemma eval_op_vt op a b g : vt (eval_op op a b) (tr [] g (op_result op)).
    Proof. destruct op; simpl; constructor. Qed.

    Ltac steps := repeat match goal with
      | H : ok_res (eval_o _ _ _ _) DInt |- _ => apply ok_int in H as [[? H]|[[? H]|H]]; rewrite H; clear H; simpl; auto
      | H : ok_res (eval_o _ _ _ _) DStr |- _ => apply ok_str in H as [[? H]|[[? H]|H]]; rewrite H; clear H; simpl; auto
      end.
    Lemma intr_safe n en i xs g :
      Forall2 (fun x d => ok_res (eval_o o n en x) d) xs (map (tr [] g) (intr_params i)) ->
      ok_res (eval_o o n en (EIntr i xs)) (tr [] g (intr_result i)).
    Proof.
      intros H. rewrite eval_unfold. destruct i; simpl in H |- *;
        repeat match goal with H : Forall2 _ _ (_ :: _) |- _ => inversion H; clear H; subst
                          | H : Forall2 _ _ [] |- _ => inversion H; clear H; subst end;
        steps; constructor.
    Qed.

    Lemma binds_in (bs : list nat) (fs : list value) : forall (fields : list ty) (f : ty -> dty) b,
      length fields = length bs -> Forall2 vt fs (map f fields) -> In b bs ->
      exists fl v, In (fl, b) (combine fields bs) /\ In (b, v) (combine bs fs) /\ vt v (f fl).
    Proof.
      revert fs. induction bs as [|b' bs IH]; simpl; intros fs fields f b L H Hb; [tauto|].
      destruct fields as [|fl fields]; [discriminate|]. simpl in *. inversion H as [|v ? fs' ? Hv Hvs]; subst.
      destruct Hb as [->|Hb].
      - exists fl, v. simpl; auto.
      - destruct (IH fs' fields f b) as (fl' & v' & A & B & C); auto. exists fl', v'. simpl. auto.
    Qed.

    (** Running the selected branch. *)
    Lemma branches_safe n en mt targs c fs brs : Forall (fun br => safe_e n (snd br)) brs -> forall t s t' s' g D,
      good s -> cl g -> v_scopety s = D -> forallb (fun br => plain p D (snd br)) brs = true ->
      tyok s (TNamed mt targs) ->
      branchesS limit (check_expr limit) mt targs brs t s = Some (t', s') ->
      env_ok s g en -> vt (VComp c fs) (DNamed mt (map (tr [] g) targs)) ->
      (forall t0, t = Some t0 -> t' = Some t0) /\
      match find_branch c brs with
      | Some (bs, b) => length bs = length fs /\
                        exists T, t' = Some T /\ ok_res (eval_o o n (add_all en bs fs) b) (tr [] g T)
      | None => True
      end.
    Proof.
      induction 1 as [|[[c' bs] v] brs Hx _ IH]; simpl; intros t s t' s' g D G Hg ED PL TN H HE HV.
      - injection H as <- <-. auto.
      - apply andb_true_iff in PL as [P1 P2].
        destruct (lookup c' (v_ctors s)) as [[[tn vars] fields]|] eqn:EC; [|discriminate].
        rewrite (g_ct G) in EC.
        destruct (assert (mt =? tn)) eqn:E1; [|discriminate]. apply assert_some, Nat.eqb_eq in E1. subst tn.
        destruct (assert (length vars =? length targs)) eqn:E2; [|discriminate]. apply assert_some, Nat.eqb_eq in E2.
        destruct (assert (length fields =? length bs)) eqn:EL; [|discriminate].
        apply assert_some, Nat.eqb_eq in EL.
        destruct (iterS (bind_in limit vars targs) (combine fields bs) s) as [s1|] eqn:E3; [|discriminate].
        destruct (binds_ext limit vars targs _ (g_wf G) E3) as (X1 & W1 & DD1).
        apply binds_good in E3 as [G1 R1]; auto.
        2:{ intros f b Hi. eapply match_tyok; eauto. eapply in_combine_l; eauto. }
        rewrite map_snd_combine in X1; auto.
        destruct (check_expr limit v s1) as [[tv s2]|] eqn:E4; [|discriminate].
        pose proof (check_expr_ext limit v (g_wf G1) E4) as X2.
        match type of H with match ?x with _ => _ end = _ => destruct x as [t1|] eqn:E5; [|discriminate] end.
        destruct (iterS exit bs s2) as [s3|] eqn:E6; [|discriminate].
        destruct (exits_ext _ (ext_trans X1 X2) (g_wf G) E6) as [X3 ES].
        { simpl. intros x. rewrite <- in_rev. auto. }
        { intros x Hi. apply in_app_iff; auto. }
        pose proof (good_ext0 G X3) as G3.
        assert (D3 : v_scopety s3 = D) by (rewrite (e_scopety X3); auto).
        destruct (IH t1 s3 t' s' g D G3 Hg D3 P2 (tyok_ext X3 TN) H (env_ext G X3 HE) HV) as [K1 K2].
        assert (TV : t1 = Some tv).
        { destruct t as [t0|]; [|congruence]. destruct (ty_eqb t0 tv) eqn:Et; [|discriminate].
          apply ty_eqb_eq in Et. congruence. }
        split.
        { intros t0 ->. apply K1. destruct (ty_eqb t0 tv); congruence. }
        destruct (Nat.eqb_spec c' c) as [->|Hc]; auto.
        inversion HV as [| | |c0 tn0 vars0 fields0 args0 fs0 Hl0 HL0 HF0 E7 E8| | |]; subst.
        rewrite EC in Hl0. injection Hl0 as <- <-.
        assert (LF : length bs = length fs).
        { apply Forall2_length in HF0. rewrite map_length in HF0. lia. }
        split; auto. exists tv. split; auto.
        eapply Hx; [exact G1|exact Hg| |exact E4|].
        { simpl. rewrite (e_scopety X1). simpl. auto. }
        assert (EQ : forall f, In f fields -> tr [] g (replace_all f vars targs) =
                                       tr [] (upds g0 vars (map (tr [] g) targs)) f).
        { intros f Hf. destruct (CT_fields _ _ EC Hf) as [M F].
          rewrite tr_replace_all; auto.
          - apply tr_ext. intros x Hx' _. apply upds_in; auto. 
          - pose proof (t_rank TN) as R. simpl in R. rewrite forallb_forall in R. auto.
          - intros U x HU Hx' Hv. apply (g_vars G _ _ EC Hv). apply (t_fv TN). simpl. apply in_flat_map. eauto. }
        intros x U Hsc Hlk. destruct (in_dec Nat.eq_dec x bs) as [Hi|Hi].
        + destruct (binds_in bs fields _ x EL HF0 Hi) as (fl & w & A & B & C).
          destruct (R1 _ _ A) as [_ R]. rewrite R in Hlk. injection Hlk as <-.
          exists w. split.
          * apply lookup_add_in; auto. apply (e_nd X1).
          * rewrite EQ; auto. eapply in_combine_l; eauto.
        + rewrite (e_scope X1) in Hsc. apply in_app_iff in Hsc as [Hsc|Hsc]; [exfalso; apply Hi, in_rev; auto|].
          rewrite (e_types X1) in Hlk; auto. destruct (HE x U Hsc Hlk) as (w & A & B). exists w. split; auto.
          rewrite lookup_add_out; auto.
    Qed.
    Lemma branches_mt mt targs brs : forall t s t' s' c bs b,
      wfs s -> branchesS limit (check_expr limit) mt targs brs t s = Some (t', s') -> In ((c, bs), b) brs ->
      exists vars fields, lookup c (v_ctors s) = Some (mt, vars, fields).
    Proof.
      induction brs as [|[[c' bs'] v] brs IH]; simpl; intros t s t' s' c bs b W H Hi; [tauto|].
      destruct (lookup c' (v_ctors s)) as [[[tn vars] fields]|] eqn:EC; [|discriminate].
      destruct (assert (mt =? tn)) eqn:E1; [|discriminate]. apply assert_some, Nat.eqb_eq in E1. subst tn.
      destruct (assert (length vars =? length targs)) eqn:E2; [|discriminate].
      destruct (assert (length fields =? length bs')) eqn:EL; [|discriminate].
      apply assert_some, Nat.eqb_eq in EL.
      destruct (iterS (bind_in limit vars targs) (combine fields bs') s) as [s1|] eqn:E3; [|discriminate].
      destruct (binds_ext limit vars targs _ W E3) as (X1 & W1 & DD1).
      rewrite map_snd_combine in X1; auto.
      destruct (check_expr limit v s1) as [[tv s2]|] eqn:E4; [|discriminate].
      pose proof (check_expr_ext limit v W1 E4) as X2.
      match type of H with match ?x with _ => _ end = _ => destruct x as [t1|] eqn:E5; [|discriminate] end.
      destruct (iterS exit bs' s2) as [s3|] eqn:E6; [|discriminate].
      destruct (exits_ext _ (ext_trans X1 X2) W E6) as [X3 ES].
      { simpl. intros x. rewrite <- in_rev. auto. }
      { intros x Hj. apply in_app_iff; auto. }
      destruct Hi as [E|Hi].
      - injection E as <- <- <-. eauto.
      - rewrite <- (e_ctors X3). eapply IH; [|exact H|exact Hi]. eapply ext0_wfs; eauto.
    Qed.
    Lemma find_branch_some c brs : In c (map (fun br : name * list name * expr => fst (fst br)) brs) ->
      find_branch c brs <> None.
    Proof.
      induction brs as [|[[c' bs] b] brs IH]; simpl; [tauto|]. destruct (Nat.eqb_spec c' c); [discriminate|].
      intros [?|?]; auto; congruence.
    Qed.
    Lemma covered_find mt targs brs t s t' s' c vars fields :
      good s -> branchesS limit (check_expr limit) mt targs brs t s = Some (t', s') -> covered p brs = true ->
      lookup c CT = Some (mt, vars, fields) -> find_branch c brs <> None.
    Proof.
      intros G H C Hl. destruct brs as [|[[c0 bs0] b0] brs]; [discriminate|].
      destruct (branches_mt _ _ _ _ _ _ _ (g_wf G) H (or_introl eq_refl)) as (vars0 & fields0 & H0).
      rewrite (g_ct G) in H0. apply CT_spec in H0 as (td0 & I0 & N0 & _ & C0).
      apply CT_spec in Hl as (td & I1 & N1 & _ & C1).
      unfold covered in C. apply existsb_exists in C as (td2 & I2 & C2). apply andb_true_iff in C2 as [C2 C3].
      apply mem_In in C2. apply in_map_iff in C2 as ([c2 f2] & E2 & C2). simpl in E2. subst c2.
      assert (L2 : lookup c0 CT = Some (td_name td2, td_vars td2, f2)) by (apply CT_spec; eauto).
      assert (L0 : lookup c0 CT = Some (td_name td0, td_vars td0, fields0)) by (apply CT_spec; eauto).
      assert (E : td2 = td) by (apply TD_inj; auto; congruence). subst td2.
      rewrite forallb_forall in C3. apply C3 in C1. apply mem_In in C1. simpl in C1.
      apply find_branch_some. auto.
    Qed.

    Theorem safe_all n : safe_at n.
    Proof.
      induction n as [n IHn] using lt_wf_ind.
      assert (IH : forall k, n = S k -> safe_at k) by (intros k ->; apply IHn; lia). clear IHn.
      intros e. induction e using expr_ind'; intros s0 T s' g en G Hg PL HH HE; simpl in PL; rewrite ?andb_true_iff in PL;
        rewrite eval_unfold; simpl; simpl in HH.
      1-3: (injection HH as <- <-; constructor).
      - destruct (assert _) eqn:E; [|discriminate]. apply assert_some, mem_In in E.
        destruct (lookup _ (v_types s0)) eqn:E2; [|discriminate]. injection HH as <- <-.
        destruct (HE _ _ E E2) as (v & -> & Hv). auto.
      - destruct PL as [P1 P2].
        destruct (check_expr limit e s0) as [[tf s1]|] eqn:E1; [|discriminate].
        destruct tf as [| | | | |ps r|]; try discriminate. destruct (assert _) eqn:EL; [|discriminate].
        apply assert_some, Nat.eqb_eq in EL.
        destruct (argsS _ _ _ _) as [s2|] eqn:E2; [|discriminate]. injection HH as <- <-.
        pose proof (check_expr_ext limit e (g_wf G) E1) as X1. pose proof (good_ext0 G X1) as G1.
        pose proof (check_tyok _ G P1 E1) as TK.
        pose proof (IHe _ _ _ g en G Hg P1 E1 HE) as HF.
        assert (HA : ok_list (mapM (eval_o o n en) args) (map (tr [] g) ps)).
        { apply each_mapM. eapply args_each; [exact H|exact G1|exact Hg| |exact P2| | |exact E2|].
          - apply (e_scopety X1). - pose proof (t_rank TK) as R. simpl in R. apply andb_true_iff in R. tauto.
          - auto. - exact (env_ext G X1 HE). }
        assert (CS : forall fv vs, vt fv (DFn (map (tr [] g) ps) (tr [] g r)) -> Forall2 vt vs (map (tr [] g) ps) ->
                       ok_res (call_o o n fv vs) (tr [] g r)) by (intros fv vs; apply (call_safe IH)).
        simpl in HF. destruct o.
        + destruct (eval_o FnFirst n en e) as [fv| | |]; simpl in *; auto.
          destruct fv; try (inversion HF; fail).
          destruct (mapM (eval_o FnFirst n en) args) as [vs| | |]; simpl in *; auto.
          apply (CS _ _ HF HA).
        + destruct (mapM (eval_o ArgsFirst n en) args) as [vs| | |]; simpl in *; auto.
          destruct (eval_o ArgsFirst n en e) as [fv| | |]; simpl in *; auto.
      - destruct PL as [[P1 P2] P3].
        destruct (check_expr limit e1 s0) as [[t1 s1]|] eqn:E1; [|discriminate].
        destruct (assert _) eqn:EB; [|discriminate]. apply assert_some in EB. apply fits_eq in EB; auto. subst t1.
        destruct (check_expr limit e2 s1) as [[t2 s2]|] eqn:E2; [|discriminate].
        destruct (check_expr limit e3 s2) as [[t3 s3]|] eqn:E3; [|discriminate].
        destruct (assert _) eqn:EE in HH; [|discriminate]. apply assert_some, ty_eqb_eq in EE. injection HH as <- <-. subst t3.
        pose proof (check_expr_ext limit e1 (g_wf G) E1) as X1. pose proof (good_ext0 G X1) as G1.
        pose proof (check_expr_ext limit e2 (g_wf G1) E2) as X2. pose proof (good_ext0 G1 X2) as G2.
        pose proof (IHe1 _ _ _ g en G Hg P1 E1 HE) as H1.
        pose proof (env_ext G X1 HE) as HE1. pose proof (env_ext G1 X2 HE1) as HE2.
        assert (H2 : ok_res (eval_o o n en e2) (tr [] g t2)).
        { eapply IHe2; [exact G1|exact Hg| |exact E2|auto]. rewrite (e_scopety X1). auto. }
        assert (H3 : ok_res (eval_o o n en e3) (tr [] g t2)).
        { eapply IHe3; [exact G2|exact Hg| |exact E3|auto]. rewrite (e_scopety X2). simpl. rewrite (e_scopety X1). auto. }
        apply ok_bool in H1 as [[b ->]|[[m ->]| ->]]; simpl; auto. destruct b; auto.
      - destruct PL as [P1 P2].
        destruct (check_expr limit e1 s0) as [[t1 s1]|] eqn:E1; [|discriminate].
        destruct (assert _) eqn:EA; [|discriminate]. apply assert_some in EA. apply fits_eq in EA; auto. subst t1.
        destruct (check_expr limit e2 s1) as [[t2 s2]|] eqn:E2; [|discriminate].
        destruct (assert _) eqn:EB in HH; [|discriminate]. apply assert_some in EB. apply fits_eq in EB; auto. subst t2.
        injection HH as <- <-.
        pose proof (check_expr_ext limit e1 (g_wf G) E1) as X1. pose proof (good_ext0 G X1) as G1.
        pose proof (IHe1 _ _ _ g en G Hg P1 E1 HE) as H1.
        assert (H2 : ok_res (eval_o o n en e2) (tr [] g TInt)).
        { eapply IHe2; [exact G1|exact Hg| |exact E2|exact (env_ext G X1 HE)]. rewrite (e_scopety X1). auto. }
        apply ok_int in H1 as [[x ->]|[[m ->]| ->]]; simpl; auto.
        apply ok_int in H2 as [[y ->]|[[m ->]| ->]]; simpl; auto. apply eval_op_vt.
      - destruct (assert _) eqn:EL; [|discriminate]. apply assert_some, Nat.eqb_eq in EL.
        destruct (argsS _ _ _ _) as [s2|] eqn:E2; [|discriminate]. injection HH as <- <-.
        assert (HA : Forall2 (fun x d => ok_res (eval_o o n en x) d) args (map (tr [] g) (intr_params i))).
        { eapply args_each; [exact H|exact G|exact Hg|reflexivity|exact PL| | |exact E2|auto]; auto. destruct i; auto. }
        apply intr_safe in HA. rewrite eval_unfold in HA. exact HA.
      - destruct PL as [P1 P2].
        destruct (iterS _ ps s0) as [s1|] eqn:E1; [|discriminate].
        destruct (check_expr limit e s1) as [[t1 s2]|] eqn:E2; [|discriminate].
        rewrite param_outs in HH.
        destruct (iterS _ _ s2) as [s3|] eqn:E3; [|discriminate]. injection HH as <- <-.
        destruct (params_ext limit ps (g_wf G) E1) as [X1 W1].
        apply params_good in E1 as [G1 R1]; auto. simpl. rewrite map_map.
        eapply vt_fn; [exact G1|exact Hg|exact E2| | | |].
        + rewrite (e_scopety X1). auto.
        + apply (e_nd X1).
        + intros q Hq. apply R1; auto.
        + intros x U Hx Hn Hl. rewrite (e_scope X1) in Hx.
          apply in_app_iff in Hx as [Hx|Hx]; [exfalso; apply Hn, in_rev; auto|].
          rewrite (e_types X1) in Hl; auto.
      - destruct PL as [[P1 PC] P2].
        destruct (check_expr limit e s0) as [[td s1]|] eqn:E1; [|discriminate].
        destruct td as [| | | |mt targs| |]; try discriminate.
        destruct (branchesS _ _ _ _ _ _ _) as [[t2 s2]|] eqn:E2; [|discriminate].
        destruct t2 as [t2|]; [|discriminate]. injection HH as <- <-.
        pose proof (check_expr_ext limit e (g_wf G) E1) as X1. pose proof (good_ext0 G X1) as G1.
        pose proof (check_tyok _ G P1 E1) as TK.
        pose proof (IHe _ _ _ g en G Hg P1 E1 HE) as HV. simpl in HV.
        destruct (eval_o o n en e) as [dv| | |]; simpl in *; auto.
        destruct dv as [| | |c fs|]; try (inversion HV; fail).
        assert (D1 : v_scopety s1 = v_scopety s0) by (rewrite (e_scopety X1); auto).
        destruct (@branches_safe n en mt targs c fs brs H None s1 (Some t2) s2 g _ G1 Hg D1 P2 TK E2 (env_ext G X1 HE) HV) as [_ HB].
        inversion HV as [| | |c0 tn0 vars0 fields0 args0 fs0 Hl0 HL0 HF0 E7 E8| | |]; subst.
        pose proof (@covered_find _ _ _ _ _ _ _ _ _ _ G1 E2 PC Hl0) as HN.
        destruct (find_branch c brs) as [[bs b]|]; [|congruence].
        destruct HB as [L (T & ET & HB)]. injection ET as <-. rewrite L, Nat.eqb_refl. auto.
      - destruct PL as [[P1 PC] P2].
        destruct (lookup c (v_ctors s0)) as [[[tn vars] ftys]|] eqn:EC; [|discriminate].
        destruct (assert _) eqn:EV; [|discriminate]. apply assert_some, Nat.eqb_eq in EV.
        destruct (assert _) eqn:EL in HH; [|discriminate].
        apply assert_some, Nat.eqb_eq in EL.
        destruct (fieldsS _ _ _ _ _ _) as [s1|] eqn:E1; [|discriminate]. injection HH as <- <-.
        rewrite (g_ct G) in EC.
        assert (MI : forall w0, In w0 tys -> monob w0 = true /\ forall x, In x (fv w0) -> In x (v_scopety s0)).
        { rewrite forallb_forall in P1. intros w0 Hw0. apply mono_in_spec; auto. }
        assert (HA : ok_list (mapM (eval_o o n en) fs) (map (fun q => tr [] g (replace_all q vars tys)) ftys)).
        { apply each_mapM. eapply fields_each; [exact H|exact G|exact Hg|reflexivity|exact P2| | |exact E1|auto]; auto.
          intros q Hq. apply replace_all_mono.
          - eapply CT_fields; eauto. - intros U HU. apply MI; auto. }
        destruct (mapM (eval_o o n en) fs) as [vs| | |]; simpl in *; auto.
        pose proof (Forall2_length HA) as LA. rewrite map_length in LA.
        unfold mk_tagged, max_fields. apply Nat.leb_le in PC.
        destruct (Nat.leb_spec (length vs) 9); [|lia]. simpl.
        eapply vt_comp; eauto.
        + rewrite map_length; auto.
        + replace (map (tr [] (upds g0 vars (map (tr [] g) tys))) ftys) with
                  (map (fun q => tr [] g (replace_all q vars tys)) ftys); auto.
          apply map_ext_in. intros f Hf. destruct (CT_fields _ _ EC Hf) as [M F].
          rewrite tr_replace_all; auto.
          * apply tr_ext. intros x Hx' _. apply upds_in; auto. rewrite map_length; auto.
          * intros U HU. apply MI; auto.
          * intros U x HU Hx' Hv. apply (g_vars G _ _ EC Hv). apply MI in HU as [_ HU]; auto.
      - destruct PL as [P1 P2].
        destruct (check_expr limit e1 s0) as [[t1 s1]|] eqn:E1; [|discriminate].
        destruct (enter _ _ _) as [s2|] eqn:E2; [|discriminate].
        destruct (check_expr limit e2 s2) as [[t2 s3]|] eqn:E3; [|discriminate].
        destruct (exit n0 s3) as [s4|] eqn:E4; [|discriminate]. injection HH as <- <-.
        pose proof (check_expr_ext limit e1 (g_wf G) E1) as X1. pose proof (good_ext0 G X1) as G1.
        pose proof (check_tyok _ G P1 E1) as TK.
        pose proof (IHe1 _ _ _ g en G Hg P1 E1 HE) as H1.
        apply good_let in E2 as (G2 & X2 & EN & IN); auto.
        destruct (eval_o o n en e1) as [vv| | |]; simpl in *; auto.
        eapply IHe2; [exact G2|exact Hg| |exact E3|].
        { rewrite (e_scopety X2). simpl. rewrite (e_scopety X1). auto. }
        intros x U Hx Hl. simpl. destruct (Nat.eqb_spec x n0) as [->|Hn].
        + exists vv. split; auto. congruence.
        + rewrite (e_scope X2) in Hx. destruct Hx as [Hx|Hx]; [congruence|].
          rewrite (e_types X2) in Hl; [|simpl; intuition].
          apply (env_ext G X1 HE); auto.
      - destruct PL as [[[P1 PF] P2] P3].
        destruct (check_ty t s0) as [s1|] eqn:E0; [|discriminate].
        destruct (enter _ _ _) as [s2|] eqn:E2; [|discriminate].
        destruct (check_expr limit e1 _) as [[t1 s3]|] eqn:E1; [|discriminate].
        destruct (assert _) eqn:EF; [|discriminate]. apply assert_some in EF.
        destruct (check_expr limit e2 s3) as [[t2 s4]|] eqn:E3; [|discriminate].
        destruct (exit n0 s4) as [s5|] eqn:E4; [|discriminate]. injection HH as <- <-.
        destruct (good_letrec _ _ G E0 (prenex_rank1 _ P1) E2) as (G2 & X2 & TT & TB).
        assert (P2' : plain p (v_scopety (set_type n0 t s2)) e1 = true) by (rewrite (e_scopety X2); auto).
        pose proof (check_expr_ext limit e1 (g_wf G2) E1) as X3. pose proof (good_ext0 G2 X3) as G3.
        pose proof (check_tyok _ G2 P2' E1) as TK.
        destruct (strip_pis e1) as [| | | | | | | |ps body| | | | | | |] eqn:ES; try discriminate.
        assert (EQ : forall g', cl g' -> tr [] g' t1 = tr [] g' t).
        { intros g' _. unfold fits in EF. destruct (fits_go t1 t []) as [q|] eqn:EG; [|discriminate].
          assert (SC : v_scopety s3 = v_scopety (set_type n0 t s2)) by (rewrite (e_scopety X3); auto).
          assert (PX : prenex t1 = true) by (eapply fits_prenex; eauto).
          eapply (@fits_tr t1 t [] [] (fun x => In x (v_scopety s3))); [exact P1| | | | | | | |exact EG].
          - repeat split; auto using NoDup_nil.
          - apply TK.
          - apply TT.
          - intros x Hx. repeat split; auto.
            + intros Hi. apply TB in Hi. revert Hi. exact (@strip_fresh e1 _ _ _ _ _ E1 ES PX x Hx).
            + apply (t_b TK); auto.
          - intros x Hx. repeat split; auto. rewrite SC. apply (t_b TT); auto.
          - intros x Hx. right. apply (t_fv TK); auto.
          - intros x Hx. right. rewrite SC. apply (t_fv TT); auto. }
        assert (IN : In n0 (v_scope (set_type n0 t s2))) by (rewrite (e_scope X2); simpl; auto).
        assert (EN : lookup n0 (v_types (set_type n0 t s2)) = Some t) by (simpl; rewrite Nat.eqb_refl; auto).
        assert (HE2 : env_ok (set_type n0 t s2) g ((n0, VFn en (Some n0) (map fst ps) body) :: en)).
        { assert (HX : forall x U, In x (v_scope (set_type n0 t s2)) -> x <> n0 ->
                   lookup x (v_types (set_type n0 t s2)) = Some U -> exists v, lookup x en = Some v /\ vt v (tr [] g U)).
          { intros x U Hx Hn Hl. rewrite (e_scope X2) in Hx. destruct Hx as [Hx|Hx]; [congruence|].
            rewrite (e_types X2) in Hl; [|simpl; intuition]. apply HE; auto. }
          intros x U Hx Hl. simpl lookup at 1. destruct (Nat.eqb_spec x n0) as [->|Hn]; auto.
          eexists. split; [reflexivity|]. rewrite EN in Hl. injection Hl as <-. rewrite <- EQ; auto.
          eapply vt_chain; [reflexivity|eapply strip_absfn; eauto|]. intros D HD. destruct (inst_isfn HD) as (Ds & Do & ->).
          eapply vt_rec; [exact G2|exact Hg|exact E1|exact P2'|exact ES|exact EN|exact IN|exact EQ|exact HX|exact HD]. }
        eapply IHe2; [exact G3|exact Hg| |exact E3|].
        { rewrite (e_scopety X3), (e_scopety X2). auto. }
        exact (env_ext G2 X3 HE2).
      - destruct (enter_ty v s0) as [s1|] eqn:E1; [|discriminate].
        destruct (check_expr limit e s1) as [[t2 s2]|] eqn:E2; [|discriminate].
        destruct (exit_ty v s2) as [s3|] eqn:E3; [|discriminate]. injection HH as <- <-.
        pose proof (good_enter_ty _ G E1) as G1.
        apply enter_ty_ext in E1 as (X & Hv & Hd & HT).
        assert (HU : forall U, closed U -> ok_res (eval_o o n en e) (tr [] (upd g v U) t2)).
        { intros U CU. eapply IHe; [exact G1|apply upd_cl; auto| |exact E2|].
          - rewrite (e_scopety X). auto.
          - intros x W Hx Hl. rewrite (e_scope X) in Hx. rewrite HT in Hl. simpl in Hx.
            destruct (HE x W Hx Hl) as (w & A & B). exists w. split; auto.
            replace (tr [] (upd g v U) W) with (tr [] g W); auto. apply tr_ext. intros y Hy _.
            unfold upd. destruct (Nat.eqb_spec y v); auto. subst. exfalso. apply Hv.
            apply (w_scopety (g_wf G)). apply (t_fv (g_ty G _ Hx Hl)), Hy. }
        destruct (eval_o o n en e) as [w| | |]; simpl in *; auto.
        + apply vt_abs. intros U CU. rewrite tr_inst0; auto.
        + apply (HU DInt). intros ? ?; auto.
      - destruct PL as [P1 P2].
        destruct (check_expr limit e s0) as [[te s1]|] eqn:E1; [|discriminate].
        destruct te as [| | | | | |v t']; try discriminate. injection HH as <- <-.
        pose proof (check_expr_ext limit e (g_wf G) E1) as X1.
        pose proof (check_tyok _ G P1 E1) as TK.
        pose proof (IHe _ _ _ g en G Hg P1 E1 HE) as H1. simpl in H1.
        apply mono_in_spec in P2 as [M F2].
        assert (EQ : tr [] g (replace t' v t) = tr [] (upd g v (tr [] g t)) t').
        { destruct (t_nest TK) as [N1 N2]. apply tr_replace; auto.
          intros x Hx. split; auto. intros Hi. destruct (t_b TK x) as [_ HB]; [simpl; auto|].
          apply HB. rewrite (e_scopety X1). simpl. auto. }
        rewrite EQ. destruct (eval_o o n en e) as [w| | |]; simpl in *; auto.
        inversion H1; subst. rewrite <- tr_inst0; auto. apply H2. apply tr_cl; auto.
      - auto.
    Qed.
  End Dyn.
End Safe.
