(** Type safety for whole programs. *)
From Verif Require Import Verify VerifyState VerifyNames TypeSpec TypeTr TypeSafe EvalFacts Wf.
Set Implicit Arguments.

Definition dom_ok (s : vstate) : Prop := forall c, lookup c (v_ctors s) <> None -> In c (v_defined s).

Lemma cases_ctors limit tn vars cs : forall s s',
  wfs s -> dom_ok s -> iterS (check_ty_case limit tn vars) cs s = Some s' ->
  dom_ok s' /\ (forall x, In x (v_defined s) -> In x (v_defined s')) /\
  (forall c fs, In (c, fs) cs -> ~ In c (v_defined s)) /\
  (forall c X, lookup c (v_ctors s') = Some X <->
     (exists fs, In (c, fs) cs /\ X = (tn, vars, fs)) \/ lookup c (v_ctors s) = Some X) /\
  (forall c fs f x, In (c, fs) cs -> In f fs -> In x (fv f) -> In x (v_scopety s)).
Proof.
  induction cs as [|[c0 fs0] cs IH]; simpl; intros s s' W DM H.
  - injection H as <-. split; auto. split; auto. split; [tauto|]. split; [|tauto].
    intros c X. split; auto. intros [(fs & [] & _)|]; auto.
  - unfold check_ty_case in H at 1. simpl in H.
    destruct (enter limit c0 s) as [s1|] eqn:E1; [|discriminate].
    apply enter_ext in E1 as (X1 & N1 & T1 & D1).
    assert (W1 : wfs s1) by (eapply ext_wfs; eauto; simpl; tauto).
    destruct (iterS check_ty fs0 s1) as [s2|] eqn:E2; [|discriminate].
    apply iter_ty in E2 as (X2 & T2 & R2); auto.
    2:{ apply Forall_forall. intros t _. apply check_ty_ok. }
    pose proof (ext0_wfs X2 W1) as W2.
    assert (W3 : wfs (set_ctor c0 (tn, vars, fs0) s2)) by (destruct W2; constructor; auto).
    assert (ID : In c0 (v_defined s2)) by (apply (e_def X2); right; apply (e_def X1); simpl; auto).
    assert (CE : v_ctors s2 = v_ctors s) by (rewrite (e_ctors X2), (e_ctors X1); auto).
    assert (DM3 : dom_ok (set_ctor c0 (tn, vars, fs0) s2)).
    { intros c. simpl. destruct (Nat.eqb_spec c c0); [subst; auto|]. rewrite CE. intros Hc.
      apply (e_def X2). right. apply (e_def X1). auto. }
    apply IH in H as (A & B & C & D & E); auto. simpl in *. split; auto. split; [|split; [|split]].
    + intros x Hx. apply B. apply (e_def X2). right. apply (e_def X1). auto.
    + intros c fs [Hi|Hi].
      * injection Hi as <- <-. auto.
      * apply C in Hi. intros Hd. apply Hi. apply (e_def X2). right. apply (e_def X1). auto.
    + intros c X. rewrite D. rewrite CE. split.
      * intros [(fs & Hi & ->)|Hl]; [eauto 6|]. destruct (Nat.eqb_spec c c0); auto.
        subst. injection Hl as <-. left. eauto.
      * intros [(fs & [Hi|Hi] & ->)|Hl].
        -- injection Hi as -> ->. rewrite Nat.eqb_refl. auto.
        -- left. eauto.
        -- destruct (Nat.eqb_spec c c0); auto. subst. exfalso. apply N1, DM. congruence.
    + intros c fs f x [Hi|Hi] Hf Hx.
      * injection Hi as <- <-. apply R2 in Hf as (F & _). apply F in Hx. rewrite (e_scopety X1) in Hx. auto.
      * pose proof (E c fs f x Hi Hf Hx) as HH. rewrite (e_scopety X2) in HH. simpl in HH.
        rewrite (e_scopety X1) in HH. auto.
Qed.

Lemma tydefs_ctors limit ds : forall s s',
  wfs s -> dom_ok s -> v_scopety s = [] -> iterS (check_ty_def limit) ds s = Some s' ->
  dom_ok s' /\ (forall x, In x (v_defined s) -> In x (v_defined s')) /\
  (forall x, In x (v_defty s) -> In x (v_defty s')) /\
  (forall td, In td ds -> ~ In (td_name td) (v_defined s) /\ forall x, In x (td_vars td) -> In x (v_defty s')) /\
  (forall td td', In td ds -> In td' ds -> td_name td = td_name td' -> td = td') /\
  (forall c X, lookup c (v_ctors s') = Some X <->
     (exists td fs, In td ds /\ In (c, fs) (td_cases td) /\ X = (td_name td, td_vars td, fs)) \/
     lookup c (v_ctors s) = Some X) /\
  (forall td c fs f x, In td ds -> In (c, fs) (td_cases td) -> In f fs -> In x (fv f) -> In x (td_vars td)).
Proof.
  induction ds as [|d ds IH]; intros s s' W DM SC H.
  - simpl in H. injection H as <-. split; auto. split; auto. split; auto. split; [simpl; tauto|].
    split; [simpl; tauto|]. split; [|simpl; tauto].
    intros c X. split; auto. intros [(td & fs & [] & _)|]; auto.
  - assert (H0 : iterS (check_ty_def limit) [d] s <> None /\
                 exists s4, iterS (check_ty_def limit) [d] s = Some s4 /\ iterS (check_ty_def limit) ds s4 = Some s').
    { simpl in *. destruct (check_ty_def limit d s) as [s4|]; [|discriminate]. split; [discriminate|eauto]. }
    destruct H0 as (_ & s4 & H4 & HR).
    destruct (tydefs_wf limit _ W H4) as (W4 & T4 & S4).
    simpl in H4. unfold check_ty_def in H4.
    destruct (enter limit (td_name d) s) as [s1|] eqn:E1; [|discriminate].
    apply enter_ext in E1 as (X1 & N1 & T1 & D1).
    set (s1' := set_kind (td_name d) (length (td_vars d)) s1) in *.
    assert (W1 : wfs s1').
    { assert (W1 : wfs s1) by (eapply ext_wfs; eauto; simpl; tauto). destruct W1. constructor; auto. }
    destruct (iterS enter_ty _ _) as [s2|] eqn:E2; [|discriminate].
    apply enter_tys in E2 as (W2 & T2 & S2 & ND2 & F2 & D2 & DF2 & SC2 & CT2 & KD2); auto.
    destruct (iterS (check_ty_case _ _ _) _ _) as [s3|] eqn:E3; [|discriminate].
    destruct (cases_wf limit _ _ _ W2 E3) as (W3 & T3 & S3 & D3).
    assert (CE : v_ctors s2 = v_ctors s) by (rewrite CT2; simpl; apply (e_ctors X1)).
    assert (DM2 : dom_ok s2).
    { intros c Hc. rewrite CE in Hc. rewrite DF2. simpl. apply (e_def X1). auto. }
    apply cases_ctors in E3 as (A3 & B3 & C3 & L3 & F3); auto.
    destruct (iterS exit_ty _ _) as [s5|] eqn:E4; [|discriminate]. injection H4 as ->.
    apply exit_tys in E4.
    assert (EQ : v_defined s4 = v_defined s3 /\ v_ctors s4 = v_ctors s3 /\ v_defty s4 = v_defty s3) by (subst s4; auto).
    destruct EQ as (EQ1 & EQ2 & EQ3). clear E4.
    apply IH in HR as (A & B & C & D & E & F & I); auto.
    2:{ intros c. rewrite EQ1, EQ2. apply A3. }
    2:{ rewrite S4; auto. }
    assert (Hd : forall x, In x (v_defined s) -> In x (v_defined s4)).
    { intros x Hx. rewrite EQ1. apply B3. rewrite DF2. simpl. apply (e_def X1). auto. }
    assert (Hn : In (td_name d) (v_defined s4)).
    { rewrite EQ1. apply B3. rewrite DF2. simpl. apply (e_def X1). simpl; auto. }
    assert (Hv : forall x, In x (td_vars d) -> In x (v_defty s')).
    { intros x Hx. apply C. rewrite EQ3. apply D3, D2. auto. }
    split; auto. split; auto. split.
    { intros x Hx. apply C. rewrite EQ3. apply D3, D2. simpl. rewrite D1. auto. }
    split.
    { intros td [<-|Hi]; auto. destruct (D td Hi) as [P1 P2]. split; auto. }
    split.
    { intros td td' [<-|H1] [<-|H2] En; auto.
      - destruct (D td' H2) as [P _]. rewrite <- En in P. tauto.
      - destruct (D td H1) as [P _]. rewrite En in P. tauto. }
    split.
    { intros c X. rewrite F, EQ2, L3, CE. simpl. split.
      - intros [(td & fs & Hi & Hc & ->)|[(fs & Hi & ->)|Hl]]; eauto 8.
      - intros [(td & fs & [->|Hi] & Hc & ->)|Hl]; eauto 8. }
    intros td c fs f x [<-|Hi] Hc Hf Hx; eauto.
    pose proof (F3 c fs f x Hc Hf Hx) as HH. rewrite S2 in HH. simpl in HH. rewrite (e_scopety X1), SC in HH.
    simpl in HH. rewrite app_nil_r in HH. apply in_rev in HH. auto.
Qed.

Section Prog.
  Variables (limit : nat) (p : program) (o : order) (n : nat).
  Variable CT : list (name * (name * list tyvar * list ty)).
  Hypothesis CT_spec : forall c tn vars fields, lookup c CT = Some (tn, vars, fields) <->
    exists td, In td (p_types p) /\ td_name td = tn /\ td_vars td = vars /\ In (c, fields) (td_cases td).
  Hypothesis TD_inj : forall td td', In td (p_types p) -> In td' (p_types p) -> td_name td = td_name td' -> td = td'.
  Hypothesis CT_fields : forall c tn vars fields f, lookup c CT = Some (tn, vars, fields) -> In f fields ->
    monob f = true /\ forall x, In x (fv f) -> In x vars.

  Notation goodp := (good CT). Notation vtp := (vt limit p CT). Notation envp := (env_ok limit p CT).

  Lemma defs_safe ds : forall s s' en,
    goodp s -> v_scopety s = [] -> envp s g0 en ->
    iterS (check_def limit) ds s = Some s' -> forallb (fun d => plain p [] (vd_value d)) ds = true ->
    match eval_defs_o o n en ds with
    | Ok en' => goodp s' /\ v_scopety s' = [] /\ envp s' g0 en'
    | Panic => False
    | _ => True
    end.
  Proof.
    induction ds as [|d ds IH]; simpl; intros s s' en G SC HE H PL.
    - injection H as <-. auto.
    - apply andb_true_iff in PL as [P1 P2]. unfold check_def in H at 1.
      destruct (check_ty (vd_ty d) s) as [s1|] eqn:E1; [|discriminate].
      apply check_ty_ok in E1 as (X1 & _); [|apply G]. pose proof (good_ext0 G X1) as G1.
      destruct (check_expr limit (vd_value d) s1) as [[t s2]|] eqn:E2; [|discriminate].
      pose proof (check_expr_ext limit (vd_value d) (g_wf G1) E2) as X2. pose proof (good_ext0 G1 X2) as G2.
      destruct (assert _); [|discriminate].
      destruct (enter limit (vd_name d) s2) as [s3|] eqn:E3; [|discriminate].
      apply enter_ext in E3 as (X3 & N3 & T3 & D3).
      pose proof (set_type_ext (vd_name d) t X3 (or_introl eq_refl)) as X3'.
      assert (SC1 : v_scopety s1 = []) by (rewrite (e_scopety X1); auto).
      assert (P1' : plain p (v_scopety s1) (vd_value d) = true) by (rewrite SC1; auto).
      pose proof (check_tyok limit p CT_fields _ G1 P1' E2) as TK.
      pose proof (env_ext G X1 HE) as HE1.
      pose proof (safe_all CT_spec TD_inj CT_fields o n _ G1 g0_cl P1' E2 HE1) as HV.
      destruct (eval_o o n en (vd_value d)) as [v| | |]; simpl in *; auto.
      eapply IH; [| | |exact H|exact P2].
      + eapply good_ext; [exact G2|exact X3'| |].
        * eapply ext_wfs; [exact X3'|apply G2| |]; simpl; tauto.
        * simpl. intros x U [<-|[]] Hl. rewrite Nat.eqb_refl in Hl. injection Hl as <-. exact (tyok_ext X3' TK).
      + simpl. rewrite (e_scopety X3). simpl. rewrite (e_scopety X2). auto.
      + intros x U Hx Hl. simpl. destruct (Nat.eqb_spec x (vd_name d)) as [->|Hn].
        * exists v. split; auto. simpl in Hl. rewrite Nat.eqb_refl in Hl. injection Hl as <-. auto.
        * rewrite (e_scope X3') in Hx. destruct Hx as [Hx|Hx]; [congruence|].
          rewrite (e_types X3') in Hl; [|simpl; intuition].
          apply (env_ext G1 X2 HE1); auto.
  Qed.

  Lemma vt_kind v t t' g : vtp v (tr [] g t) -> fits t t' = true -> has_kind p v t'.
  Proof.
    unfold fits. intros HV HF. destruct t', t; simpl in *; auto; try discriminate; inversion HV; subst; eauto.
    - destruct ((n1 =? n0) && (length args0 =? length args)) eqn:E; [|discriminate].
      apply andb_true_iff in E as [E _]. apply Nat.eqb_eq in E. subst n1.
      match goal with H : lookup _ CT = Some _ |- _ => apply CT_spec in H as (td & I1 & I2 & I3 & I4) end.
      match goal with H : Forall2 _ _ _ |- _ => apply Forall2_length in H; rewrite map_length in H end.
      exists c, fs, td, fields. auto 6.
    - destruct (length params0 =? length params) eqn:E; [|discriminate]. apply Nat.eqb_eq in E.
      do 4 eexists. split; [reflexivity|].
      match goal with H : map _ _ = map _ _ |- _ => apply (f_equal (@length _)) in H; rewrite !map_length in H end.
      rewrite map_length. lia.
    - destruct (length params0 =? length params) eqn:E; [|discriminate]. apply Nat.eqb_eq in E.
      do 4 eexists. split; [reflexivity|].
      edestruct (strip_inst limit p) as (s1 & T1 & s2 & g1 & P & Q & R); [..|]; eauto.
      destruct R as (_ & _ & _ & _ & ED & _). injection ED as ED _.
      apply (f_equal (@length _)) in ED. rewrite !map_length in ED. rewrite map_length. lia.
  Qed.

  Lemma values_safe vals : forall s s' en,
    goodp s -> v_scopety s = [] -> envp s g0 en ->
    iterS (check_value limit) vals s = Some s' -> forallb (plain p []) (map fst vals) = true ->
    match mapM (eval_o o n en) (map fst vals) with
    | Ok vs => Forall2 (has_kind p) vs (map snd vals)
    | Panic => False
    | _ => True
    end.
  Proof.
    induction vals as [|[e t] vals IH]; intros s s' en G SC HE H PL.
    - simpl. constructor.
    - simpl in H, PL. apply andb_true_iff in PL as [P1 P2]. unfold check_value in H at 1. simpl in H.
      destruct (check_expr limit e s) as [[t1 s1]|] eqn:E1; [|discriminate].
      destruct (assert _) eqn:EF; [|discriminate]. apply assert_some in EF.
      pose proof (check_expr_ext limit e (g_wf G) E1) as X1. pose proof (good_ext0 G X1) as G1.
      assert (P1' : plain p (v_scopety s) e = true) by (rewrite SC; auto).
      pose proof (safe_all CT_spec TD_inj CT_fields o n _ G g0_cl P1' E1 HE) as HV.
      simpl. destruct (eval_o o n en e) as [v| | |]; simpl in *; auto.
      assert (SC1 : v_scopety s1 = []) by (rewrite (e_scopety X1); auto).
      pose proof (IH s1 s' en G1 SC1 (env_ext G X1 HE) H P2) as HR.
      destruct (mapM (eval_o o n en) (map fst vals)); simpl; auto.
      constructor; auto. eapply vt_kind; eauto.
  Qed.
End Prog.

Theorem verified_safe limit p vals (o : order) (n : nat) :
  verified limit p vals = true -> plain_program p (map fst vals) = true ->
  match run_o o n p (map fst vals) with
  | Ok vs => Forall2 (has_kind p) vs (map snd vals)
  | Panic => False
  | _ => True
  end.
Proof.
  unfold verified, plain_program. rewrite !andb_true_iff. intros HV [[PT PD] PV].
  destruct (verify limit p vals) as [s'|] eqn:E; [|discriminate]. unfold verify in E.
  destruct (iterS (check_ty_def limit) _ _) as [s1|] eqn:E1; [|discriminate].
  assert (W0 : wfs v_init) by (split; simpl; tauto).
  destruct (tydefs_wf limit _ W0 E1) as (W1 & T1 & S1).
  apply tydefs_ctors in E1 as (A & B & C & D & E1 & F & I); auto.
  2:{ intros c. simpl. congruence. }
  destruct (iterS (check_def limit) _ _) as [s2|] eqn:E2; [|discriminate].
  assert (CS : forall c tn vars fields, lookup c (v_ctors s1) = Some (tn, vars, fields) <->
    exists td, In td (p_types p) /\ td_name td = tn /\ td_vars td = vars /\ In (c, fields) (td_cases td)).
  { intros c tn vars fields. rewrite F. simpl. split.
    - intros [(td & fs & H1 & H2 & H3)|H]; [|discriminate]. injection H3 as -> -> ->. eauto 6.
    - intros (td & H1 & <- & <- & H2). left. exists td, fields. auto. }
  assert (CF : forall c tn vars fields f, lookup c (v_ctors s1) = Some (tn, vars, fields) -> In f fields ->
    monob f = true /\ forall x, In x (fv f) -> In x vars).
  { intros c tn vars fields f Hl Hf. apply CS in Hl as (td & H1 & <- & <- & H2). split.
    - rewrite forallb_forall in PT. apply PT in H1. rewrite forallb_forall in H1. apply H1 in H2.
      rewrite forallb_forall in H2. auto.
    - intros x Hx. eauto. }
  assert (G1 : good (v_ctors s1) s1).
  { constructor; auto.
    - intros x T _. rewrite T1. discriminate.
    - intros c tn vars fields x Hl Hx. rewrite S1. simpl. split; auto.
      apply CS in Hl as (td & H1 & <- & <- & H2). apply D in H1 as [_ H1]. auto. }
  assert (HE : env_ok limit p (v_ctors s1) s1 g0 []).
  { intros x U _. rewrite T1. discriminate. }
  unfold run_o.
  pose proof (defs_safe o n CS E1 CF (p_defs p) G1 S1 HE E2 PD) as HD.
  destruct (eval_defs_o o n [] (p_defs p)) as [en| | |]; simpl in *; auto.
  destruct HD as (G2 & S2 & HE2).
  exact (values_safe o n CS E1 CF vals G2 S2 HE2 E PV).
Qed.
