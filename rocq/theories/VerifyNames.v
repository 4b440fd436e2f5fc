(** Programs accepted by the verifier satisfy the name and shape conditions of Wf.v. *)
From Verif Require Import Verify Wf VerifyState.
From Coq Require Import Permutation.
Set Implicit Arguments.

(** Recursive definitions are functions under type abstractions (the verifier does not check this). *)
Fixpoint letrec_fns (e : expr) : bool :=
  match e with
  | EBool _ | EInt _ | EString _ | ETrap _ _ | EName _ => true
  | ECall f args => letrec_fns f && forallb letrec_fns args
  | EIf c t e => letrec_fns c && letrec_fns t && letrec_fns e
  | EOp a _ b => letrec_fns a && letrec_fns b
  | EIntr _ args => forallb letrec_fns args
  | ELam ps b => letrec_fns b
  | EMatch d brs => letrec_fns d && forallb (fun br => letrec_fns (snd br)) brs
  | EConstruct _ _ fs => forallb letrec_fns fs
  | ELet _ v e => letrec_fns v && letrec_fns e
  | ELetRec _ _ v e =>
    match strip_pis v with ELam _ b => letrec_fns b | _ => false end && letrec_fns e
  | EPi _ e => letrec_fns e
  | EPiApp e _ => letrec_fns e
  end.

(** Names the checker would accept as variables are among [S]. *)
Definition covers (s : vstate) (S : list name) : Prop :=
  forall x, In x (v_scope s) -> lookup x (v_types s) <> None -> In x S.

Lemma covers_ext L P Q s s' S S' :
  ext L P Q s s' -> wfs s -> covers s S -> (forall x, In x P -> In x S') -> (forall x, In x S -> In x S') ->
  covers s' S'.
Proof.
  intros X W H HP HS x Hx Ht. rewrite (e_scope X) in Hx. apply in_app_iff in Hx as [Hx|Hx]; auto.
  apply HS, H; auto. rewrite (e_types X) in Ht; auto. intros HL. apply (e_new X) in HL.
  apply HL, (w_scope W), Hx.
Qed.
Lemma covers_ext0 L s s' S : ext L [] [] s s' -> wfs s -> covers s S -> covers s' S.
Proof. intros X W H. eapply covers_ext; eauto; simpl; tauto. Qed.

(** The enclosing recursive function, if it has a plain function type, has that many parameters. *)
Definition rec_ok (rec : option (name * nat)) (s : vstate) : Prop :=
  match rec with
  | None => True
  | Some (n, k) => In n (v_defined s) /\ forall ps o, lookup n (v_types s) = Some (TFn ps o) -> length ps = k
  end.
Lemma rec_ext rec L P Q s s' : ext L P Q s s' -> rec_ok rec s -> rec_ok rec s'.
Proof.
  intros X. destruct rec as [[n k]|]; auto. simpl. intros [H1 H2]. split.
  - apply (e_def X). auto.
  - intros ps o. rewrite (e_types X).
    + apply H2.
    + intros HL. apply (e_new X) in HL. auto.
Qed.

Definition chk_wf (chk : expr -> vstate -> option (ty * vstate)) (e : expr) : Prop :=
  forall s T s', wfs s -> chk e s = Some (T, s') ->
    (forall S, covers s S -> scoped S e = true) /\
    (letrec_fns e = true -> forall rec tail, rec_ok rec s -> shape rec tail e = true).

Lemma args_wf limit xs :
  Forall (chk_wf (check_expr limit)) xs -> forall ps s s',
  wfs s -> length ps = length xs -> argsS (check_expr limit) xs ps s = Some s' ->
  (forall S, covers s S -> forallb (scoped S) xs = true) /\
  (forallb letrec_fns xs = true -> forall rec, rec_ok rec s -> forallb (shape rec false) xs = true).
Proof.
  induction 1 as [|x xs Hx _ IH]; simpl; intros ps s s' Hw HL H; auto.
  destruct ps as [|p ps]; [discriminate|].
  destruct (check_expr limit x s) as [[T s1]|] eqn:E; [|discriminate].
  destruct (assert (fits T p)) eqn:E2; [|discriminate].
  pose proof (check_expr_ext limit x Hw E) as X. pose proof (ext0_wfs X Hw) as Hw1.
  apply Hx in E as [HA HB]; auto. apply IH in H as [HC HD]; auto. split.
  - intros S C. rewrite HA; auto. simpl. apply HC. eapply covers_ext0; eauto.
  - intros HF rec HR. apply andb_true_iff in HF as [HF1 HF2]. rewrite HB; auto. simpl.
    apply HD; auto. eapply rec_ext; eauto.
Qed.
Lemma fields_wf limit vars tys xs :
  Forall (chk_wf (check_expr limit)) xs -> forall ps s s',
  wfs s -> length ps = length xs -> fieldsS (check_expr limit) vars tys xs ps s = Some s' ->
  (forall S, covers s S -> forallb (scoped S) xs = true) /\
  (forallb letrec_fns xs = true -> forall rec, rec_ok rec s -> forallb (shape rec false) xs = true).
Proof.
  induction 1 as [|x xs Hx _ IH]; simpl; intros ps s s' Hw HL H; auto.
  destruct ps as [|p ps]; [discriminate|].
  destruct (check_expr limit x s) as [[T s1]|] eqn:E; [|discriminate].
  destruct (assert _) eqn:E2; [|discriminate].
  pose proof (check_expr_ext limit x Hw E) as X. pose proof (ext0_wfs X Hw) as Hw1.
  apply Hx in E as [HA HB]; auto. apply IH in H as [HC HD]; auto. split.
  - intros S C. rewrite HA; auto. simpl. apply HC. eapply covers_ext0; eauto.
  - intros HF rec HR. apply andb_true_iff in HF as [HF1 HF2]. rewrite HB; auto. simpl.
    apply HD; auto. eapply rec_ext; eauto.
Qed.
Lemma branches_wf limit mt targs brs :
  Forall (fun br => chk_wf (check_expr limit) (snd br)) brs -> forall t s t' s',
  wfs s -> branchesS limit (check_expr limit) mt targs brs t s = Some (t', s') ->
  (forall S, covers s S -> forallb (fun br => scoped (snd (fst br) ++ S) (snd br)) brs = true) /\
  (forallb (fun br => letrec_fns (snd br)) brs = true -> forall rec tail, rec_ok rec s ->
     forallb (fun br => shape rec tail (snd br)) brs = true).
Proof.
  induction 1 as [|[[c bs] v] brs Hx _ IH]; simpl; intros t s t' s' Hw H; auto.
  destruct (lookup c (v_ctors s)) as [[[tn vars] fields]|]; [|discriminate].
  destruct (assert (mt =? tn)); [|discriminate].
  destruct (assert (length vars =? length targs)); [|discriminate].
  destruct (assert (length fields =? length bs)) eqn:EL; [|discriminate].
  apply assert_some, Nat.eqb_eq in EL.
  destruct (iterS (bind_in limit vars targs) (combine fields bs) s) as [s1|] eqn:E1; [|discriminate].
  apply binds_ext in E1 as (X1 & W1 & _); auto. rewrite map_snd_combine in X1; auto.
  destruct (check_expr limit v s1) as [[tv s2]|] eqn:E2; [|discriminate].
  pose proof (check_expr_ext limit v W1 E2) as X2.
  apply Hx in E2 as [HA HB]; auto.
  match type of H with match ?x with _ => _ end = _ => destruct x as [t1|]; [|discriminate] end.
  destruct (iterS exit bs s2) as [s3|] eqn:E3; [|discriminate].
  destruct (exits_ext _ (ext_trans X1 X2) Hw E3) as [X3 _].
  { simpl. intros x. rewrite <- in_rev. auto. }
  { intros x Hi. apply in_app_iff; auto. }
  apply IH in H as [HC HD]; [|eapply ext0_wfs; eauto]. simpl in *. split.
  - intros S C. rewrite HA, HC; auto.
    + eapply covers_ext0; eauto.
    + eapply covers_ext; eauto.
      * intros x Hi. apply in_rev in Hi. apply in_app_iff; auto.
      * intros x Hi. apply in_app_iff; auto.
  - intros HF rec tail HR. apply andb_true_iff in HF as [HF1 HF2]. rewrite HB; auto.
    + apply HD; auto. eapply rec_ext; eauto.
    + eapply rec_ext; eauto.
Qed.

Lemma intr_arity_params i : length (intr_params i) = intr_arity i.
Proof. destruct i; auto. Qed.

(** A function literal under type abstractions that fits a plain function type. *)
Lemma fits_fn limit v ps b s T s' ps' o' :
  check_expr limit v s = Some (T, s') -> strip_pis v = ELam ps b -> fits T (TFn ps' o') = true ->
  length ps' = length ps.
Proof.
  intros HC HS HF. destruct v; simpl in HS; try discriminate.
  - injection HS as -> ->. simpl in HC.
    destruct (iterS _ ps s); [|discriminate]. destruct (check_expr limit b v) as [[tb s2]|]; [|discriminate].
    destruct (iterS _ _ s2); [|discriminate]. injection HC as <- <-.
    unfold fits in HF. simpl in HF. rewrite map_length in HF.
    destruct (Nat.eqb_spec (length ps) (length ps')); [auto|discriminate].
  - simpl in HC. destruct (enter_ty v s); [|discriminate].
    destruct (check_expr limit v0 v1) as [[? ?]|]; [|discriminate]. destruct (exit_ty v v2); [|discriminate].
    injection HC as <- <-. discriminate.
Qed.

(** The state in which the body of a function literal under type abstractions is checked. *)
Lemma strip_check limit v : forall ps b s T s',
  wfs s -> check_expr limit v s = Some (T, s') -> strip_pis v = ELam ps b ->
  exists s1 T1 s2 L P Q, ext L P Q s s1 /\ wfs s1 /\ check_expr limit b s1 = Some (T1, s2).
Proof.
  induction v using expr_ind'; simpl; intros ps0 b0 s0 T s' Hw HC HS; try discriminate.
  - injection HS as -> ->.
    destruct (iterS _ ps0 s0) as [s1|] eqn:E1; [|discriminate].
    apply params_ext in E1 as [X W]; auto.
    destruct (check_expr limit b0 s1) as [[tb s2]|] eqn:E; [|discriminate]. eauto 12.
  - destruct (enter_ty v s0) as [s1|] eqn:E1; [|discriminate].
    apply enter_ty_ext in E1 as (X & Hv & Hd & HT).
    assert (Hw1 : wfs s1).
    { eapply ext_wfs; eauto; simpl; try tauto. rewrite Hd. simpl. intuition. }
    destruct (check_expr limit v0 s1) as [[t2 s2]|] eqn:E2; [|discriminate].
    destruct (IHv ps0 b0 _ _ _ Hw1 E2 HS) as (s3 & T1 & s4 & L & P & Q & X3 & W3 & C).
    exists s3, T1, s4. do 3 eexists. split; [exact (ext_trans X X3)|auto].
Qed.

Lemma check_expr_wf limit e : chk_wf (check_expr limit) e.
Proof.
  induction e using expr_ind_rec; intros s0 T s' Hw HH; simpl in HH |- *; auto.
  - destruct (assert _) eqn:E; [|discriminate]. apply assert_some, mem_In in E.
    destruct (lookup _ _) eqn:E2; [|discriminate]. split; auto.
    intros S C. apply mem_In, C; congruence.
  - destruct (check_expr limit e s0) as [[tf s1]|] eqn:E1; [|discriminate].
    destruct tf as [| | | | |ps o|]; try discriminate. destruct (assert _) eqn:EL; [|discriminate].
    apply assert_some, Nat.eqb_eq in EL.
    destruct (argsS _ _ _ _) as [s2|] eqn:E2; [|discriminate]. injection HH as <- <-.
    pose proof (check_expr_ext limit e Hw E1) as X1. pose proof (ext0_wfs X1 Hw) as Hw1.
    pose proof E1 as E1'.
    apply IHe in E1 as [HA HB]; auto. apply (args_wf H) in E2 as [HC HD]; auto. split.
    + intros S C. rewrite HA, HC; auto. eapply covers_ext0; eauto.
    + intros HF rec tail HR. apply andb_true_iff in HF as [HF1 HF2].
      rewrite HB, HD; auto; [|eapply rec_ext; eauto]. simpl.
      destruct e; auto. destruct rec as [[m k]|]; auto.
      destruct (tail && (m =? n)) eqn:Et; auto.
      apply andb_true_iff in Et as [_ Et]. apply Nat.eqb_eq in Et as ->.
      simpl in E1'. destruct (assert _); [|discriminate].
      destruct (lookup n (v_types s0)) as [t|] eqn:El; [|discriminate]. injection E1' as -> ->.
      simpl in HR. destruct HR as [_ HR]. apply HR in El. apply Nat.eqb_eq. congruence.
  - destruct (check_expr limit e1 s0) as [[t1 s1]|] eqn:E1; [|discriminate].
    destruct (assert _); [|discriminate].
    destruct (check_expr limit e2 s1) as [[t2 s2]|] eqn:E2; [|discriminate].
    destruct (check_expr limit e3 s2) as [[t3 s3]|] eqn:E3; [|discriminate].
    pose proof (check_expr_ext limit e1 Hw E1) as X1. pose proof (ext0_wfs X1 Hw) as Hw1.
    pose proof (check_expr_ext limit e2 Hw1 E2) as X2. pose proof (ext0_wfs X2 Hw1) as Hw2.
    apply IHe1 in E1 as [A1 B1]; auto. apply IHe2 in E2 as [A2 B2]; auto. apply IHe3 in E3 as [A3 B3]; auto.
    split.
    + intros S C. pose proof (covers_ext0 X1 Hw C) as C1. pose proof (covers_ext0 X2 Hw1 C1) as C2.
      rewrite A1, A2, A3; auto.
    + intros HF rec tail HR. pose proof (rec_ext _ X1 HR) as R1. pose proof (rec_ext _ X2 R1) as R2.
      rewrite !andb_true_iff in HF. destruct HF as [[F1 F2] F3]. rewrite B1, B2, B3; auto.
  - destruct (check_expr limit e1 s0) as [[t1 s1]|] eqn:E1; [|discriminate].
    destruct (assert _); [|discriminate].
    destruct (check_expr limit e2 s1) as [[t2 s2]|] eqn:E2; [|discriminate].
    pose proof (check_expr_ext limit e1 Hw E1) as X1. pose proof (ext0_wfs X1 Hw) as Hw1.
    apply IHe1 in E1 as [A1 B1]; auto. apply IHe2 in E2 as [A2 B2]; auto.
    split.
    + intros S C. pose proof (covers_ext0 X1 Hw C) as C1. rewrite A1, A2; auto.
    + intros HF rec tail HR. pose proof (rec_ext _ X1 HR) as R1.
      rewrite !andb_true_iff in HF. destruct HF as [F1 F2]. rewrite B1, B2; auto.
  - destruct (assert _) eqn:EL; [|discriminate]. apply assert_some, Nat.eqb_eq in EL.
    destruct (argsS _ _ _ _) as [s2|] eqn:E2; [|discriminate]. injection HH as <- <-.
    apply (args_wf H) in E2 as [A B]; auto. split; auto.
    intros HF rec tail HR. rewrite B; auto. rewrite andb_true_r. rewrite <- EL, intr_arity_params.
    apply Nat.eqb_refl.
  - destruct (iterS _ ps s0) as [s1|] eqn:E1; [|discriminate].
    destruct (check_expr limit e s1) as [[t1 s2]|] eqn:E2; [|discriminate].
    apply params_ext in E1 as [X1 W1]; auto. apply IHe in E2 as [A B]; auto. split.
    + intros S C. apply A. eapply covers_ext; eauto.
      * intros x Hi. apply in_rev in Hi. apply in_app_iff; auto.
      * intros x Hi. apply in_app_iff; auto.
    + intros HF rec tail HR. apply B; simpl; auto.
  - destruct (check_expr limit e s0) as [[td s1]|] eqn:E1; [|discriminate].
    destruct td; try discriminate.
    destruct (branchesS _ _ _ _ _ _ _) as [[t2 s2]|] eqn:E2; [|discriminate].
    pose proof (check_expr_ext limit e Hw E1) as X1. pose proof (ext0_wfs X1 Hw) as Hw1.
    apply IHe in E1 as [A1 B1]; auto. apply (branches_wf _ _ H) in E2 as [A2 B2]; auto. split.
    + intros S C. pose proof (covers_ext0 X1 Hw C) as C1. rewrite A1, A2; auto.
    + intros HF rec tail HR. pose proof (rec_ext _ X1 HR) as R1.
      rewrite !andb_true_iff in HF. destruct HF as [F1 F2]. rewrite B1, B2; auto.
  - destruct (lookup c (v_ctors s0)) as [[[tn vars] ftys]|]; [|discriminate].
    destruct (assert _); [|discriminate]. destruct (assert _) eqn:EL in HH; [|discriminate].
    apply assert_some, Nat.eqb_eq in EL.
    destruct (fieldsS _ _ _ _ _ _) as [s1|] eqn:E1; [|discriminate]. injection HH as <- <-.
    apply (fields_wf _ _ H) in E1 as [A B]; auto.
  - destruct (check_expr limit e1 s0) as [[t1 s1]|] eqn:E1; [|discriminate].
    destruct (enter _ _ _) as [s2|] eqn:E2; [|discriminate].
    destruct (check_expr limit e2 s2) as [[t2 s3]|] eqn:E3; [|discriminate].
    pose proof (check_expr_ext limit e1 Hw E1) as X1. pose proof (ext0_wfs X1 Hw) as Hw1.
    apply enter_ext in E2 as (X2 & N2 & T2 & D2). simpl in *.
    assert (X2' : ext [n] [n] [] s1 s2).
    { destruct X2. constructor; auto. intros x Hx. rewrite e_types; auto. simpl.
      destruct (Nat.eqb_spec x n); auto. subst. simpl in Hx. tauto. }
    assert (Hw2 : wfs s2) by (eapply ext_wfs; eauto; simpl; tauto).
    apply IHe1 in E1 as [A1 B1]; auto. apply IHe2 in E3 as [A2 B2]; auto. split.
    + intros S C. pose proof (covers_ext0 X1 Hw C) as C1. rewrite A1, A2; auto.
      eapply covers_ext; eauto; simpl; tauto.
    + intros HF rec tail HR. pose proof (rec_ext _ X1 HR) as R1. pose proof (rec_ext _ X2' R1) as R2.
      rewrite !andb_true_iff in HF. destruct HF as [F1 F2]. rewrite B1, B2; auto.
  - destruct (check_ty t s0) as [s1|] eqn:E0; [|discriminate].
    destruct (enter _ _ _) as [s2|] eqn:E2; [|discriminate].
    destruct (check_expr limit e1 _) as [[t1 s3]|] eqn:E1; [|discriminate].
    destruct (assert _) eqn:EF; [|discriminate]. apply assert_some in EF.
    destruct (check_expr limit e2 s3) as [[t2 s4]|] eqn:E3; [|discriminate].
    apply check_ty_ok in E0 as (X0 & _); auto. pose proof (ext0_wfs X0 Hw) as Hw0.
    apply enter_ext in E2 as (X2 & N2 & T2 & D2).
    pose proof (set_type_ext n t X2 (or_introl eq_refl)) as X2'.
    assert (Hw2 : wfs (set_type n t s2)) by (eapply ext_wfs; eauto; simpl; tauto).
    pose proof (check_expr_ext limit e1 Hw2 E1) as X1. pose proof (ext0_wfs X1 Hw2) as Hw3.
    pose proof E1 as E1'.
    apply IHe1 in E1' as [A1 B1]; auto. apply IHe2 in E3 as [A2 B2]; auto. split.
    + intros S C. pose proof (covers_ext0 X0 Hw C) as C0.
      assert (C1 : covers (set_type n t s2) (n :: S)) by (eapply covers_ext; eauto; simpl; tauto).
      rewrite A1, A2; auto. eapply covers_ext0; eauto.
    + intros HF rec tail HR. apply andb_true_iff in HF as [F1 F2].
      rewrite B2; auto.
      2:{ eapply rec_ext; [exact X1|]. eapply rec_ext; [exact X2'|]. eapply rec_ext; eauto. }
      rewrite andb_true_r.
      destruct (strip_pis e1) as [| | | | | | | |ps b| | | | | | |] eqn:ES; try discriminate.
      destruct (strip_check limit e1 Hw2 E1 ES) as (s5 & T1 & s6 & L & P & Q & X5 & W5 & C5).
      destruct (H ps b eq_refl s5 T1 s6 W5 C5) as [_ B]. apply B; auto. simpl. split.
      * apply (e_def X5). right. simpl. apply (e_def X2). simpl; auto.
      * intros ps' o' Hl. rewrite (e_types X5) in Hl.
        -- simpl in Hl. rewrite Nat.eqb_refl in Hl. injection Hl as ->.
           exact (@fits_fn limit e1 ps b _ _ _ ps' o' E1 ES EF).
        -- intros HL. apply (e_new X5) in HL. apply HL. simpl. apply (e_def X2). simpl; auto.
  - destruct (enter_ty v s0) as [s1|] eqn:E1; [|discriminate].
    apply enter_ty_ext in E1 as (X & Hv & Hd & HT).
    destruct (check_expr limit e s1) as [[t2 s2]|] eqn:E2; [|discriminate].
    assert (Hw1 : wfs s1).
    { eapply ext_wfs; eauto; simpl; try tauto. rewrite Hd. simpl. intuition. }
    apply IHe in E2 as [A B]; auto. split.
    + intros S C. apply A. eapply covers_ext; eauto; simpl; tauto.
    + intros HF rec tail HR. apply B; auto. eapply rec_ext; eauto.
  - destruct (check_expr limit e s0) as [[te s1]|] eqn:E1; [|discriminate].
    apply IHe in E1; auto.
Qed.

(** Types first: no variables yet. *)
Lemma cases_wf limit tn vars cs : forall s s',
  wfs s -> iterS (check_ty_case limit tn vars) cs s = Some s' ->
  wfs s' /\ v_types s' = v_types s /\ v_scopety s' = v_scopety s /\
  (forall x, In x (v_defty s) -> In x (v_defty s')).
Proof.
  induction cs as [|c cs IH]; simpl; intros s s' W H.
  - injection H as <-. auto.
  - unfold check_ty_case in H at 1.
    destruct (enter limit (fst c) s) as [s1|] eqn:E1; [|discriminate].
    apply enter_ext in E1 as (X1 & N1 & T1 & D1).
    assert (W1 : wfs s1) by (eapply ext_wfs; eauto; simpl; tauto).
    destruct (iterS check_ty (snd c) s1) as [s2|] eqn:E2; [|discriminate].
    apply iter_ty in E2 as (X2 & T2 & _); auto.
    2:{ apply Forall_forall. intros t _. apply check_ty_ok. }
    pose proof (ext0_wfs X2 W1) as W2.
    apply IH in H as (W' & T' & S' & D').
    + simpl in *. split; auto. split; [congruence|]. split.
      * rewrite S', (e_scopety X2), (e_scopety X1). auto.
      * intros x Hx. apply D', (e_defty X2), (e_defty X1), Hx.
    + destruct W2. constructor; auto.
Qed.
Lemma enter_tys vars : forall s s',
  wfs s -> iterS enter_ty vars s = Some s' ->
  wfs s' /\ v_types s' = v_types s /\ v_scopety s' = rev vars ++ v_scopety s /\ NoDup vars /\
  (forall x, In x vars -> ~ In x (v_defty s)) /\ (forall x, In x (v_defty s') <-> In x vars \/ In x (v_defty s)) /\
  v_defined s' = v_defined s /\ v_scope s' = v_scope s /\ v_ctors s' = v_ctors s /\ v_kinds s' = v_kinds s.
Proof.
  induction vars as [|v vars IH]; simpl; intros s s' W H.
  - injection H as <-. repeat split; auto using NoDup_nil; try tauto; apply W.
  - destruct (enter_ty v s) as [s1|] eqn:E1; [|discriminate]. 
    pose proof E1 as E1'. apply enter_ty_ext in E1 as (X & Hv & Hd & HT).
    assert (Hw1 : wfs s1).
    { eapply ext_wfs; eauto; simpl; try tauto. rewrite Hd. simpl. intuition. }
    apply IH in H as (W' & T' & S' & ND & F & D & E & SC & CT & KD); auto.
    unfold enter_ty in E1'. destruct (mem v (v_defty s)); [discriminate|]. injection E1' as <-. simpl in *.
    split; auto. split; auto. split; [rewrite S', <- app_assoc; auto|]. split.
    { constructor; auto. intros Hi. apply F in Hi. apply Hi. auto. }
    split.
    { intros x [<-|Hi]; auto. intros Hx. apply (F x Hi). auto. }
    split; auto. intros x. rewrite D. tauto.
Qed.
Lemma exit_tys ns s s' :
  iterS exit_ty ns s = Some s' -> s' = set_scopety (fold_left (fun l n => rem n l) ns (v_scopety s)) s.
Proof.
  revert s. induction ns as [|n ns IH]; simpl; intros s H.
  - injection H as <-. destruct s; auto.
  - unfold exit_ty in H at 1. destruct (mem n (v_scopety s)); [|discriminate]. apply IH in H. subst. auto.
Qed.
Lemma tydefs_wf limit ds : forall s s',
  wfs s -> iterS (check_ty_def limit) ds s = Some s' ->
  wfs s' /\ v_types s' = v_types s /\ v_scopety s' = v_scopety s.
Proof.
  induction ds as [|d ds IH]; simpl; intros s s' W H.
  - injection H as <-. auto.
  - unfold check_ty_def in H at 1.
    destruct (enter limit (td_name d) s) as [s1|] eqn:E1; [|discriminate].
    apply enter_ext in E1 as (X1 & N1 & T1 & D1).
    assert (W1 : wfs (set_kind (td_name d) (length (td_vars d)) s1)).
    { assert (W1 : wfs s1) by (eapply ext_wfs; eauto; simpl; tauto). destruct W1. constructor; auto. }
    destruct (iterS enter_ty _ _) as [s2|] eqn:E2; [|discriminate].
    apply enter_tys in E2 as (W2 & T2 & S2 & ND2 & F2 & D2 & _); auto.
    destruct (iterS (check_ty_case _ _ _) _ _) as [s3|] eqn:E3; [|discriminate].
    apply cases_wf in E3 as (W3 & T3 & S3 & D3); auto.
    destruct (iterS exit_ty _ _) as [s4|] eqn:E4; [|discriminate].
    apply exit_tys in E4. simpl in *.
    assert (ES : v_scopety s4 = v_scopety s).
    { subst s4. simpl. rewrite S3, S2, rem_all.
      - rewrite (e_scopety X1). auto.
      - intros x Hx. apply in_rev; auto.
      - intros x Hx Hv. apply F2 in Hv. rewrite (e_scopety X1) in Hx. simpl in *.
        apply Hv. rewrite D1. apply (w_scopety W), Hx. }
    assert (W4 : wfs s4).
    { split.
      - intros x Hx. subst s4. apply (w_scope W3), Hx.
      - intros x Hx. rewrite ES in Hx. apply (w_scopety W) in Hx. subst s4. simpl.
        apply D3, D2. right. simpl. rewrite D1. auto. }
    apply IH in H as (W' & T' & S'); auto. split; auto. split; [|congruence].
    rewrite T'. subst s4. simpl. congruence.
Qed.

Lemma defs_wf limit ds : forall s s' S,
  wfs s -> covers s S -> iterS (check_def limit) ds s = Some s' ->
  scoped_defs S ds = true /\ wfs s' /\ covers s' (rev (def_names ds) ++ S) /\
  ext (def_names ds ++ flat_map (fun d => binders (vd_value d)) ds) (rev (def_names ds)) [] s s' /\
  (forallb (fun d => letrec_fns (vd_value d)) ds = true ->
   forallb (fun d => shape None false (vd_value d)) ds = true).
Proof.
  induction ds as [|d ds IH]; simpl; intros s s' S W C H.
  - injection H as <-. repeat split; auto using NoDup_nil; try apply W; simpl; try tauto.
  - unfold check_def in H at 1.
    destruct (check_ty (vd_ty d) s) as [s1|] eqn:E1; [|discriminate].
    apply check_ty_ok in E1 as (X1 & _); auto. pose proof (ext0_wfs X1 W) as W1.
    destruct (check_expr limit (vd_value d) s1) as [[t s2]|] eqn:E2; [|discriminate].
    pose proof (check_expr_ext limit (vd_value d) W1 E2) as X2. pose proof (ext0_wfs X2 W1) as W2.
    apply check_expr_wf in E2 as [A B]; auto.
    destruct (assert _); [|discriminate].
    destruct (enter limit (vd_name d) s2) as [s3|] eqn:E3; [|discriminate].
    apply enter_ext in E3 as (X3 & N3 & T3 & D3).
    pose proof (set_type_ext (vd_name d) t X3 (or_introl eq_refl)) as X3'.
    pose proof (covers_ext0 X1 W C) as C1. pose proof (covers_ext0 X2 W1 C1) as C2.
    assert (C3 : covers (set_type (vd_name d) t s3) (vd_name d :: S)) by (eapply covers_ext; eauto; simpl; tauto).
    assert (W3 : wfs (set_type (vd_name d) t s3)) by (eapply ext_wfs; eauto; simpl; tauto).
    destruct (IH _ _ _ W3 C3 H) as (SD & W' & C' & X' & SH).
    rewrite A, SD; auto. simpl. split; auto. split; auto. rewrite <- app_assoc. simpl. split; auto. split.
    + pose proof (ext_trans X1 (ext_trans X2 (ext_trans X3' X'))) as XX. simpl in XX.
      rewrite <- !app_nil_end in XX. eapply ext_perm; [|exact XX].
      fold (def_names ds). rewrite <- Permutation_middle. simpl. constructor.
      rewrite !app_assoc. apply Permutation_app_tail, Permutation_app_comm.
    + intros HF. apply andb_true_iff in HF as [F1 F2]. rewrite B, SH; simpl; auto.
Qed.
Lemma values_wf limit vals : forall s s' S,
  wfs s -> covers s S -> iterS (check_value limit) vals s = Some s' ->
  forallb (scoped S) (map fst vals) = true /\
  ext (flat_map binders (map fst vals)) [] [] s s' /\
  (forallb letrec_fns (map fst vals) = true -> forallb (shape None false) (map fst vals) = true).
Proof.
  induction vals as [|v vals IH]; simpl; intros s s' S W C H.
  - injection H as <-. repeat split; auto using NoDup_nil; try apply W; simpl; try tauto.
  - unfold check_value in H at 1.
    destruct (check_expr limit (fst v) s) as [[t s2]|] eqn:E2; [|discriminate].
    pose proof (check_expr_ext limit (fst v) W E2) as X2. pose proof (ext0_wfs X2 W) as W2.
    apply check_expr_wf in E2 as [A B]; auto.
    destruct (assert _); [|discriminate].
    pose proof (covers_ext0 X2 W C) as C2.
    destruct (IH _ _ _ W2 C2 H) as (SD & X' & SH).
    rewrite A, SD; auto. simpl. split; auto. split.
    + exact (ext_trans X2 X').
    + intros HF. apply andb_true_iff in HF as [F1 F2]. rewrite B, SH; simpl; auto.
Qed.

Lemma nodupb_NoDup l : NoDup l -> nodupb l = true.
Proof.
  induction 1 as [|x l Hx _ IH]; simpl; auto. rewrite IH. apply mem_notIn in Hx as ->. auto.
Qed.
Lemma covers_nil s : v_types s = [] -> covers s [].
Proof. intros H x _. rewrite H. simpl. tauto. Qed.

Lemma scoped_incl e : forall S S', (forall x, In x S -> In x S') -> scoped S e = true -> scoped S' e = true.
Proof.
  induction e using expr_ind'; simpl; intros S0 S1 HS HH; auto; rewrite ?andb_true_iff in *.
  - apply mem_In. apply mem_In in HH. auto.
  - destruct HH as [H1 H2]. split; [eapply IHe; eauto|]. rewrite forallb_forall in *. intros x Hx.
    rewrite Forall_forall in H. eapply H; eauto.
  - destruct HH as [[H1 H2] H3]. split; [split|]; [eapply IHe1|eapply IHe2|eapply IHe3]; eauto.
  - destruct HH as [H1 H2]. split; [eapply IHe1|eapply IHe2]; eauto.
  - rewrite forallb_forall in *. intros x Hx. rewrite Forall_forall in H. eapply H; eauto.
  - eapply IHe; [|exact HH]. intros x. rewrite !in_app_iff. intuition.
  - destruct HH as [H1 H2]. split; [eapply IHe; eauto|]. rewrite forallb_forall in *. intros x Hx.
    rewrite Forall_forall in H. eapply H; [eauto| |apply H2; auto].
    intros y. rewrite !in_app_iff. intuition.
  - rewrite forallb_forall in *. intros x Hx. rewrite Forall_forall in H. eapply H; eauto.
  - destruct HH as [H1 H2]. split; [exact (IHe1 _ _ HS H1)|]. eapply IHe2; [|exact H2]. simpl. intuition.
  - destruct HH as [H1 H2]. split; [eapply IHe1; [|exact H1] | eapply IHe2; [|exact H2]]; simpl; intuition.
  - eauto.
  - eauto.
Qed.

(** The pieces of [wf_program]. *)
Theorem verified_names limit p vals :
  verified limit p vals = true ->
  scoped_defs [] (p_defs p) = true /\
  forallb (scoped (def_names (p_defs p))) (map fst vals) = true /\
  NoDup (all_binders p (map fst vals)).
Proof.
  unfold verified. destruct (verify limit p vals) as [s'|] eqn:E; [|discriminate]. intros _.
  unfold verify in E.
  destruct (iterS (check_ty_def limit) _ _) as [s1|] eqn:E1; [|discriminate].
  apply tydefs_wf in E1 as (W1 & T1 & _); [|split; simpl; tauto].
  destruct (iterS (check_def limit) _ _) as [s2|] eqn:E2; [|discriminate].
  destruct (defs_wf limit _ W1 (covers_nil _ T1) E2) as (SD & W2 & C2 & X2 & _).
  destruct (values_wf limit _ W2 C2 E) as (SV & X3 & _).
  split; auto. split.
  - rewrite forallb_forall in *. intros x Hx. eapply scoped_incl; [|apply SV, Hx].
    intros y. rewrite app_nil_r. apply in_rev.
  - pose proof (e_nd (ext_trans X2 X3)) as ND. rewrite <- app_assoc in ND. exact ND.
Qed.
Theorem verified_wf limit p vals :
  verified limit p vals = true ->
  forallb (fun d => letrec_fns (vd_value d)) (p_defs p) && forallb letrec_fns (map fst vals) = true ->
  wf_program p (map fst vals) = true.
Proof.
  intros HV HF. apply andb_true_iff in HF as [F1 F2].
  pose proof (verified_names limit p vals HV) as (A & B & C).
  unfold wf_program. rewrite A, B, nodupb_NoDup; auto. simpl.
  unfold verified in HV. destruct (verify limit p vals) as [s'|] eqn:E; [|discriminate].
  unfold verify in E.
  destruct (iterS (check_ty_def limit) _ _) as [s1|] eqn:E1; [|discriminate].
  apply tydefs_wf in E1 as (W1 & T1 & _); [|split; simpl; tauto].
  destruct (iterS (check_def limit) _ _) as [s2|] eqn:E2; [|discriminate].
  destruct (defs_wf limit _ W1 (covers_nil _ T1) E2) as (SD & W2 & C2 & X2 & SH).
  destruct (values_wf limit _ W2 C2 E) as (SV & X3 & SH2).
  rewrite SH, SH2; auto.
Qed.
