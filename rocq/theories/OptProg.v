(** From expressions to programs. *)
From Verif Require Import EvalFacts Orders Compile CompileStatic Wf Vm RunnerCorrect OptEv OptRel OptWalk OptGood.
Set Implicit Arguments.

Inductive evd : env -> list valdef -> env -> Prop :=
| evd_nil r : evd r [] r
| evd_cons c r d ds v r' : ev c r (vd_value d) v -> evd ((vd_name d, v) :: r) ds r' -> evd r (d :: ds) r'.

Lemma evd_cons_inv r d ds r' : evd r (d :: ds) r' -> exists c v, ev c r (vd_value d) v /\ evd ((vd_name d, v) :: r) ds r'.
Proof. inversion 1; subst. eauto. Qed.

Lemma evd_of_eval n ds : forall r r', eval_defs_o FnFirst n r ds = Ok r' -> evd r ds r'.
Proof.
  induction ds as [|d ds IH]; simpl; intros r r' H; [injection H as <-; constructor|].
  apply bind_ok in H as (v & E & H). apply eval_ev in E as [c E]. econstructor; eauto.
Qed.
Lemma eval_of_evd r ds r' : evd r ds r' -> exists n, eval_defs_o FnFirst n r ds = Ok r'.
Proof.
  induction 1 as [|c r d ds v r' E _ [n IH]]; [exists 0; auto|].
  apply (proj1 ev_eval) in E as [m E]. exists (n + m). simpl.
  rewrite (@eval_up m (n + m) _ _ _ ltac:(lia) E). simpl.
  destruct (eval_defs_mono FnFirst ds (Nat.le_add_r n m) ((vd_name d, v) :: r)) as [E'|E']; congruence.
Qed.
Lemma treewalk_ev n p exprs vs : treewalk n p exprs = Ok vs -> exists r c, evd [] (p_defs p) r /\ evs c r exprs vs.
Proof.
  unfold treewalk, run_o. intros H. apply bind_ok in H as (r & E & H). apply evd_of_eval in E.
  apply evs_mapM in H as [c H]; [eauto|]. apply Forall_forall. intros; eapply eval_ev; eauto.
Qed.
Lemma ev_treewalk p exprs r c vs : evd [] (p_defs p) r -> evs c r exprs vs -> exists n, treewalk n p exprs = Ok vs.
Proof.
  intros H1 H2. apply eval_of_evd in H1 as [n H1]. apply (proj2 ev_eval) in H2 as [m H2].
  exists (n + m). unfold treewalk, run_o.
  destruct (eval_defs_mono FnFirst (p_defs p) (Nat.le_add_r n m) []) as [E|E]; [congruence|].
  rewrite <- E, H1. simpl. apply (@mapM_up m); auto; lia.
Qed.

(** All indices at once. *)
Lemma rel_all P e e' r r' c v : rel P e e' -> (forall k, G P k r r') -> ev c r e v ->
  exists c' v', ev c' r' e' v' /\ forall j, V j v v'.
Proof.
  intros He HG Hev.
  assert (Hex : forall j, exists c' v', ev c' r' e' v' /\ V j v v').
  { intros j. destruct (He (j + c) r r' c v) as (c' & v' & E & HV); auto; [lia|].
    exists c', v'. split; auto. eapply V_mono; [|exact HV]; lia. }
  destruct (Hex 0) as (c' & v' & E & _). exists c', v'. split; auto. intros j.
  destruct (Hex j) as (c2 & v2 & E2 & HV). rewrite (ev_det E E2). auto.
Qed.
Lemma rels_all P es es' : Forall2 (rel P) es es' -> forall r r' c vs, (forall k, G P k r r') -> evs c r es vs ->
  exists c' vs', evs c' r' es' vs' /\ forall j, Forall2 (V j) vs vs'.
Proof.
  induction 1 as [|e e' es es' He _ IH]; intros r r' c vs HG Hev.
  - apply evs_nil_inv in Hev as [-> ->]. exists 0, []. split; constructor.
  - apply evs_cons_inv in Hev as (i & j & w & ws & -> & -> & H1 & H2).
    destruct (rel_all He HG H1) as (c1 & v1 & E1 & V1). destruct (IH _ _ _ _ HG H2) as (c2 & v2 & E2 & V2).
    exists (c1 + c2), (v1 :: v2). split; [constructor; auto|]. intros k. constructor; auto.
Qed.

Lemma evd_rel ds ds' : Forall2 (fun d d' => vd_name d = vd_name d' /\ lr (vd_value d) (vd_value d')) ds ds' ->
  forall r r' r1, (forall k, G idP k r r') -> evd r ds r1 -> exists r1', evd r' ds' r1' /\ forall k, G idP k r1 r1'.
Proof.
  induction 1 as [|d d' ds ds' [En Hd] _ IH]; intros r r' r1 HG He.
  - inversion He; subst. exists r'. split; [constructor|auto].
  - apply evd_cons_inv in He as (c & v & H1 & H2). destruct (rel_all Hd HG H1) as (c1 & v1 & E1 & V1).
    destruct (IH ((vd_name d, v) :: r) ((vd_name d', v1) :: r') r1) as (r1' & E2 & HG2); auto.
    + intros k. rewrite <- En. eapply G_sub; [|apply G_ext; eauto]. apply idP_ext.
    + exists r1'. split; auto. econstructor; eauto.
Qed.

Lemma Vs_obs k vs vs' : Forall2 (V k) vs vs' -> map obs_value vs' = map obs_value vs.
Proof. induction 1 as [|v v' vs vs' Hv _ IH]; simpl; auto. f_equal; auto. eapply V_obs; eauto. Qed.

Lemma G_nil P k r' : G P k [] r'. Proof. intros x e' _ v Hv. discriminate. Qed.

(** Every result of [p] is also a result of [p']. *)
Definition results_kept (p p' : program) (exprs : list expr) : Prop :=
  forall n vs, treewalk n p exprs = Ok vs ->
  exists m vs', treewalk m p' exprs = Ok vs' /\ map obs_value vs' = map obs_value vs.

Lemma lr_prog p p' exprs :
  Forall2 (fun d d' => vd_name d = vd_name d' /\ lr (vd_value d) (vd_value d')) (p_defs p) (p_defs p') ->
  results_kept p p' exprs.
Proof.
  intros H n vs Ht. apply treewalk_ev in Ht as (r & c & H1 & H2).
  destruct (evd_rel H (r := []) (r' := []) (fun k => @G_nil _ _ _) H1) as (r' & H1' & HG).
  assert (Hes : Forall2 (rel idP) exprs exprs) by (clear; induction exprs; constructor; auto using rel_refl).
  destruct (rels_all Hes HG H2) as (c' & vs' & H2' & HV).
  destruct (ev_treewalk _ H1' H2') as [m Hm]. exists m, vs'. split; auto. apply (@Vs_obs _ _ _ (HV 0)).
Qed.

(** ** Well-formed programs *)
Lemma scoped_fv : forall e, forall S, scoped S e = true -> forall x, In x (fv e) -> In x S.
Proof.
  assert (HL : forall es, Forall (fun e => forall S, scoped S e = true -> forall x, In x (fv e) -> In x S) es ->
     forall S, forallb (scoped S) es = true -> forall x, In x (flat_map fv es) -> In x S).
  { induction 1 as [|e es He _ IH]; simpl; intros S Hs x Hx; [contradiction|]. apply andb_true_iff in Hs as [H1 H2].
    apply in_app_iff in Hx as [Hx|Hx]; eauto. }
  intros e; induction e using expr_ind'; intros S Hs y Hy; cbn [scoped fv] in *; try contradiction;
    rewrite ?andb_true_iff, ?in_app_iff in *; eauto.
  - destruct Hy as [<-|[]]. apply mem_In; auto.
  - destruct Hs, Hy; eauto.
  - destruct Hs as [[? ?] ?], Hy as [|[|]]; eauto.
  - destruct Hs, Hy; eauto.
  - apply in_minus in Hy as [Hy Hn]. apply IHe with (x := y) in Hs; auto. apply in_app_iff in Hs as []; tauto.
  - destruct Hs as [Hs1 Hs2]. destruct Hy as [Hy|Hy]; [eauto|].
    apply in_flat_map in Hy as (br & Hin & Hy). apply in_minus in Hy as [Hy Hn].
    rewrite Forall_forall in H. rewrite forallb_forall in Hs2. apply (H _ Hin) with (x := y) in Hs2; auto.
    apply in_app_iff in Hs2 as []; tauto.
  - destruct Hs as [Hs1 Hs2]. destruct Hy as [Hy|Hy]; [eauto|]. apply in_minus in Hy as [Hy Hn].
    apply IHe2 with (x := y) in Hs2; auto. destruct Hs2; auto. subst; simpl in Hn; tauto.
  - destruct Hs as [Hs1 Hs2]. apply in_minus in Hy as [Hy Hn]. apply in_app_iff in Hy as [Hy|Hy].
    + apply IHe1 with (x := y) in Hs1; auto. destruct Hs1; auto. subst; simpl in Hn; tauto.
    + apply IHe2 with (x := y) in Hs2; auto. destruct Hs2; auto. subst; simpl in Hn; tauto.
Qed.

Lemma shape_recs : forall e, forall rec tail, shape rec tail e = true -> recs false e = true.
Proof.
  assert (HL : forall es rec, Forall (fun e => forall rec tail, shape rec tail e = true -> recs false e = true) es ->
     forallb (shape rec false) es = true -> forallb (recs false) es = true).
  { induction 1 as [|e es He _ IH]; simpl; intros Hs; auto. apply andb_true_iff in Hs as [H1 H2].
    apply andb_true_iff; eauto. }
  assert (HS : forall e, (forall ps b, strip_pis e = ELam ps b -> recs false b = true) ->
     match strip_pis e with ELam _ _ => true | _ => false end = true -> recs false e = true).
  { induction e; simpl; intros; try discriminate; eauto. }
  intros e; induction e using expr_ind_rec; intros rec tail Hs; cbn [shape recs] in *; auto; rewrite ?andb_true_iff in *.
  - destruct Hs as [[? ?] _]; eauto.
  - intuition eauto.
  - intuition eauto.
  - intuition eauto.
  - eauto.
  - destruct Hs as [Hs1 Hs2]. split; [split; [eauto|]|reflexivity]. rewrite Forall_forall in H. rewrite forallb_forall in *. intros; eapply H; eauto.
  - eauto.
  - intuition eauto.
  - destruct Hs as [Hs1 Hs2].
    destruct (strip_pis e1) as [| | | | | | | |ps f| | | | | | |] eqn:Es; try discriminate.
    assert (recs false e1 = true). { apply HS; rewrite Es; auto. intros ps0 b0 E. injection E as <- <-. eapply H; eauto. }
    intuition eauto.
  - eauto.
  - eauto.
Qed.

Lemma uq_defs ds : forall S X, scoped_defs S ds = true -> NoDup (def_names ds ++ flat_map (fun d => binders (vd_value d)) ds ++ X) ->
  (forall x, In x S -> ~ In x (flat_map (fun d => binders (vd_value d)) ds)) ->
  forallb (fun d => recs false (vd_value d)) ds = true -> Forall (fun d => uq (vd_value d)) ds.
Proof.
  induction ds as [|d ds IH]; simpl; intros S X Hs Hn Hd Hsh; constructor.
  - apply andb_true_iff in Hs as [Hs _]. apply andb_true_iff in Hsh as [Hsh _]. split; [|split].
    + intros x. apply NoDup_cons_iff in Hn as [_ Hn]. apply (NoDup_count_occ Nat.eq_dec) with (x := x) in Hn.
      change (cnt x (def_names ds ++ (binders (vd_value d) ++ flat_map (fun d => binders (vd_value d)) ds) ++ X) <= 1) in Hn.
      rewrite !cnt_app in Hn. lia.
    + intros x Hx Hf. apply (scoped_fv _ _ Hs) in Hf. apply (Hd x Hf). apply in_app_iff; auto.
    + auto.
  - apply andb_true_iff in Hs as [_ Hs]. apply andb_true_iff in Hsh as [_ Hsh].
    apply NoDup_cons_iff in Hn as [Hd1 Hn].
    apply IH with (S := vd_name d :: S) (X := X ++ binders (vd_value d)); auto.
    + rewrite (NoDup_count_occ Nat.eq_dec) in *. intros x. specialize (Hn x).
      change (cnt x (def_names ds ++ (binders (vd_value d) ++ flat_map (fun d => binders (vd_value d)) ds) ++ X) <= 1) in Hn.
      change (cnt x (def_names ds ++ flat_map (fun d => binders (vd_value d)) ds ++ X ++ binders (vd_value d)) <= 1).
      rewrite !cnt_app in *. lia.
    + intros x [<-|Hx] Hc; [apply Hd1; rewrite !in_app_iff; auto|]. apply (Hd x Hx). apply in_app_iff; auto.
Qed.

(** What the passes need of a program: every name bound once, used where it is in scope, and recursive
    definitions that are functions. *)
Definition ok_names (p : program) : Prop :=
  scoped_defs [] (p_defs p) = true /\
  NoDup (def_names (p_defs p) ++ flat_map (fun d => binders (vd_value d)) (p_defs p)) /\
  forallb (fun d => recs false (vd_value d)) (p_defs p) = true.

Lemma NoDup_app_l {A} (a b : list A) : NoDup (a ++ b) -> NoDup a.
Proof. induction a as [|x a IH]; simpl; intros H; [constructor|]. inversion H; subst. constructor; auto. intros Hx. apply H2. apply in_or_app; auto. Qed.

Lemma wf_ok p exprs : wf_program p exprs = true -> ok_names p.
Proof.
  unfold wf_program. rewrite !andb_true_iff. intros ((((H1 & _) & H3) & H4) & _). split; [auto|split].
  - apply nodupb_NoDup in H3. unfold all_binders in H3. rewrite app_assoc in H3. eapply NoDup_app_l; eauto.
  - rewrite forallb_forall in *. intros d Hd. eapply shape_recs; eauto.
Qed.
Lemma ok_uq p : ok_names p -> Forall (fun d => uq (vd_value d)) (p_defs p).
Proof.
  intros (H1 & H3 & H4). apply uq_defs with (S := []) (X := []); auto. rewrite app_nil_r. auto.
Qed.

Lemma on_defs_F2 g p p' : on_defs g p = Some p' -> p_types p' = p_types p /\
  Forall2 (fun d d' => vd_name d' = vd_name d /\ vd_export d' = vd_export d /\ vd_ty d' = vd_ty d /\ g (vd_value d) = Some (vd_value d'))
          (p_defs p) (p_defs p').
Proof.
  unfold on_defs. intros H. destruct (omap _ _) as [ds|] eqn:E; simpl in H; [|discriminate]. injection H as <-. simpl.
  split; auto. apply omap_F2 in E. eapply Forall2_weak; [|exact E]. intros d d' Hd. simpl in Hd.
  destruct (g (vd_value d)) eqn:Eg; simpl in Hd; [|discriminate]. injection Hd as <-. auto.
Qed.

Lemma on_defs_lr g p p' exprs : ok_names p -> on_defs g p = Some p' ->
  (forall e e', uq e -> g e = Some e' -> lr e e') -> results_kept p p' exprs.
Proof.
  intros Hw H Hg. apply on_defs_F2 in H as [_ H]. apply lr_prog. apply ok_uq in Hw.
  revert Hw. induction H as [|d d' ds ds' (E1 & _ & _ & E2) _ IH]; intros Hw; constructor; inversion Hw; subst; auto.
Qed.
Lemma on_defs_eqv g p p' exprs : ok_names p -> on_defs g p = Some p' ->
  (forall e e', uq e -> g e = Some e' -> eqv e e') -> results_kept p p' exprs /\ results_kept p' p exprs.
Proof.
  intros Hw H Hg. split; [eapply on_defs_lr; eauto; intros e e' Hu He; destruct (Hg e e' Hu He); auto|].
  apply on_defs_F2 in H as [_ H]. apply lr_prog. apply ok_uq in Hw.
  revert Hw. induction H as [|d d' ds ds' (E1 & _ & _ & E2) _ IH]; intros Hw; constructor; inversion Hw; subst; auto.
  split; auto. match goal with Hu : uq _ |- _ => destruct (Hg _ _ Hu E2); auto end.
Qed.
