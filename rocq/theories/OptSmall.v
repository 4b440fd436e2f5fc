(** The passes reduce_apply, reduce_pi, inline_simple and move_match preserve results. *)
From Verif Require Import EvalFacts Orders Compile CompileStatic Wf Vm OptEv OptRel OptWalk OptGood OptPasses OptLaws OptProg.
Set Implicit Arguments.

(** ** The fuel of the preorder walk is enough *)
Lemma size_pos e : 1 <= size e.
Proof. destruct e; simpl; lia. Qed.
Lemma child_size c e : child c e -> size c < size e.
Proof.
  assert (HL : forall l, In c l -> size c <= (fix sum (l : list expr) : nat := match l with [] => 0 | x :: r => size x + sum r end) l).
  { induction l as [|a l IH]; intros []; subst; [lia|]. specialize (IH H); lia. }
  destruct e; simpl; intros H; try contradiction; subst; try lia.
  - destruct H as [->|H]; [lia|]. apply HL in H. lia.
  - destruct H as [->|[->| ->]]; lia.
  - destruct H as [->| ->]; lia.
  - apply HL in H. lia.
  - destruct H as [->|H]; [lia|].
    assert (size c <= (fix sumb (l : list (name * list name * expr)) : nat := match l with [] => 0 | x :: r => size (snd x) + sumb r end) brs).
    { induction brs as [|a l IH]; simpl in H; [contradiction|]. destruct H as [<-|H]; [lia|]. specialize (IH H); lia. }
    lia.
  - apply HL in H. lia.
  - destruct H as [->| ->]; lia.
  - destruct H as [->| ->]; lia.
Qed.

Lemma omap_ext {A B} (f g : A -> option B) l : (forall a, In a l -> f a = g a) -> omap f l = omap g l.
Proof. induction l as [|a l IH]; simpl; intros H; auto. rewrite H, IH; auto. Qed.
Lemma children_ext g h e : (forall c, child c e -> g c = h c) -> children g e = children h e.
Proof.
  destruct e; simpl; intros H; auto.
  - rewrite H by auto. rewrite (omap_ext g h) by auto. auto.
  - rewrite !H by auto. auto.
  - rewrite !H by auto. auto.
  - rewrite (omap_ext g h) by auto. auto.
  - rewrite !H by auto. auto.
  - rewrite !H by auto. rewrite (omap_ext (fun br => do v <- g (snd br) ; Some (fst br, v)) (fun br => do v <- h (snd br) ; Some (fst br, v))); auto.
    intros br Hin. rewrite H; auto. right. apply in_map; auto.
  - rewrite (omap_ext g h) by auto. auto.
  - rewrite !H by auto. auto.
  - rewrite !H by auto. auto.
  - rewrite !H by auto. auto.
  - rewrite !H by auto. auto.
Qed.

Lemma pre_enough f : (forall e e', f e = Some e' -> size e' <= size e) ->
  forall n m e, size e <= n -> size e <= m -> pre_fuel f n e = pre_fuel f m e.
Proof.
  intros Hf n. induction n as [|n IH]; intros m e Hn Hm; [pose proof (size_pos e); lia|].
  destruct m as [|m]; [pose proof (size_pos e); lia|]. simpl. destruct (f e) as [e1|] eqn:E; simpl; auto.
  apply children_ext. intros c Hc. apply child_size in Hc. apply Hf in E. apply IH; lia.
Qed.

(** ** reduce_apply *)
Lemma cnt_lets x ps : forall args b, length ps = length args -> cnt x (binders (lets ps args b)) = cnt x ps + cnt x (flat_map binders args) + cnt x (binders b).
Proof.
  induction ps as [|p ps IH]; intros [|a args] b Hl; simpl in Hl; try discriminate; [reflexivity|].
  cbn [lets binders flat_map]. rewrite !cnt_cons, !cnt_app, IH by auto. lia.
Qed.
Lemma fv_lets x ps : forall args b, length ps = length args -> In x (fv (lets ps args b)) -> In x (flat_map fv args) \/ (In x (fv b) /\ ~ In x ps).
Proof.
  induction ps as [|p ps IH]; intros [|a args] b Hl; simpl in Hl; try discriminate; [auto|].
  cbn [lets fv flat_map]. rewrite !in_app_iff, in_minus. intros [H|[H Hn]]; auto.
  destruct (IH _ _ (f_equal pred Hl) H) as [|[]]; auto. right. split; auto. simpl in *. intuition.
Qed.
Lemma recs_lets m ps : forall args b, forallb (recs m) args = true -> recs m b = true -> recs m (lets ps args b) = true.
Proof.
  induction ps as [|p ps IH]; intros [|a args] b Ha Hb; simpl in *; auto. apply andb_true_iff in Ha as [? ?]. apply andb_true_iff; auto.
Qed.

Lemma apply_args_good f : forall args e', apply_args f args = Some e' -> (forall y, In y (binders f) -> ~ In y (flat_map fv args)) ->
  eqv (ECall f args) e' /\ tame (ECall f args) e'.
Proof.
  induction f as [| | | |f1 ? l1| | |i1 l2|ps f IHf| | |x v IHv f2 IHf2| | | |]; intros args e' H Hd; cbn [apply_args] in H; try discriminate.
  - destruct (length ps =? length args) eqn:El; [|discriminate]. apply Nat.eqb_eq in El. injection H as <-. simpl in Hd.
    assert (Hl : length (map fst ps) = length args) by (rewrite map_length; auto).
    split; [apply law_call_lam; auto; intros; apply Hd; apply in_or_app; auto|]. split.
    + intros x. rewrite cnt_lets by auto. simpl. rewrite !cnt_app. lia.
    + intros x Hx. apply fv_lets in Hx; auto. simpl. rewrite in_app_iff, in_minus. tauto.
    + simpl. intros m. rewrite andb_true_iff. intros []. apply recs_lets; auto.
  - destruct (apply_args f2 args) as [e2|] eqn:E; simpl in H; [|discriminate]. injection H as <-. simpl in Hd.
    destruct (IHf2 _ _ E) as [H1 [T1 T2 T3]]; [intros; apply Hd; right; apply in_or_app; auto|]. split.
    + eapply (c_trans cong_eqv); [apply law_call_let; apply Hd; auto|]. apply (c_let cong_eqv); auto. apply (c_refl cong_eqv).
    + split; cbn [binders fv recs] in *.
      * intros y. specialize (T1 y). simpl in T1. rewrite <- app_comm_cons. rewrite !cnt_cons, !cnt_app in *. lia.
      * intros y. rewrite !in_app_iff, !in_minus. intros [|[Hx Hn]]; auto. apply T2 in Hx. simpl in Hx. apply in_app_iff in Hx as []; auto.
      * intros m. specialize (T3 m). rewrite !andb_true_iff in *. intuition.
Qed.

Lemma reduce_apply_step_good e e' : uq e -> reduce_apply_step e = Some e' -> good eqv e e'.
Proof.
  intros Hu H. destruct e; simpl in H; try (injection H as <-; apply (good_refl cong_eqv)).
  destruct (can_apply e); [|injection H as <-; apply (good_refl cong_eqv)].
  destruct (@apply_args_good e args e' H) as [H1 H2].
  - intros y Hy Hf. destruct Hu as (_ & Hu & _). apply (Hu y); simpl; apply in_or_app; auto.
  - apply good_head; auto. discriminate.
Qed.

Theorem reduce_apply_ok p exprs p' : ok_names p -> reduce_apply p = Some p' ->
  results_kept p p' exprs /\ results_kept p' p exprs.
Proof.
  intros Hw H. eapply on_defs_eqv; eauto. intros e e' Hu He.
  destruct (post_good cong_eqv reduce_apply_step reduce_apply_step_good Hu He) as (H1 & _). auto.
Qed.

(** ** reduce_pi *)
Lemma tsub_strip v w a ps f : strip_pis a = ELam ps f ->
  strip_pis (tsub_e v w a) = ELam (map (fun p => (fst p, tsub v w (snd p))) ps) (tsub_e v w f).
Proof. induction a; simpl; intros E; try discriminate; auto. injection E as -> ->; auto. Qed.
Lemma tsub_fst v w (ps : list (name * ty)) : map fst (map (fun p => (fst p, tsub v w (snd p))) ps) = map fst ps.
Proof. induction ps; simpl; congruence. Qed.

Lemma tsub_R R (HR : cong R) v w e : recs false e = true -> R e (tsub_e v w e) /\ tame e (tsub_e v w e).
Proof.
  set (Q := fun e => R e (tsub_e v w e) /\ tame e (tsub_e v w e)).
  assert (HL : forall es, Forall (fun e => recs false e = true -> Q e) es -> forallb (recs false) es = true ->
                Forall2 R es (map (tsub_e v w) es) /\ Forall2 tame es (map (tsub_e v w) es)).
  { induction 1 as [|a es Ha _ IH]; simpl; intros Hr; [auto|]. apply andb_true_iff in Hr as [H1 H2].
    destruct (Ha H1), (IH H2). auto. }
  induction e using expr_ind_rec; cbn [recs]; intros Hr; rewrite ?andb_true_iff in Hr; cbn [tsub_e].
  - split; [apply (c_refl HR)|apply tame_refl].
  - split; [apply (c_refl HR)|apply tame_refl].
  - split; [apply (c_refl HR)|apply tame_refl].
  - split; [apply (c_refl HR)|apply tame_refl].
  - destruct Hr as [H1 H2]. destruct (IHe H1) as [A1 [A2 A3 A4]]. destruct (HL _ H H2) as [B1 B2].
    apply tame_list in B2 as (C1 & C2 & C3). split; [apply (c_call HR); auto|]. split; simpl.
    + intros x. rewrite !cnt_app. specialize (A2 x); specialize (C1 x); lia.
    + intros x. rewrite !in_app_iff. intuition.
    + intros m. rewrite !andb_true_iff. intuition.
  - destruct Hr as [[H1 H2] H3]. destruct (IHe1 H1) as [A1 [A2 A3 A4]]. destruct (IHe2 H2) as [B1 [B2 B3 B4]]. destruct (IHe3 H3) as [C1 [C2 C3 C4]].
    split; [apply (c_if HR); auto|]. split; simpl.
    + intros x. rewrite !cnt_app. specialize (A2 x); specialize (B2 x); specialize (C2 x); lia.
    + intros x. rewrite !in_app_iff. intuition.
    + intros m. rewrite !andb_true_iff. intuition.
  - destruct Hr as [H1 H2]. destruct (IHe1 H1) as [A1 [A2 A3 A4]]. destruct (IHe2 H2) as [B1 [B2 B3 B4]].
    split; [apply (c_op HR); auto|]. split; simpl.
    + intros x. rewrite !cnt_app. specialize (A2 x); specialize (B2 x); lia.
    + intros x. rewrite !in_app_iff. intuition.
    + intros m. rewrite !andb_true_iff. intuition.
  - destruct (HL _ H Hr) as [B1 B2]. apply tame_list in B2 as (C1 & C2 & C3). split; [apply (c_intr HR); auto|]. split; simpl; auto.
  - destruct (IHe Hr) as [A1 [A2 A3 A4]]. split; [apply (c_lam HR); auto; rewrite tsub_fst; auto|]. split; simpl; rewrite ?tsub_fst; auto.
    + intros x. rewrite !cnt_app. specialize (A2 x); lia.
    + intros x. rewrite !in_minus. intuition.
  - destruct Hr as [[H1 H2] _]. destruct (IHe H1) as [A1 [A2 A3 A4]].
    assert (HB : Forall2 (fun br br' => fst br = fst br' /\ Q (snd br)  /\ snd br' = tsub_e v w (snd br)) brs (map (fun br => (fst br, tsub_e v w (snd br))) brs)).
    { clear - H H2. induction H as [|br l Hb _ IH]; simpl in *; auto. apply andb_true_iff in H2 as [Ha Hb2]. constructor; [|auto]. split; [reflexivity|]. split; [apply (Hb Ha)|reflexivity]. }
    split.
    + apply (c_match HR); auto. eapply Forall2_weak; [|exact HB]. intros a b (E & [Q1 _] & E2). rewrite E2; auto.
    + assert (HT2 : (forall x, cnt x (flat_map (fun br => snd (fst br) ++ binders (snd br)) (map (fun br => (fst br, tsub_e v w (snd br))) brs)) <= cnt x (flat_map (fun br => snd (fst br) ++ binders (snd br)) brs)) /\
           (forall x, In x (flat_map (fun br => minus (fv (snd br)) (snd (fst br))) (map (fun br => (fst br, tsub_e v w (snd br))) brs)) -> In x (flat_map (fun br => minus (fv (snd br)) (snd (fst br))) brs)) /\
           (forall m, forallb (fun br => recs m (snd br)) brs = true -> forallb (fun br => recs m (snd br)) (map (fun br => (fst br, tsub_e v w (snd br))) brs) = true)).
      { clear - HB. induction HB as [|br br' l l' (Eq & [_ [T1 T2 T3]] & Eq2) _ (I1 & I2 & I3)]; simpl; auto. rewrite <- Eq, Eq2 in *. split; [|split].
        - intros x. rewrite !cnt_app. specialize (T1 x); specialize (I1 x); lia.
        - intros x. rewrite !in_app_iff. intros [Hm|]; auto. left. apply in_minus in Hm as []. apply in_minus; auto.
        - intros m. rewrite !andb_true_iff. intros []; auto. }
      destruct HT2 as (C1 & C2 & C3).
      assert (HM : map (fun br => fst (fst br)) (map (fun br => (fst br, tsub_e v w (snd br))) brs) = map (fun br : name * list name * expr => fst (fst br)) brs).
      { rewrite map_map. auto. }
      split; cbn [binders fv recs].
      * intros x. rewrite !cnt_app. specialize (A2 x); specialize (C1 x); lia.
      * intros x. rewrite !in_app_iff. intros []; auto.
      * intros m. rewrite !andb_true_iff, HM. intros [[] ]; auto.
  - destruct (HL _ H Hr) as [B1 B2]. apply tame_list in B2 as (C1 & C2 & C3). split; [apply (c_construct HR); auto|]. split; simpl; auto.
  - destruct Hr as [H1 H2]. destruct (IHe1 H1) as [A1 [A2 A3 A4]]. destruct (IHe2 H2) as [B1 [B2 B3 B4]].
    split; [apply (c_let HR); auto|]. split; cbn [binders fv recs].
    + intros x. rewrite !cnt_cons, !cnt_app. specialize (A2 x); specialize (B2 x); lia.
    + intros x. rewrite !in_app_iff, !in_minus. intuition.
    + intros m. rewrite !andb_true_iff. intuition.
  - destruct Hr as [[H0 H1] H2]. destruct (IHe1 H1) as [A1 [A2 A3 A4]]. destruct (IHe2 H2) as [B1 [B2 B3 B4]].
    destruct (strip_pis e1) as [| | | | | | | |ps f| | | | | | |] eqn:Es; try discriminate.
    assert (Hrf : recs false f = true).
    { clear - Es H1. revert ps f Es H1. induction e1; simpl; intros; try discriminate; eauto. injection Es as -> ->; auto. }
    split.
    + eapply (c_letrec HR); [exact Es|apply (@tsub_strip v w _ _ _ Es)|rewrite tsub_fst; auto| |auto]. apply (H _ _ eq_refl Hrf).
    + split; cbn [binders fv recs].
      * intros x. rewrite !cnt_cons, !cnt_app. specialize (A2 x); specialize (B2 x); lia.
      * intros x. rewrite !in_minus, !in_app_iff. intuition.
      * intros m. rewrite Es, (@tsub_strip v w _ _ _ Es), !andb_true_iff. intuition.
  - destruct (IHe Hr) as [A1 [A2 A3 A4]]. split; [apply (c_pi HR); auto|]. split; simpl; auto.
  - destruct (IHe Hr) as [A1 [A2 A3 A4]]. split; [apply (c_piapp HR); auto|]. split; simpl; auto.
  - split; [|split; simpl; auto]. apply (c_trap HR).
Qed.

Lemma eqv_piapp e t : eqv (EPiApp e t) e.
Proof. split; [apply rel_piapp_l|apply rel_piapp_r]; apply rel_refl. Qed.
Lemma eqv_pi v e : eqv (EPi v e) e.
Proof. split; [apply rel_pi_l|apply rel_pi_r]; apply rel_refl. Qed.

Lemma apply_pi_good t e : forall e', apply_pi e t = Some e' -> recs false e = true -> eqv e e' /\ tame e e'.
Proof.
  induction e; intros e' H Hr; cbn [apply_pi] in H; try discriminate.
  - destruct (apply_pi e2 t) as [r|] eqn:E; simpl in H; [|discriminate]. injection H as <-.
    cbn [recs] in Hr. apply andb_true_iff in Hr as [R1 R2]. destruct (IHe2 _ eq_refl R2) as [A1 [A2 A3 A4]]. split.
    + apply (c_let cong_eqv); auto. apply (c_refl cong_eqv).
    + split; cbn [binders fv recs].
      * intros x. rewrite !cnt_cons, !cnt_app. specialize (A2 x); lia.
      * intros x. rewrite !in_app_iff, !in_minus. intuition.
      * intros m. rewrite !andb_true_iff. intuition.
  - injection H as <-. cbn [recs] in Hr. destruct (tsub_R cong_eqv v t _ Hr) as [A1 [A2 A3 A4]]. split; [|split; simpl; auto].
    eapply (c_trans cong_eqv); [apply eqv_pi|exact A1].
Qed.

Lemma reduce_pi_step_good e e' : uq e -> reduce_pi_step e = Some e' -> good eqv e e'.
Proof.
  intros Hu H. destruct e; simpl in H; try (injection H as <-; apply (good_refl cong_eqv)).
  destruct (can_apply_pi e); [|injection H as <-; apply (good_refl cong_eqv)].
  destruct Hu as (_ & _ & Hr). destruct (apply_pi_good _ _ H Hr) as [A1 [A2 A3 A4]].
  apply good_head; [|split; auto|discriminate].
  eapply (c_trans cong_eqv); [apply eqv_piapp|exact A1].
Qed.

Theorem reduce_pi_ok p exprs p' : ok_names p -> reduce_pi p = Some p' ->
  results_kept p p' exprs /\ results_kept p' p exprs.
Proof.
  intros Hw H. eapply on_defs_eqv; eauto. intros e e' Hu He.
  destruct (post_good cong_eqv reduce_pi_step reduce_pi_step_good Hu He) as (H1 & _). auto.
Qed.

Lemma can_apply_pi_some t e : can_apply_pi e = true -> exists e', apply_pi e t = Some e'.
Proof. induction e; simpl; intros H; try discriminate; eauto. destruct (IHe2 H) as [e' ->]. simpl. eauto. Qed.

(** ** Walks that never panic *)
Lemma omap_some {A B} (f : A -> option B) l : (forall a, In a l -> exists b, f a = Some b) -> exists l', omap f l = Some l'.
Proof.
  induction l as [|a l IH]; simpl; intros H; eauto. destruct (H a) as [b ->]; auto. destruct IH as [l' ->]; eauto.
  simpl. eauto.
Qed.
Lemma children_some g e : (forall c, child c e -> exists c', g c = Some c') -> exists e', children g e = Some e'.
Proof.
  destruct e; simpl; intros H; eauto.
  - destruct (H e) as [? ->]; auto. destruct (omap_some g args) as [? ->]; simpl; eauto.
  - destruct (H e1) as [? ->]; auto. destruct (H e2) as [? ->]; auto. destruct (H e3) as [? ->]; simpl; eauto.
  - destruct (H e1) as [? ->]; auto. destruct (H e2) as [? ->]; simpl; eauto.
  - destruct (omap_some g args) as [? ->]; simpl; eauto.
  - destruct (H e) as [? ->]; simpl; eauto.
  - destruct (H e) as [? ->]; auto.
    destruct (omap_some (fun br : name * list name * expr => do v <- g (snd br) ; Some (fst br, v)) brs) as [? E].
    + intros br Hin. destruct (H (snd br)) as [? ->]; [right; apply in_map; auto|]. simpl. eauto.
    + simpl. setoid_rewrite E. simpl. eauto.
  - destruct (omap_some g fields) as [? ->]; simpl; eauto.
  - destruct (H e1) as [? ->]; auto. destruct (H e2) as [? ->]; simpl; eauto.
  - destruct (H e1) as [? ->]; auto. destruct (H e2) as [? ->]; simpl; eauto.
  - destruct (H e) as [? ->]; simpl; eauto.
  - destruct (H e) as [? ->]; simpl; eauto.
Qed.
Lemma post_some f : (forall e, exists e', f e = Some e') -> forall e, exists e', post f e = Some e'.
Proof.
  intros Hf e. induction e as [e IH] using child_ind. rewrite post_eq. destruct (children_some (post f) e IH) as [e1 ->]. apply Hf.
Qed.
Lemma pre_some f : (forall e, exists e', f e = Some e') -> forall n e, exists e', pre_fuel f n e = Some e'.
Proof.
  intros Hf n. induction n as [|n IH]; intros e; simpl; eauto. destruct (Hf e) as [e1 ->]. apply children_some. auto.
Qed.
Lemma on_defs_some g p : (forall d, In d (p_defs p) -> exists e', g (vd_value d) = Some e') -> exists p', on_defs g p = Some p'.
Proof.
  intros H. unfold on_defs.
  destruct (omap_some (fun d => do v <- g (vd_value d) ; Some (mkValDef (vd_name d) (vd_export d) (vd_ty d) v)) (p_defs p)) as [ds ->].
  - intros d Hd. destruct (H d Hd) as [e' ->]. simpl; eauto.
  - simpl; eauto.
Qed.
Theorem reduce_pi_total p : exists p', reduce_pi p = Some p'.
Proof.
  apply on_defs_some. intros d _. apply post_some. intros [] ; simpl; eauto.
  destruct (can_apply_pi e) eqn:E; eauto. apply can_apply_pi_some; auto.
Qed.

(** ** inline_simple *)
Lemma omap_map {A B} (g : A -> option B) h l : Forall (fun a => g a = Some (h a)) l -> omap g l = Some (map h l).
Proof. induction 1 as [|a l Ha _ IH]; simpl; auto. rewrite Ha, IH. auto. Qed.

Lemma post_replace x a e : post (replace_name x a) e = Some (sub x a e).
Proof.
  unfold sub. induction e using expr_ind'; rewrite post_eq; cbn [children nmap]; auto.
  - simpl. destruct (Nat.eqb n x); auto.
  - rewrite IHe. simpl. rewrite (omap_map _ (nmap (fun y => if Nat.eqb y x then a else EName y)) H). auto.
  - rewrite IHe1, IHe2, IHe3. auto.
  - rewrite IHe1, IHe2. auto.
  - rewrite (omap_map _ (nmap (fun y => if Nat.eqb y x then a else EName y)) H). auto.
  - rewrite IHe. auto.
  - rewrite IHe. simpl.
    rewrite (omap_map _ (fun br => (fst br, nmap (fun y => if Nat.eqb y x then a else EName y) (snd br)))); auto.
    eapply Forall_impl; [|exact H]. intros br Hb. simpl in *. rewrite Hb. auto.
  - rewrite (omap_map _ (nmap (fun y => if Nat.eqb y x then a else EName y)) H). auto.
  - rewrite IHe1, IHe2. auto.
  - rewrite IHe1, IHe2. auto.
  - rewrite IHe. auto.
  - rewrite IHe. auto.
Qed.

Lemma count_used x e : count_uses true x e = cnt x (used_names e).
Proof.
  assert (HL : forall es, Forall (fun e => count_uses true x e = cnt x (used_names e)) es ->
    list_sum (map (count_uses true x) es) = cnt x (flat_map used_names es)).
  { induction 1 as [|e0 es He _ IH]; simpl; auto. rewrite cnt_app, He, IH; auto. }
  induction e using expr_ind'; cbn [count_uses used_names]; rewrite ?cnt_app; auto.
  - rewrite cnt_cons, cnt_nil. destruct (Nat.eqb_spec n x), (Nat.eq_dec n x); auto; congruence.
  - lia.
  - rewrite IHe. f_equal. clear IHe. induction H as [|br l Hb _ IH]; simpl; auto. rewrite cnt_app, Hb, IH. auto.
Qed.
Lemma count_single x e : count_uses false x e < 1000 -> count_uses true x e = count_uses false x e.
Proof.
  assert (HL : forall es, Forall (fun e => count_uses false x e < 1000 -> count_uses true x e = count_uses false x e) es ->
    list_sum (map (count_uses false x) es) < 1000 -> list_sum (map (count_uses true x) es) = list_sum (map (count_uses false x) es)).
  { induction 1 as [|e0 es He _ IH]; cbn [map list_sum fold_right]; intros Hs; auto. unfold list_sum in *. rewrite He, IH; lia. }
  induction e using expr_ind'; cbn [count_uses]; intros Hs; auto.
  - rewrite IHe, HL; auto; lia.
  - rewrite IHe1, IHe2, IHe3; lia.
  - rewrite IHe1, IHe2; lia.
  - destruct (Nat.eqb_spec (count_uses false x e) 0) as [E|E]; [|lia]. rewrite IHe; lia.
  - rewrite IHe by lia. f_equal. assert (Hb : list_sum (map (fun br => count_uses false x (snd br)) brs) < 1000) by lia.
    clear IHe Hs. induction H as [|br l Hbr _ IH]; auto. cbn [map list_sum fold_right] in *. unfold list_sum in *. rewrite Hbr, IH; lia.
  - rewrite IHe1, IHe2; lia.
  - rewrite IHe1, IHe2; lia.
Qed.

Lemma flat_map_map {A B C} (f : B -> list C) (g : A -> B) l : flat_map f (map g l) = flat_map (fun a => f (g a)) l.
Proof. induction l; simpl; congruence. Qed.

Lemma sub_cnt x a y e : cnt y (binders (sub x a e)) = cnt y (binders e) + cnt x (used_names e) * cnt y (binders a).
Proof.
  unfold sub.
  assert (HL : forall es, Forall (fun e => cnt y (binders (sub x a e)) = cnt y (binders e) + cnt x (used_names e) * cnt y (binders a)) es ->
    cnt y (flat_map binders (map (sub x a) es)) = cnt y (flat_map binders es) + cnt x (flat_map used_names es) * cnt y (binders a)).
  { induction 1 as [|e0 es He _ IH]; simpl; auto. rewrite !cnt_app, He, IH. lia. }
  unfold sub in HL. induction e using expr_ind'; cbn [nmap binders used_names]; rewrite ?cnt_cons, ?cnt_app; auto; try lia.
  - rewrite cnt_nil. destruct (Nat.eqb_spec n x), (Nat.eq_dec n x); try congruence; simpl; rewrite ?cnt_nil; lia.
  - rewrite IHe, HL; auto; lia.
  - rewrite IHe.
    assert (HB : cnt y (flat_map (fun br => snd (fst br) ++ binders (snd br)) (map (fun br => (fst br, nmap (fun y => if Nat.eqb y x then a else EName y) (snd br))) brs)) =
                 cnt y (flat_map (fun br => snd (fst br) ++ binders (snd br)) brs) + cnt x (flat_map (fun br => used_names (snd br)) brs) * cnt y (binders a)).
    { induction H as [|br l Hb _ IH]; simpl; auto. rewrite !cnt_app, Hb. rewrite IH. lia. }
    rewrite HB. lia.
Qed.
Lemma sub_fv x a y e : In y (fv (sub x a e)) -> (In y (fv e) /\ y <> x) \/ In y (fv a).
Proof.
  unfold sub.
  assert (HL : forall es, Forall (fun e => In y (fv (sub x a e)) -> (In y (fv e) /\ y <> x) \/ In y (fv a)) es ->
    In y (flat_map fv (map (sub x a) es)) -> (In y (flat_map fv es) /\ y <> x) \/ In y (fv a)).
  { induction 1 as [|e0 es He _ IH]; simpl; auto. rewrite !in_app_iff. intros []; intuition. }
  unfold sub in HL. induction e using expr_ind'; cbn [nmap fv]; rewrite ?in_minus, ?in_app_iff, ?in_minus; auto; try tauto.
  - destruct (Nat.eqb_spec n x); auto. simpl. intros [<-|[]]; auto.
  - intros [Hx|Hx]; [intuition|]. destruct (HL _ H Hx); intuition.
  - intros [Hx|Hx]; [intuition|]. rewrite flat_map_map in Hx. apply in_flat_map in Hx as (br & Hin & Hx). simpl in Hx.
    apply in_minus in Hx as [Hx Hn]. rewrite Forall_forall in H. destruct (H _ Hin Hx) as [[]|]; auto.
    left. split; auto. right. apply in_flat_map. exists br. split; auto. apply in_minus; auto.
Qed.
Lemma sub_recs m x a e : recs m a = true -> recs m e = true -> recs m (sub x a e) = true.
Proof.
  intros Ha. unfold sub. set (h := fun y => if Nat.eqb y x then a else EName y).
  assert (HL : forall es, Forall (fun e => recs m e = true -> recs m (nmap h e) = true) es ->
    forallb (recs m) es = true -> forallb (recs m) (map (nmap h) es) = true).
  { induction 1 as [|e0 es He _ IH]; simpl; auto. rewrite !andb_true_iff. intuition. }
  induction e using expr_ind'; cbn [nmap recs]; rewrite ?andb_true_iff; auto; try (intuition; fail).
  - unfold h. destruct (Nat.eqb n x); auto.
  - rewrite map_map. intros [[H1 H2] H3]. split; [split|]; auto. rewrite forallb_forall in *. intros br Hin. apply in_map_iff in Hin as (b0 & <- & Hin). simpl.
    rewrite Forall_forall in H. auto.
  - intros [[H1 H2] H3]. destruct (strip_pis e1) eqn:E; try discriminate. rewrite (nmap_strip h _ E). auto.
Qed.
Lemma sub_size x a e : size (sub x a e) + cnt x (used_names e) = size e + cnt x (used_names e) * size a.
Proof.
  unfold sub. set (h := fun y => if Nat.eqb y x then a else EName y).
  set (sum := fix sum (l : list expr) : nat := match l with [] => 0 | x :: r => size x + sum r end).
  assert (HL : forall es, Forall (fun e => size (nmap h e) + cnt x (used_names e) = size e + cnt x (used_names e) * size a) es ->
    sum (map (nmap h) es) + cnt x (flat_map used_names es) = sum es + cnt x (flat_map used_names es) * size a).
  { induction 1 as [|e0 es He _ IH]; simpl; auto. rewrite !cnt_app. fold sum. lia. }
  induction e using expr_ind'; cbn [nmap used_names size]; fold sum; rewrite ?cnt_app; auto; try lia.
  - unfold h. rewrite cnt_cons, cnt_nil. destruct (Nat.eqb_spec n x), (Nat.eq_dec n x); try congruence; simpl; lia.
  - specialize (HL _ H). lia.
  - specialize (HL _ H). lia.
  - set (sumb := fix sumb (l : list (name * list name * expr)) : nat := match l with [] => 0 | x :: r => size (snd x) + sumb r end).
    assert (HB : sumb (map (fun br => (fst br, nmap h (snd br))) brs) + cnt x (flat_map (fun br => used_names (snd br)) brs) =
                 sumb brs + cnt x (flat_map (fun br => used_names (snd br)) brs) * size a).
    { clear IHe. induction H as [|br l Hb _ IH]; simpl; auto. rewrite !cnt_app. fold sumb. lia. }
    lia.
  - specialize (HL _ H). rewrite map_length. lia.
Qed.

Lemma inline_one x b r : uq (ELet x b r) -> count_uses true x r = 1 -> good lr (ELet x b r) (sub x b r) /\ size (sub x b r) < size (ELet x b r).
Proof.
  intros (U1 & U2 & U3) Hc. rewrite count_used in Hc. split.
  - apply good_head; [|split|discriminate].
    + apply law_inline.
      * intros Hx. apply (U2 x); simpl; auto. apply in_or_app; auto.
      * intros y Hy. split.
        -- intros ->. specialize (U1 x). cbn [binders] in U1. rewrite cnt_cons, cnt_app in U1.
           apply cnt_in in Hy. destruct (Nat.eq_dec x x); [lia|congruence].
        -- intros Hf. apply (U2 y); simpl; [right|]; apply in_or_app; auto.
    + intros y. rewrite sub_cnt, Hc. cbn [binders]. rewrite cnt_cons, cnt_app. lia.
    + intros y Hy. apply sub_fv in Hy. cbn [fv]. rewrite in_app_iff, in_minus. simpl. intuition.
    + cbn [recs]. intros m. rewrite andb_true_iff. intros []. apply sub_recs; auto.
  - pose proof (sub_size x b r) as Hs. rewrite Hc in Hs. simpl. lia.
Qed.

Lemma replace_use_eq x a r e : replace_use x a r = Some e -> count_uses true x r = 1 /\ e = sub x a r.
Proof.
  unfold replace_use. destruct (Nat.eqb_spec (count_uses true x r) 1); [|discriminate]. rewrite post_replace. intros H. injection H as <-. auto.
Qed.

Lemma inline_simple_step_good e e' : uq e -> inline_simple_step e = Some e' -> good lr e e' /\ size e' <= size e.
Proof.
  intros Hu H. unfold inline_simple_step in H.
  destruct (match e with ELet x b r => if count_uses (is_lambda b) x r =? 1 then replace_use x b r else Some e | _ => Some e end) as [e1|] eqn:E1;
    simpl in H; [|discriminate].
  assert (H1 : good lr e e1 /\ size e1 <= size e).
  { destruct e; try (injection E1 as <-; split; [apply (good_refl cong_lr)|lia]).
    destruct (count_uses (is_lambda e2) n e3 =? 1); [|injection E1 as <-; split; [apply (good_refl cong_lr)|lia]].
    apply replace_use_eq in E1 as [Hc ->]. destruct (inline_one Hu Hc). split; auto; lia. }
  clear E1. destruct H1 as [H1 H2]. assert (Hu1 : uq e1) by (eapply uq_tame; [exact Hu|apply H1]).
  assert (H3 : good lr e1 e' /\ size e' <= size e1).
  { destruct e1; try (injection H as <-; split; [apply (good_refl cong_lr)|lia]).
    destruct e1_1; try (injection H as <-; split; [apply (good_refl cong_lr)|lia]).
    match type of H with context [if ?c then _ else _] => destruct c end; [|injection H as <-; split; [apply (good_refl cong_lr)|lia]].
    apply replace_use_eq in H as [Hc ->]. destruct (inline_one Hu1 Hc). split; auto; lia. }
  destruct H3. split; [|lia]. eapply (good_trans cong_lr); eauto.
Qed.

Theorem inline_simple_ok p exprs p' : ok_names p -> inline_simple p = Some p' -> results_kept p p' exprs.
Proof.
  intros Hw H. eapply on_defs_lr; eauto. intros e e' Hu He.
  destruct (@pre_good lr cong_lr inline_simple_step (fun _ => True)) with (n := size e) (e := e) (e' := e') as (H1 & _); auto.
  intros e0 e1 Hu0 _ E. split; auto. eapply inline_simple_step_good; eauto.
Qed.

Theorem inline_simple_total p : exists p', inline_simple p = Some p'.
Proof.
  assert (HR : forall x b r, count_uses true x r = 1 -> exists e', replace_use x b r = Some e').
  { intros x b r Hc. unfold replace_use. rewrite Hc. simpl. rewrite post_replace. eauto. }
  apply on_defs_some. intros d _. apply pre_some. intros e. unfold inline_simple_step.
  assert (H1 : exists e1, match e with ELet x b r => if count_uses (is_lambda b) x r =? 1 then replace_use x b r else Some e | _ => Some e end = Some e1).
  { destruct e; eauto. destruct (Nat.eqb_spec (count_uses (is_lambda e1) n e2) 1) as [Hc|]; eauto.
    apply HR. destruct (is_lambda e1); auto. rewrite count_single; lia. }
  destruct H1 as [e1 ->]. cbn [obind]. destruct e1; eauto. destruct e1_1; eauto.
  match goal with |- context [if ?c then _ else _] => destruct c eqn:Hc end; eauto. apply HR. apply Nat.eqb_eq; auto.
Qed.
