(** dce preserves the results of exported definitions, always finishes and never panics. *)
From Verif Require Import EvalFacts Orders Compile CompileStatic Wf Vm RunnerCorrect OptEv OptRel OptWalk OptGood OptPasses OptLaws OptProg OptSmall.
Set Implicit Arguments.

(** ** The set of used names *)
Definition pool (used : list name) (defs : list (name * expr)) : nat :=
  list_sum (map (fun d => if mem (fst d) used then 0 else length (used_names (snd d))) defs).

Lemma pool_mono used x defs : pool (x :: used) defs <= pool used defs.
Proof.
  unfold pool. induction defs as [|[k v] l IH]; simpl; auto. apply Nat.add_le_mono; [|exact IH].
  unfold mem. simpl. destruct (Nat.eqb k x); simpl; [lia|auto].
Qed.
Lemma pool_used used x defs v : mem x used = false -> lookup x defs = Some v -> pool (x :: used) defs + length (used_names v) <= pool used defs.
Proof.
  intros Hx. unfold pool. induction defs as [|[k w] l IH]; intros H; [discriminate|]. cbn [lookup] in H. cbn [map list_sum fold_right fst snd].
  destruct (Nat.eqb_spec x k) as [->|Hk].
  - injection H as ->. rewrite Hx. assert (Hk : mem k (k :: used) = true) by (apply mem_In; simpl; auto). rewrite Hk.
    pose proof (pool_mono used k l) as Hm. unfold pool, list_sum in *. lia.
  - specialize (IH H). unfold list_sum in *.
    assert (Hk2 : mem k (x :: used) = mem k used). { unfold mem. simpl. destruct (Nat.eqb_spec k x); [congruence|auto]. }
    rewrite Hk2. lia.
Qed.

Lemma mark_total fuel : forall defs pending used, length pending + pool used defs < fuel -> exists U, mark fuel defs pending used = Some U.
Proof.
  induction fuel as [|n IH]; intros defs pending used H; [lia|]. simpl. destruct pending as [|x rest]; eauto. simpl in H.
  destruct (mem x used) eqn:E; [apply IH; lia|].
  destruct (lookup x defs) as [v|] eqn:El.
  - apply IH. rewrite app_length, rev_length. pose proof (pool_used used x defs E El). lia.
  - apply IH. pose proof (pool_mono used x defs). lia.
Qed.

Lemma dce_used_total p : exists U, dce_used p = Some U.
Proof.
  unfold dce_used, dce_fuel. apply mark_total. unfold pool.
  assert (H : forall l : list (name * expr), list_sum (map (fun d => if mem (fst d) [] then 0 else length (used_names (snd d))) l)
     <= length (flat_map (fun d => used_names (snd d)) l)).
  { induction l as [|[k v] l IH]; simpl; auto. rewrite app_length. apply Nat.add_le_mono; auto. }
  specialize (H (all_defs (p_defs p))). lia.
Qed.

Lemma mark_closed fuel : forall defs pending used U, mark fuel defs pending used = Some U ->
  (forall x, In x used -> In x U) /\ (forall x, In x pending -> In x U) /\
  (forall x v, In x U -> ~ In x used -> lookup x defs = Some v -> forall y, In y (used_names v) -> In y U).
Proof.
  induction fuel as [|n IH]; intros defs pending used U H.
  - destruct pending; [|discriminate]. injection H as <-. simpl. repeat split; auto; intros; try contradiction.
  - destruct pending as [|x rest]; simpl in H; [injection H as <-; simpl; repeat split; auto; intros; contradiction|].
    destruct (mem x used) eqn:E.
    + apply IH in H as (H1 & H2 & H3). repeat split; auto. intros y [<-|Hy]; auto. apply H1. apply mem_In; auto.
    + destruct (lookup x defs) as [v|] eqn:El.
      * apply IH in H as (H1 & H2 & H3). split; [|split].
        -- intros y Hy. apply H1. simpl; auto.
        -- intros y [<-|Hy]; [apply H1; simpl; auto|]. apply H2. apply in_or_app; auto.
        -- intros y w Hy Hn Hl z Hz. destruct (Nat.eq_dec x y) as [<-|Hxy].
           ++ rewrite El in Hl. injection Hl as <-. apply H2. apply in_or_app; left. apply in_rev in Hz; auto.
           ++ eapply H3; eauto. simpl; intuition.
      * apply IH in H as (H1 & H2 & H3). split; [|split].
        -- intros y Hy. apply H1. simpl; auto.
        -- intros y [<-|Hy]; [apply H1; simpl; auto|]. auto.
        -- intros y w Hy Hn Hl z Hz. destruct (Nat.eq_dec x y) as [<-|Hxy]; [congruence|].
           eapply H3; eauto. simpl; intuition.
Qed.

Lemma lets_cnt y e : cnt y (map fst (lets_of e)) <= cnt y (binders e).
Proof.
  assert (HL : forall es, Forall (fun e => cnt y (map fst (lets_of e)) <= cnt y (binders e)) es ->
    cnt y (map fst (flat_map lets_of es)) <= cnt y (flat_map binders es)).
  { induction 1 as [|e0 es He _ IH]; simpl; auto. rewrite map_app, !cnt_app. lia. }
  induction e using expr_ind'; cbn [lets_of binders]; rewrite ?map_app, ?cnt_app; auto; try (simpl; lia).
  - specialize (HL _ H). lia.
  - assert (HB : cnt y (map fst (flat_map (fun br => lets_of (snd br)) brs)) <= cnt y (flat_map (fun br => snd (fst br) ++ binders (snd br)) brs)).
    { clear IHe. induction H as [|br l Hb _ IH]; simpl; auto. rewrite map_app, !cnt_app. lia. }
    lia.
  - cbn [map fst]. rewrite !cnt_cons, map_app, !cnt_app. lia.
  - cbn [map fst]. rewrite !cnt_cons, !cnt_app. lia.
Qed.

Lemma lookup_nodup {B} x (v : B) l : (forall y, cnt y (map fst l) <= 1) -> In (x, v) l -> lookup x l = Some v.
Proof.
  induction l as [|[k w] l IH]; intros Hn []; cbn [lookup].
  - injection H as -> ->. rewrite Nat.eqb_refl; auto.
  - destruct (Nat.eqb_spec x k) as [->|].
    + exfalso. specialize (Hn k). cbn [map fst] in Hn. rewrite cnt_cons in Hn. destruct (Nat.eq_dec k k); [|congruence].
      assert (1 <= cnt k (map fst l)). { apply cnt_in. apply in_map_iff. exists (k, v); auto. } lia.
    + apply IH; auto. intros y. specialize (Hn y). cbn [map fst] in Hn. rewrite cnt_cons in Hn. lia.
Qed.

Lemma cnt_rev y l : cnt y (rev l) = cnt y l.
Proof. induction l as [|a l IH]; auto. cbn [rev]. rewrite cnt_app, !cnt_cons, cnt_nil, IH. lia. Qed.

Lemma all_defs_lookup p d : ok_names p -> In d (p_defs p) -> lookup (vd_name d) (all_defs (p_defs p)) = Some (vd_value d).
Proof.
  intros (_ & H3 & _) Hd.
  rewrite (NoDup_count_occ Nat.eq_dec) in H3. apply lookup_nodup.
  - intros y. specialize (H3 y). unfold all_defs. rewrite map_rev, cnt_rev.
    match type of H3 with count_occ _ ?l _ <= 1 => change (cnt y l <= 1) in H3 end.
    rewrite !cnt_app in H3.
    assert (HH : forall ds, cnt y (map fst (flat_map (fun d => (vd_name d, vd_value d) :: lets_of (vd_value d)) ds)) <=
       cnt y (def_names ds) + cnt y (flat_map (fun d => binders (vd_value d)) ds)).
    { clear. induction ds as [|d ds IH]; auto. unfold def_names in *. cbn [flat_map map fst app]. rewrite map_app, !cnt_cons, !cnt_app. pose proof (lets_cnt y (vd_value d)). lia. }
    specialize (HH (p_defs p)). lia.
  - unfold all_defs. apply -> in_rev. apply in_flat_map. exists d. simpl; auto.
Qed.

(** ** Dropping bindings *)
Lemma fv_used x e : In x (fv e) -> In x (used_names e).
Proof.
  assert (HL : forall es, Forall (fun e => In x (fv e) -> In x (used_names e)) es -> In x (flat_map fv es) -> In x (flat_map used_names es)).
  { induction 1 as [|e0 es He _ IH]; simpl; auto. rewrite !in_app_iff. intuition. }
  induction e using expr_ind'; cbn [fv used_names]; rewrite ?in_minus, ?in_app_iff, ?in_minus, ?in_app_iff; auto; try tauto.
  - intros [|]; auto.
  - intros [|Hx]; auto. right. apply in_flat_map in Hx as (br & Hin & Hx). apply in_minus in Hx as [Hx _].
    apply in_flat_map. exists br. split; auto. rewrite Forall_forall in H. auto.
Qed.

Lemma used_child c e x : child c e -> In x (used_names c) -> In x (used_names e).
Proof.
  destruct e; cbn [child used_names]; try contradiction; rewrite ?in_app_iff.
  - intros [->|H] Hx; auto. right. apply in_flat_map; eauto.
  - intros [->|[->| ->]]; auto.
  - intros [->| ->]; auto.
  - intros H Hx. apply in_flat_map; eauto.
  - intros ->; auto.
  - intros [->|H] Hx; auto. right. apply in_map_iff in H as (br & <- & Hin). apply in_flat_map. eauto.
  - intros H Hx. apply in_flat_map; eauto.
  - intros [->| ->]; auto.
  - intros [->| ->]; auto.
  - intros ->; auto.
  - intros ->; auto.
Qed.

Section Drop.
  Variable U : list name.
  Definition Inv (e : expr) : Prop := forall x, In x (used_names e) -> In x U.

  Lemma drop_lets_good e : Inv e -> good lr e (drop_lets U e) /\ Inv (drop_lets U e) /\ size (drop_lets U e) <= size e.
  Proof.
    induction e; cbn [drop_lets]; intros Hi; try (split; [apply (good_refl cong_lr)|split; auto]; fail).
    destruct (mem n U) eqn:E; [split; [apply (good_refl cong_lr)|split; auto]|].
    assert (Hi2 : Inv e2) by (intros x Hx; apply Hi; cbn [used_names]; apply in_or_app; auto).
    destruct (IHe2 Hi2) as ((A1 & [T1 T2 T3] & _) & A2 & A3).
    assert (Hn : ~ In n (fv e2)). { intros Hf. apply fv_used in Hf. apply Hi2 in Hf. apply mem_In in Hf. congruence. }
    split; [|split; auto; cbn [size]; lia]. apply good_head; [|split|discriminate].
    - eapply (c_trans cong_lr); [apply law_drop; auto|auto].
    - intros x. cbn [binders]. rewrite cnt_cons, cnt_app. specialize (T1 x). lia.
    - intros x Hx. cbn [fv]. rewrite in_app_iff, in_minus. apply T2 in Hx. right. split; auto. intros [<-|[]]; auto.
    - intros m. cbn [recs]. rewrite andb_true_iff. intuition.
  Qed.
End Drop.

(** ** Programs *)
Lemma dce_defs U ds : (forall d, In d ds -> In (vd_name d) U -> uq (vd_value d) /\ forall x, In x (used_names (vd_value d)) -> In x U) ->
  forall ds' r r' r1, Forall2 (fun d d' => vd_name d' = vd_name d /\ pre (fun e => Some (drop_lets U e)) (vd_value d) = Some (vd_value d'))
    (filter (fun d => mem (vd_name d) U) ds) ds' ->
  (forall k, G (idS U) k r r') -> evd r ds r1 -> exists r1', evd r' ds' r1' /\ forall k, G (idS U) k r1 r1'.
Proof.
  induction ds as [|d ds IH]; intros HU ds' r r' r1 HF HG He.
  - inversion HF; subst. inversion He; subst. exists r'. split; [constructor|auto].
  - apply evd_cons_inv in He as (c & v & H1 & H2). simpl in HF. destruct (mem (vd_name d) U) eqn:E.
    + inversion HF as [|? d' ? ds2 [En Ep] HF2]; subst. apply mem_In in E. destruct (HU d (or_introl eq_refl) E) as [Hu Hs].
      assert (Hr : rel (idS U) (vd_value d) (vd_value d')).
      { apply rel_trans with (e2 := vd_value d).
        - apply rel_refl_S. intros x Hx. apply Hs. apply fv_used; auto.
        - destruct (@pre_good lr cong_lr (fun e => Some (drop_lets U e)) (Inv U)) with (n := size (vd_value d)) (e := vd_value d) (e' := vd_value d') as (HR & _); auto.
          + intros c0 e0 Hc Hi x Hx. apply Hi. eapply used_child; eauto.
          + intros e0 e1 Hu0 Hi Es. injection Es as <-. destruct (drop_lets_good Hi) as (A1 & A2 & _). auto. }
      destruct (rel_all Hr HG H1) as (c1 & v1 & E1 & V1).
      destruct (IH (fun d0 Hd => HU d0 (or_intror Hd)) ds2 ((vd_name d, v) :: r) ((vd_name d', v1) :: r') r1 HF2) as (r1' & E2 & HG2); auto.
      * intros k. rewrite En. eapply G_sub; [|apply G_ext; eauto]. apply ext_id. auto.
      * exists r1'. split; auto. econstructor; eauto.
    + destruct (IH (fun d0 Hd => HU d0 (or_intror Hd)) ds' ((vd_name d, v) :: r) r' r1 HF) as (r1' & E2 & HG2); auto.
      * intros k. apply G_idS_l; auto. intros Hc. apply mem_In in Hc. congruence.
      * exists r1'. auto.
Qed.

Theorem dce_ok p exprs p' : ok_names p -> (forall e x, In e exprs -> In x (fv e) -> In x (exports (p_defs p))) ->
  dce p = Some p' -> results_kept p p' exprs.
Proof.
  intros Hw Hx H n vs Ht. unfold dce in H. destruct (dce_used p) as [U|] eqn:EU; simpl in H; [|discriminate].
  unfold dce_used in EU. apply mark_closed in EU as (_ & H2 & H3).
  apply on_defs_F2 in H as [_ HF]. simpl in HF. apply treewalk_ev in Ht as (r & c & E1 & E2).
  pose proof (ok_uq Hw) as Hu. rewrite Forall_forall in Hu.
  destruct (@dce_defs U (p_defs p)) with (ds' := p_defs p') (r := @nil (name * value)) (r' := @nil (name * value)) (r1 := r) as (r' & E1' & HG); auto.
  - intros d Hd HdU. split; auto. intros x Hxu. eapply H3; eauto. eapply all_defs_lookup; eauto.
  - eapply Forall2_weak; [|exact HF]. intros d d' (? & _ & _ & ?); auto.
  - intros; apply G_nil.
  - assert (Hes : Forall2 (rel (idS U)) exprs exprs).
    { assert (Hes : forall e x, In e exprs -> In x (fv e) -> In x U).
      { intros e x He Hf. apply H2. rewrite <- in_rev. eauto. }
      clear - Hes. induction exprs; constructor; [apply rel_refl_S; intros; eapply Hes; simpl; eauto|].
      apply IHexprs. intros; eapply Hes; simpl; eauto. }
    destruct (rels_all Hes HG E2) as (c' & vs' & E2' & HV).
    destruct (ev_treewalk _ E1' E2') as [m Hm]. exists m, vs'. split; auto. apply (@Vs_obs _ _ _ (HV 0)).
Qed.

(** Every exported definition is still there, in the same order, with the same name and type. *)
Definition exported (p : program) : list (name * option bytes * ty) :=
  map (fun d => (vd_name d, vd_export d, vd_ty d)) (filter (fun d => match vd_export d with Some _ => true | None => false end) (p_defs p)).
Theorem dce_exports p p' : dce p = Some p' -> exported p' = exported p /\ p_types p' = p_types p.
Proof.
  intros H. unfold dce in H. destruct (dce_used p) as [U|] eqn:EU; simpl in H; [|discriminate].
  unfold dce_used in EU. apply mark_closed in EU as (_ & H2 & _). apply on_defs_F2 in H as [Ht HF]. simpl in HF, Ht.
  split; [|auto]. unfold exported, exports in *.
  assert (HU : forall d, In d (p_defs p) -> (match vd_export d with Some _ => true | None => false end) = true -> mem (vd_name d) U = true).
  { intros d Hd He. apply mem_In. apply H2. rewrite <- in_rev. apply in_map. apply filter_In; auto. }
  clear H2 Ht. revert HF HU. generalize (p_defs p'). induction (p_defs p) as [|d ds IH]; intros ds' HF HU; simpl in HF.
  - inversion HF; subst; auto.
  - destruct (mem (vd_name d) U) eqn:Em.
    + inversion HF as [|? d' ? ds2 (E1 & E2 & E3 & _) HF2]; subst. simpl. rewrite E2.
      destruct (vd_export d) eqn:Ee; simpl; [f_equal; [congruence|]|]; apply IH; auto; intros; apply HU; simpl; auto.
    + simpl. destruct (vd_export d) eqn:Ee; [exfalso; rewrite HU in Em; [discriminate|simpl; auto|rewrite Ee; auto]|].
      apply IH; auto; intros; apply HU; simpl; auto.
Qed.

Theorem dce_total p : exists p', dce p = Some p'.
Proof.
  unfold dce. destruct (dce_used_total p) as [U ->]. simpl. apply on_defs_some. intros d _. apply pre_some. eauto.
Qed.
