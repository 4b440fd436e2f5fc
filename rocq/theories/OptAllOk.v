(** The whole optimiser keeps results and terminates. *)
From Verif Require Import EvalFacts Orders Compile CompileStatic Wf Vm OptEv OptRel OptWalk OptGood OptPasses OptLaws OptProg OptSmall OptMove OptDce OptMerge
  OptInline OptInlineOk OptInlineTotal OptSaturate OptSatRel OptSatOk OptSatProg OptSatDefs OptSatTotal OptAll.
Set Implicit Arguments.

Definition recs_true (p : program) : Prop := forallb (fun d => recs true (vd_value d)) (p_defs p) = true.
Record inv (nn : nat) (p : program) : Prop := {
  i_ok : ok_names p;
  i_rec : recs_true p;
  i_bel : names_below nn p
}.

(** ** Passes that work on one definition after another *)
Lemma tame_defs ds ds' : Forall2 (fun d d' => vd_name d' = vd_name d /\ tame (vd_value d) (vd_value d')) ds ds' ->
  (forall S, scoped_defs S ds = true -> scoped_defs S ds' = true) /\
  def_names ds' = def_names ds /\
  (forall x, cnt x (flat_map (fun d => binders (vd_value d)) ds') <= cnt x (flat_map (fun d => binders (vd_value d)) ds)) /\
  (forall m, forallb (fun d => recs m (vd_value d)) ds = true -> forallb (fun d => recs m (vd_value d)) ds' = true).
Proof.
  induction 1 as [|d d' ds ds' (En & [T1 T2 T3]) _ (I1 & I2 & I3 & I4)]; [repeat split; auto|].
  split; [|split; [|split]].
  - intros S. cbn [scoped_defs]. rewrite !andb_true_iff, En. intros [H1 H2]. split; auto.
    apply fv_scoped. intros x Hx. eapply scoped_fv; eauto.
  - unfold def_names in *. cbn [map]. congruence.
  - intros x. cbn [flat_map]. rewrite !cnt_app. specialize (T1 x). specialize (I3 x). lia.
  - intros m. cbn [forallb]. rewrite !andb_true_iff. intuition.
Qed.
Lemma inv_defs nn p ds' : inv nn p -> Forall2 (fun d d' => vd_name d' = vd_name d /\ tame (vd_value d) (vd_value d')) (p_defs p) ds' ->
  inv nn (mkProgram (p_types p) ds').
Proof.
  intros [(O1 & O2 & O3) Hr Hb] HF. destruct (tame_defs HF) as (T1 & T2 & T3 & T4). unfold names_below, bnd in *.
  split; [split; [apply T1; auto|split]|apply T4; auto|].
  - rewrite (NoDup_count_occ Nat.eq_dec) in *. intros x. specialize (O2 x). specialize (T3 x). unfold cnt in *. cbn [p_defs].
    rewrite count_occ_app in *. rewrite T2. lia.
  - apply T4; auto.
  - intros x Hx. apply Hb. cbn [p_defs] in *. apply in_app_or in Hx as [Hx|Hx]; apply in_or_app.
    + left. rewrite <- T2. auto.
    + right. apply cnt_in. apply cnt_in in Hx. specialize (T3 x). lia.
Qed.

(** ** What a pass does: it keeps the invariant and the exported definitions, and the results over them *)
Definition xlist : Type := list (name * option bytes * ty).
Definition xrel (xs xs' : xlist) : Prop :=
  Forall2 (fun a b => fst b = fst a /\ sat_ty (snd a) (snd b)) xs xs'.
Definition xok (xs : xlist) (e : expr) : Prop :=
  (exists x o t, e = EName x /\ In (x, o, t) xs) \/
  forall x, In x (fv e) -> exists o t, In (x, o, t) xs /\ length (ty_groups (ty_body t)) < 2.
Record kept (s s' : state) : Prop := {
  k_inv : inv (fst (snd s')) (fst s');
  k_nn : fst (snd s) <= fst (snd s');
  k_ty : p_types (fst s') = p_types (fst s);
  k_ex : xrel (exported (fst s)) (exported (fst s'));
  k_res : forall exprs, Forall (xok (exported (fst s))) exprs -> results_kept (fst s) (fst s') exprs
}.

Lemma sat_ty_trans a b c : sat_ty a b -> sat_ty b c -> sat_ty a c.
Proof.
  assert (H1 : forall t, ty_groups (ty_out t) = []). { fix go 1. intros [| | | | |ps o|]; simpl; auto. }
  assert (H2 : forall t, ty_body (under_abs collapse_arg_groups t) = collapse_arg_groups (ty_body t)).
  { induction t; simpl; auto. }
  intros [->|[A1 ->]] [->|[B1 ->]]; unfold sat_ty; auto. exfalso.
  rewrite H2 in B1. simpl in B1. rewrite H1 in B1. simpl in B1. lia.
Qed.
Lemma xrel_refl xs : xrel xs xs.
Proof. induction xs; constructor; auto. split; auto. left; auto. Qed.
Lemma xrel_trans a : forall b c, xrel a b -> xrel b c -> xrel a c.
Proof.
  induction a as [|x a IH]; intros b c H1 H2; inversion H1 as [|? y ? b' [A1 A2] A3]; subst; inversion H2 as [|? z ? c' [B1 B2] B3]; subst; constructor; auto.
  - split; [congruence|]. eapply sat_ty_trans; eauto.
  - eapply IH; eauto.
Qed.
Lemma xrel_in xs xs' x o t : xrel xs xs' -> In (x, o, t) xs -> exists t', In (x, o, t') xs' /\ sat_ty t t'.
Proof.
  induction 1 as [|a b l l' [E1 E2] _ IH]; intros []; subst.
  - destruct b as [b t']. simpl in *. subst. eauto.
  - destruct (IH H) as (t' & ? & ?). exists t'. simpl; auto.
Qed.
Lemma xok_mono xs xs' e : xrel xs xs' -> xok xs e -> xok xs' e.
Proof.
  intros HX [(x & o & t & -> & H)|H].
  - left. destruct (xrel_in _ _ _ HX H) as (t' & ? & _). eauto 6.
  - right. intros x Hx. destruct (H x Hx) as (o & t & Hi & Hl). destruct (xrel_in _ _ _ HX Hi) as (t' & Hi' & [->|[? _]]); [eauto|lia].
Qed.
Lemma kept_refl s : inv (fst (snd s)) (fst s) -> kept s s.
Proof.
  intros H. split; auto using xrel_refl. intros exprs _ n vs E. eauto.
Qed.
Lemma results_trans a b c exprs : results_kept a b exprs -> results_kept b c exprs -> results_kept a c exprs.
Proof.
  intros H1 H2 n vs E. destruct (H1 _ _ E) as (m & vs' & E' & O). destruct (H2 _ _ E') as (k & vs2 & E2 & O2).
  exists k, vs2. split; auto. congruence.
Qed.
Lemma kept_trans a b c : kept a b -> kept b c -> kept a c.
Proof.
  intros [A1 A2 A3 A4 A5] [B1 B2 B3 B4 B5]. split; auto; try congruence.
  - lia.
  - eapply xrel_trans; eauto.
  - intros exprs H. eapply results_trans; [apply A5; auto|apply B5]. eapply Forall_impl; [|exact H]. intros e. eapply xok_mono; eauto.
Qed.

Definition good_pass (f : state -> option state) : Prop :=
  forall s s', inv (fst (snd s)) (fst s) -> f s = Some s' -> kept s s'.

Lemma exported_F2 ds ds' ts ts' (R : ty -> ty -> Prop) :
  Forall2 (fun d d' => vd_name d' = vd_name d /\ vd_export d' = vd_export d /\ R (vd_ty d) (vd_ty d')) ds ds' ->
  Forall2 (fun a b : name * option bytes * ty => fst b = fst a /\ R (snd a) (snd b)) (exported (mkProgram ts ds)) (exported (mkProgram ts' ds')).
Proof.
  unfold exported. cbn [p_defs]. induction 1 as [|d d' ds ds' (E1 & E2 & E3) _ IH]; simpl; auto. rewrite E2.
  destruct (vd_export d) eqn:Ed; [|exact IH]. simpl. constructor; [|exact IH]. simpl. rewrite E1, E2, Ed. auto.
Qed.

(** A pass over the definitions whose walk is fine. *)
Lemma pass_defs g : 
  (forall p p', ok_names p -> recs_true p -> on_defs g p = Some p' -> forall exprs, results_kept p p' exprs) ->
  (forall e e', uq e -> recs true e = true -> g e = Some e' -> tame e e') ->
  good_pass (plain (on_defs g)).
Proof.
  intros Hres Ht [p [nn nt]] s' Hi H. unfold plain in H. cbn [fst snd] in *. destruct (on_defs g p) as [p'|] eqn:E; simpl in H; [|discriminate].
  injection H as <-. pose proof (on_defs_F2 _ _ E) as [Hty HF].
  assert (HT : Forall2 (fun d d' => vd_name d' = vd_name d /\ tame (vd_value d) (vd_value d')) (p_defs p) (p_defs p')).
  { destruct Hi as [Ho Hr _]. pose proof (ok_uq Ho) as Hu. unfold recs_true in Hr. rewrite forallb_forall in Hr. rewrite Forall_forall in Hu. clear - HF Ht Hu Hr.
    induction HF as [|d d' ds ds' (E1 & E2 & E3 & E4) _ IH]; constructor.
    - split; auto. apply Ht; auto; [apply Hu|apply Hr]; simpl; auto.
    - apply IH; intros; [apply Hr|apply Hu]; simpl; auto. }
  destruct p' as [ts' ds']. cbn [p_types p_defs] in *. subst ts'. split; cbn [fst snd]; auto.
  - apply inv_defs; auto.
  - unfold xrel. destruct p as [ts ds]. apply exported_F2. eapply Forall2_weak; [|exact HF]. simpl. intros d d' (? & ? & ? & _).
    repeat split; auto. left; auto.
  - intros exprs _. destruct Hi. eapply Hres; eauto.
Qed.

Lemma gp_move : good_pass (plain move_match).
Proof.
  apply pass_defs; [intros; eapply move_match_ok; eauto|]. intros e e' Hu _ He.
  destruct (@pre_good lr cong_lr move_match_step (fun _ => True)) with (n := size e) (e := e) (e' := e') as (_ & H & _); auto.
  intros e0 e1 Hu0 _ E. split; auto. eapply move_match_step_good; eauto.
Qed.
Lemma gp_simple : good_pass (plain inline_simple).
Proof.
  apply pass_defs; [intros; eapply inline_simple_ok; eauto|]. intros e e' Hu _ He.
  destruct (@pre_good lr cong_lr inline_simple_step (fun _ => True)) with (n := size e) (e := e) (e' := e') as (_ & H & _); auto.
  intros e0 e1 Hu0 _ E. split; auto. eapply inline_simple_step_good; eauto.
Qed.
Lemma gp_merge : good_pass (plain merge_match).
Proof.
  apply pass_defs; [intros p p' Ho Hr H exprs; eapply merge_match_ok; eauto|]. intros e e' Hu Hr He.
  destruct (@pre_good lr cong_lr merge_match_step (fun e => recs true e = true)) with (n := size e) (e := e) (e' := e') as (_ & H & _); auto.
  - intros c e0. apply recs_child.
  - intros e0 e1 Hu0 Hi E. destruct (merge_match_step_good Hu0 Hi E) as (? & ? & ?); auto.
Qed.

Lemma gp_apply : good_pass (plain reduce_apply).
Proof.
  apply pass_defs; [intros p p' Ho Hr H exprs; destruct (@reduce_apply_ok p exprs p' Ho H); auto|]. intros e e' Hu _ He.
  destruct (post_good cong_eqv reduce_apply_step reduce_apply_step_good Hu He) as (_ & H & _). auto.
Qed.
Lemma gp_pi : good_pass (plain reduce_pi).
Proof.
  apply pass_defs; [intros p p' Ho Hr H exprs; destruct (@reduce_pi_ok p exprs p' Ho H); auto|]. intros e e' Hu _ He.
  destruct (post_good cong_eqv reduce_pi_step reduce_pi_step_good Hu He) as (_ & H & _). auto.
Qed.

(** ** Dead code *)
Lemma filter_defs (keep : name -> bool) ds :
  (forall x, cnt x (bnd (filter (fun d => keep (vd_name d)) ds)) <= cnt x (bnd ds)) /\
  (forall S S', (forall x, In x S -> keep x = true -> In x S') ->
     (forall d x, In d ds -> keep (vd_name d) = true -> In x (fv (vd_value d)) -> keep x = true) ->
     scoped_defs S ds = true -> scoped_defs S' (filter (fun d => keep (vd_name d)) ds) = true).
Proof.
  induction ds as [|d ds [I1 I2]]; [split; auto|]. cbn [filter]. split.
  - intros x. specialize (I1 x). unfold bnd, def_names in *. destruct (keep (vd_name d)); cbn [map flat_map]; rewrite ?cnt_app, ?cnt_cons, ?cnt_app in *; lia.
  - intros S S' HS Hk. cbn [scoped_defs]. rewrite andb_true_iff. intros [H1 H2].
    destruct (keep (vd_name d)) eqn:E; cbn [scoped_defs].
    + rewrite andb_true_iff. split.
      * apply fv_scoped. intros x Hx. apply HS; [eapply scoped_fv; eauto|]. eapply Hk; simpl; eauto.
      * eapply I2; [|intros; eapply Hk; simpl; eauto|exact H2]. intros x [<-|Hx] Hkx; simpl; auto.
    + eapply I2; [|intros; eapply Hk; simpl; eauto|exact H2]. intros x [<-|Hx] Hkx; auto. congruence.
Qed.

Lemma gp_dce : good_pass (plain dce).
Proof.
  intros [p [nn nt]] s' Hi H. unfold plain in H. cbn [fst snd] in *. destruct (dce p) as [p'|] eqn:E; simpl in H; [|discriminate].
  injection H as <-. pose proof (dce_exports _ E) as [Hx Hty].
  assert (Hinv : inv nn p').
  { unfold dce in E. destruct (dce_used p) as [U|] eqn:EU; simpl in E; [|discriminate].
    unfold dce_used in EU. apply mark_closed in EU as (_ & H2 & H3). destruct Hi as [Ho Hr Hb].
    set (q := mkProgram (p_types p) (filter (fun d => mem (vd_name d) U) (p_defs p))) in *.
    destruct (@filter_defs (fun x => mem x U) (p_defs p)) as [F1 F2].
    assert (HU : forall d x, In d (p_defs p) -> mem (vd_name d) U = true -> In x (used_names (vd_value d)) -> In x U).
    { intros d x Hd Hm Hxu. apply mem_In in Hm. eapply H3; eauto. eapply all_defs_lookup; eauto. }
    assert (Hsub : forall m, forallb (fun d => recs m (vd_value d)) (p_defs p) = true -> forallb (fun d => recs m (vd_value d)) (p_defs q) = true).
    { intros m. rewrite !forallb_forall. intros Hall d Hd. apply filter_In in Hd as [Hd _]. auto. }
    assert (Hq : inv nn q).
    { destruct Ho as (O1 & O2 & O3). split; [split; [|split]| |].
      - apply (F2 [] []); auto. intros d x Hd Hm Hxf. apply mem_In. eapply HU; eauto. apply fv_used; auto.
      - change (NoDup (bnd (p_defs p))) in O2. change (NoDup (bnd (p_defs q))). rewrite (NoDup_count_occ Nat.eq_dec) in *.
        intros x. specialize (O2 x). specialize (F1 x). unfold cnt in F1. unfold q. cbn [p_defs]. lia.
      - auto.
      - apply Hsub; auto.
      - intros x Hxb. apply Hb. apply cnt_in. apply cnt_in in Hxb. specialize (F1 x). unfold q in Hxb. cbn [p_defs] in Hxb. lia. }
    pose proof (on_defs_F2 _ _ E) as [Hty' HF]. change (p_types p) with (p_types q). replace p' with (mkProgram (p_types q) (p_defs p')) by (destruct p'; cbn in *; congruence).
    apply inv_defs; auto.
    assert (HA : forall d, In d (p_defs q) -> uq (vd_value d) /\ OptDce.Inv U (vd_value d)).
    { intros d Hd. split. { pose proof (ok_uq (i_ok Hq)) as Hu. rewrite Forall_forall in Hu. auto. }
      apply filter_In in Hd as [Hd Hm]. intros x Hxu. eapply HU; eauto. }
    clear - HF HA. induction HF as [|d d' ds ds' (E1 & E2 & E3 & E4) _ IH]; constructor.
    - split; auto. destruct (HA d) as [Hu HI]; simpl; auto.
      destruct (@pre_good lr cong_lr (fun e => Some (drop_lets U e)) (OptDce.Inv U)) with (n := size (vd_value d)) (e := vd_value d) (e' := vd_value d') as (_ & HR & _); auto.
      + intros c0 e0 Hc Hi x Hxu. apply Hi. eapply used_child; eauto.
      + intros e0 e1 Hu0 Hi Es. injection Es as <-. destruct (drop_lets_good Hi) as (A1 & A2 & _). auto.
    - apply IH. intros; apply HA; simpl; auto. }
  split; cbn [fst snd]; auto.
  - rewrite Hx. apply xrel_refl.
  - intros exprs He. eapply dce_ok; eauto. { apply (i_ok Hi). }
    intros e x Hin Hxf. rewrite Forall_forall in He.
    assert (Hxx : exists o t, In (x, o, t) (exported p)).
    { destruct (He e Hin) as [(y & o & t & -> & Hy)|Hf]; [destruct Hxf as [<-|[]]; eauto|]. destruct (Hf x Hxf) as (o & t & ? & _). eauto. }
    destruct Hxx as (o & t & Ho). unfold exported in Ho. unfold exports. apply in_map_iff in Ho as (d & Ed & Hd). injection Ed as <- _ _. apply in_map. auto.
Qed.

(** ** Passes that take fresh names *)
Lemma gp_inline fuel : good_pass (fresh (inline_fuel fuel)).
Proof.
  intros [p [nn nt]] [p' [nn' nt']] [Ho Hr Hb] H. unfold fresh in H. cbn [fst snd] in *.
  assert (HI := fun exprs => @inline_ok fuel nn nt p p' nn' nt' exprs Ho Hb H).
  destruct (HI []) as (_ & A1 & A2 & A3 & A4 & A5 & A6).
  split; cbn [fst snd]; auto.
  - split; auto. apply A6; auto.
  - unfold xrel. destruct p as [ts ds], p' as [ts' ds']. apply exported_F2. eapply Forall2_weak; [|exact A5]. simpl. intros d d' (? & ? & ?).
    repeat split; auto. left; auto.
  - intros exprs _. apply HI.
Qed.
Lemma gp_saturate fuel : good_pass (fresh (saturate_fuel fuel)).
Proof.
  intros [p [nn nt]] [p' [nn' nt']] [Ho Hr Hb] H. unfold fresh in H. cbn [fst snd] in *.
  destruct (@saturate_ok fuel nn nt p p' nn' nt' Ho Hb H) as (A0 & A1 & A2 & A3 & A4 & A5 & A6).
  split; cbn [fst snd]; auto.
  - split; auto. apply A6; auto.
  - unfold xrel. destruct p as [ts ds], p' as [ts' ds']. apply exported_F2. exact A5.
  - intros exprs He. apply A0. eapply Forall_impl; [|exact He]. intros e [(x & o & t & -> & _)|Hf]; [left; eauto|right].
    intros x Hx. destruct (Hf x Hx) as (o & t & Hi & Hl). unfold exported in Hi. apply in_map_iff in Hi as (d & Ed & Hd).
    injection Ed as <- <- <-. apply filter_In in Hd as [Hd _]. exists d. auto.
Qed.

(** ** The whole *)
Section All.
  Variable verify : state -> bool.
  Variable hash : state -> N.

  Lemma run_passes_ok l : Forall good_pass l -> good_pass (run_passes verify l).
  Proof.
    induction 1 as [|f l Hf _ IH]; intros s s' Hi H; simpl in H; [injection H as <-; apply kept_refl; auto|].
    destruct (f s) as [s1|] eqn:E; simpl in H; [|discriminate]. unfold checked in H. destruct (verify s1); simpl in H; [|discriminate].
    pose proof (Hf _ _ Hi E) as K. eapply kept_trans; eauto. apply IH; auto. apply (k_inv K).
  Qed.
  Lemma passes_ok fuel : Forall good_pass (passes fuel).
  Proof. unfold passes. repeat (constructor; auto using gp_saturate, gp_inline, gp_move, gp_simple, gp_pi, gp_apply, gp_dce, gp_merge). Qed.
  Lemma iteration_ok fuel : good_pass (optimize_iteration verify fuel).
  Proof.
    intros s s' Hi H. unfold optimize_iteration, checked in H. destruct (verify s); cbn [obind] in H; [|discriminate].
    exact (run_passes_ok (passes_ok fuel) _ Hi H).
  Qed.
  Lemma rounds_ok fuel n : forall h, good_pass (rounds verify hash fuel n h).
  Proof.
    induction n as [|n IH]; intros h s s' Hi H; simpl in H; [injection H as <-; apply kept_refl; auto|].
    destruct (optimize_iteration verify fuel s) as [s1|] eqn:E; simpl in H; [|discriminate].
    pose proof (iteration_ok _ _ Hi E) as K. destruct (N.eqb _ _); [injection H as <-; auto|].
    eapply kept_trans; eauto. eapply IH; eauto. apply (k_inv K).
  Qed.
  Theorem optimize_ok fuel opt : good_pass (optimize_fuel verify hash fuel opt).
  Proof.
    intros s s' Hi H. unfold optimize_fuel in H. destruct opt; [eapply rounds_ok; eauto|injection H as <-; apply kept_refl; auto].
  Qed.

  (** ** Termination *)
  Definition settles (f : nat -> state -> option state) : Prop :=
    forall s, inv (fst (snd s)) (fst s) -> exists fuel r, forall k, fuel <= k -> f k s = r.
  Lemma settle_inline : settles (fun k => fresh (inline_fuel k)).
  Proof.
    intros [p [nn nt]] [Ho Hr Hb]. destruct (@inline_total nn nt p Ho Hb) as (fuel & r & E). exists fuel, (Some r). intros k Hk.
    unfold fresh. simpl. eapply inline_up; eauto.
  Qed.
  Lemma settle_saturate : settles (fun k => fresh (saturate_fuel k)).
  Proof.
    intros [p [nn nt]] _. destruct (@saturate_total nn nt p) as (fuel & r & E). exists fuel, (Some r). intros k Hk.
    unfold fresh. simpl. eapply saturate_up; eauto.
  Qed.
  Lemma settle_plain f : settles (fun _ => plain f).
  Proof. intros s _. exists 0, (plain f s). auto. Qed.
  Lemma settle_bind (f g : nat -> state -> option state) : settles f -> (forall k, good_pass (f k)) -> settles g -> settles (fun k s => do s1 <- f k s ; g k s1).
  Proof.
    intros Hf Hk Hg s Hi. destruct (Hf s Hi) as (n & [s1|] & E).
    - destruct (Hg s1) as (m & r & E2). { eapply k_inv. eapply (Hk n); eauto. }
      exists (n + m), r. intros k Hle. rewrite E by lia. simpl. apply E2. lia.
    - exists n, None. intros k Hle. rewrite E by lia. auto.
  Qed.
  Lemma verified_ok : good_pass (checked verify).
  Proof. intros s s' Hi H. unfold checked in H. destruct (verify s); [injection H as <-; apply kept_refl; auto|discriminate]. Qed.
  Lemma settle_verified : settles (fun _ => checked verify).
  Proof. intros s _. exists 0, (checked verify s). auto. Qed.
  Lemma settle_iteration : settles (optimize_iteration verify).
  Proof.
    unfold optimize_iteration, passes. cbn [run_passes].
    repeat first [ apply settle_bind; [solve [apply settle_inline|apply settle_saturate|apply settle_plain|apply settle_verified]
      | intros; auto using verified_ok, gp_saturate, gp_inline, gp_move, gp_simple, gp_pi, gp_apply, gp_dce, gp_merge |] ].
    intros s _. exists 0, (Some s). auto.
  Qed.
  Lemma settle_rounds n : forall h, settles (fun k => rounds verify hash k n h).
  Proof.
    induction n as [|n IH]; intros h.
    - intros s _. exists 0, (Some s). auto.
    - cbn [rounds]. apply settle_bind; [apply settle_iteration|intros; apply iteration_ok|].
      intros s Hi. destruct (N.eqb (hash s) h); [exists 0, (Some s); auto|]. apply (IH (hash s) s Hi).
  Qed.
  Theorem optimize_settles opt : settles (fun k => optimize_fuel verify hash k opt).
  Proof.
    intros s Hi. unfold optimize_fuel. destruct opt; [apply settle_rounds; auto|]. exists 0, (Some s). auto.
  Qed.
End All.
