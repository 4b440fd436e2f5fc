(** Running a program and running the definitions generated for it (C44). *)
From Verif Require Import GenSpec FoldSpec GenFacts GenNames GenItems FoldOk TypeTable EvalFacts IterateOk CompileStatic CompileCorrect SrcSim SrcApply SrcFlat SrcItems SrcTables SrcSem SrcRel.
Set Implicit Arguments.

Lemma value_parts emit x vars t ex body s u s' : gen_value_item emit x vars t ex body s = Some (u, s') ->
  exists s3 s4 v t', ext [x] s s3 /\ g_names s3 = (x, g_nn s) :: g_names s /\ g_nn s3 = S (g_nn s) /\
    (forall y, ~ In y vars -> lookup y (g_tvs s3) = lookup y (g_tvs s)) /\
    s' = up_defs s4 (g_defs s ++ [mkValDef (g_nn s) (if emit then ex else None) t' v]) /\
    ext (match body with inr e => sbinders e | inl _ => [] end) s3 s4 /\
    (forall y, ~ In y (match body with inr e => etvars e | inl _ => [] end) -> lookup y (g_tvs s4) = lookup y (g_tvs s3)) /\
    match body with
    | inl BIterate => iterate_intrinsic s3 = Some (v, s4)
    | inl (BStr i) => string_intrinsic i s3 = Some (v, s4)
    | inr e => exists v' vs, gen_expr e s3 = Some (v', s4) /\ v = abs_pi vs v'
    end.
Proof.
  unfold gen_value_item. intros H.
  apply gbind_some in H as (n & s1 & E1 & H). apply gen_name_eq in E1 as [-> E1].
  apply gbind_some in H as (t' & s2 & E2 & H).
  assert (K2 : forall y, ~ In y vars -> lookup y (g_tvs s2) = lookup y (g_tvs s1)).
  { intros y Hy. assert (KP : keepsp (fun s => lookup y (g_tvs s)) (inst_ty vars t)).
    { unfold inst_ty. apply kp_bind; [apply inst_keep; auto|]. intros. kp. }
    apply (KP _ _ _ E2). }
  apply inst_ty_ext in E2 as (X2 & N2 & L2).
  apply gbind_some in H as (u1 & s3 & E3 & H).
  assert (K3 : forall y, ~ In y vars -> lookup y (g_tvs s3) = lookup y (g_tvs s2)).
  { intros y Hy. apply (@inst_keep y vars Hy _ _ _ E3). }
  apply fresh_inst_ext in E3 as (X3 & N3 & L3).
  apply gbind_some in H as (v & s4 & E4 & H). injection H as <- <-.
  assert (X0 : ext [x] s s1) by (subst; apply ext_gen_name).
  assert (X03 : ext [x] s s3).
  { eapply ext_trans; [exact X0|]. eapply ext_incl; [|eapply ext_trans; [exact X2|exact X3]]. inc. }
  assert (R : ext (match body with inr e => sbinders e | inl _ => [] end) s3 s4 /\
    (forall y, ~ In y (match body with inr e => etvars e | inl _ => [] end) -> lookup y (g_tvs s4) = lookup y (g_tvs s3)) /\
    match body with
    | inl BIterate => iterate_intrinsic s3 = Some (v, s4)
    | inl (BStr i) => string_intrinsic i s3 = Some (v, s4)
    | inr e => exists v' vs, gen_expr e s3 = Some (v', s4) /\ v = abs_pi vs v'
    end).
  { destruct body as [[|i]|e].
    - split; [apply (@iterate_made _ _ _ E4)|split; [|exact E4]]. intros y _.
      assert (KP : keepsp (fun s => lookup y (g_tvs s)) iterate_intrinsic) by (unfold iterate_intrinsic; kp). apply (KP _ _ _ E4).
    - split; [apply (@string_made _ _ _ _ E4)|split; [|exact E4]]. intros y _.
      assert (KP : keepsp (fun s => lookup y (g_tvs s)) (string_intrinsic i)) by (unfold string_intrinsic; kp). apply (KP _ _ _ E4).
    - apply gbind_some in E4 as (v' & s5 & E5 & E4). apply gbind_some in E4 as (vs & s6 & E6 & E4). gb.
      apply (@pure_map _ _ _ _ tv_of_pure) in E6. subst.
      split; [apply (@gen_expr_ext _ _ _ _ E5)|]. split; [|eauto].
      intros y Hy. apply (@etvars_keep y e Hy _ _ _ E5). }
  destruct R as (X4 & K4 & R).
  exists s3, s4, v, t'. split; [auto|]. split; [rewrite L3, L2, E1; auto|]. split; [rewrite N3, N2, E1; auto|].
  split; [intros y Hy; rewrite K3, K2, E1; auto|].
  split; [|split; [auto|split; auto]].
  destruct X4 as [_ _ _ _ _ _ _ _ _ ED]. destruct X03 as [_ _ _ _ _ _ _ _ _ ED3]. rewrite ED, ED3. auto.
Qed.
Lemma tables_value all pre emit x vars t ex body s u s' : gen_value_item emit x vars t ex body s = Some (u, s') ->
  (forall y, In y all -> ~ In y (item_tvars (IVal x vars t ex body))) -> tables all pre s ->
  tables all (pre ++ [IVal x vars t ex body]) s' /\ g_ctors s' = g_ctors s.
Proof.
  intros H Hy TB. destruct (@value_parts _ _ _ _ _ _ _ _ _ H) as (s3 & s4 & v & t' & X3 & L3 & N3 & K3 & -> & X4 & K4 & _). split.
  - eapply (@tables_same all _ s4); try reflexivity.
    assert (X : ext (x :: match body with inr e => sbinders e | inl _ => [] end) s s4).
    { eapply ext_trans; eapply ext_incl; [|exact X3| |exact X4]; simpl; intros y; tauto. }
    eapply tables_ext; [exact X| |reflexivity|reflexivity|auto].
    intros y Hin. specialize (Hy y Hin). rewrite K4, K3; auto; intros Hc; apply Hy; destruct body; simpl; rewrite ?in_app_iff; auto; destruct Hc.
  - simpl. destruct X3, X4. congruence.
Qed.

Lemma tables_emits s l sf : emits s l sf -> forall all pre, NoDup (syms (pre ++ map snd l)) ->
  (forall i y, In i (map snd l) -> In y all -> ~ In y (item_tvars i)) -> tables all pre s ->
  tables all (pre ++ map snd l) sf /\
  (forall c, ~ In c (ctor_syms (map snd l)) -> lookup c (g_ctors sf) = lookup c (g_ctors s)) /\
  (forall y, ~ In y (syms (map snd l)) -> lookup y (g_names sf) = lookup y (g_names s)).
Proof.
  induction 1 as [s|s em is s' H IH|s b i u s1 is s' Hb E H IH]; intros all pre HN HT TB.
  - simpl. rewrite app_nil_r. auto.
  - destruct (IH all pre HN HT) as (A & B & C); auto. eapply tables_same; [..|exact TB]; reflexivity.
  - simpl in *.
    assert (HN' := HN). change (i :: map snd is) with ([i] ++ map snd is) in HN'. rewrite app_assoc in HN'.
    assert (HN1 : NoDup (syms (pre ++ [i]))) by (rewrite syms_app in HN'; apply NoDup_app_iff in HN' as [? _]; auto).
    assert (R : tables all (pre ++ [i]) s1 /\ (forall c, ~ In c (ctor_syms [i]) -> lookup c (g_ctors s1) = lookup c (g_ctors s)) /\
                (forall y, ~ In y (syms [i]) -> lookup y (g_names s1) = lookup y (g_names s))).
    { destruct i as [x ps cs|x vars t ex body|]; [| |destruct Hb].
      - destruct (@tables_type all pre b x ps cs s u s1 E HN1) as [A B]; auto.
        { intros y Hy. apply (HT (ITy x ps cs) y); auto. }
        split; [auto|]. split; [unfold ctor_syms; simpl; rewrite app_nil_r; auto|].
        intros y Hy. unfold syms in Hy. cbn [flat_map item_syms] in Hy. rewrite app_nil_r in Hy.
        assert (Hnd : NoDup (x :: map fst cs)).
        { rewrite syms_app in HN1. apply NoDup_app_iff in HN1 as (_ & HN1 & _). unfold syms in HN1. cbn [flat_map item_syms] in HN1. rewrite app_nil_r in HN1. auto. }
        cbn [emit_item] in E. apply gbind_some in E as (u0 & s0 & E0 & E). injection E0 as <- <-.
        apply gbind_some in E as (u1 & s2 & E1 & E).
        destruct (@gen_type_half _ _ _ _ _ _ _ E1 Hnd) as (dt & vars & cs1 & tcs1 & s4 & s5 & HA).
        destruct (@gen_type_half _ _ _ _ _ _ _ E Hnd) as (dtF & varsF & csF & tcs & s4' & s5' & HB).
        destruct (half_names HA) as (L & EL & FL).
        assert (EN' : g_names s1 = g_names s2).
        { destruct HB. destruct h_ctors as [us Ec]. apply gen_ctors_quiet in Ec as [Ec _]. rewrite h_names, Ec, h_names4. auto. }
        rewrite EN', EL. rewrite lookup_none_app.
        + simpl. destruct (Nat.eqb_spec y x); [subst; exfalso; apply Hy; left; auto|auto].
        + intros Hc. apply in_map_iff in Hc as (p & <- & Hp). unfold ctor_range in FL. rewrite Forall_forall in FL. apply FL in Hp as [Hp _].
          apply Hy. right. auto.
      - destruct (@tables_value all pre b x vars t ex body s u s1 E) as [A B]; auto.
        split; [auto|]. split; [intros c _; rewrite B; auto|].
        destruct (@value_parts _ _ _ _ _ _ _ _ _ E) as (s3 & s4 & v & t' & X3 & L3 & N3 & K3 & -> & X4 & K4 & _). simpl.
        intros y Hy. unfold syms in Hy. simpl in Hy. rewrite app_nil_r in Hy.
        rewrite (@ext_lookup _ _ _ y X4), (@ext_lookup _ _ _ y X3); auto.
        + intros [<-|[]]. apply Hy. destruct body; simpl; auto.
        + intros Hc. apply Hy. destruct body; simpl; auto. }
    destruct R as (TB1 & C1 & L1).
    destruct (IH all (pre ++ [i])) as (A & B & C); auto.
    rewrite <- app_assoc in A. split; [exact A|]. split.
    + intros c Hc. assert (Hc' : ~ In c (ctor_syms ([i] ++ map snd is))) by exact Hc. rewrite ctor_syms_app, in_app_iff in Hc'.
      rewrite B, C1; auto.
    + intros c Hc. assert (Hc' : ~ In c (syms ([i] ++ map snd is))) by exact Hc. rewrite syms_app, in_app_iff in Hc'.
      rewrite C, L1; auto.
Qed.

(** The state is good for expressions. *)
Lemma tables_good all pre rest s K : tables all pre s -> (forall c k, lookup c (g_ctors s) = Some k -> lookup c K = Some k) ->
  (forall y, lookup y (types_of (pre ++ rest)) <> None -> In y all) -> good K (types_of (pre ++ rest)) s.
Proof.
  intros TB HK HA. split.
  - apply TB.
  - auto.
  - intros y n cs Hy Hn. destruct (@tb_types _ _ _ TB y n cs Hy Hn) as [H1 H2]. split; [|auto].
    rewrite types_of_app. apply lookup_app_l. exact H1.
  - apply TB.
  - intros y Hy. apply (tb_tvs TB). auto.
Qed.

Lemma emits_defs s l sf : emits s l sf -> exists ds, g_defs sf = g_defs s ++ ds.
Proof.
  intros H. induction H as [s|s em is s' H IH|s b i u s1 is s' Hb E H IH]; [exists []; rewrite app_nil_r; auto|auto|].
  destruct IH as (ds2 & ->).
  assert (exists ds1, g_defs s1 = g_defs s ++ ds1) as (ds1 & ->).
  { destruct i as [x ps cs|x vars t ex body|]; [| |destruct Hb].
    - cbn [emit_item] in E. apply gbind_some in E as (u0 & s0 & E0 & E). injection E0 as <- <-.
      apply gbind_some in E as (u1 & s2 & E1 & E). apply gen_type_item_ok in E1 as [S1 _], E as [S2 _].
      destruct S1 as [_ _ _ (d1 & G1 & _)], S2 as [_ _ _ (d2 & G2 & _)]. simpl in G1. rewrite G2, G1, <- app_assoc. eauto.
    - destruct (@value_parts _ _ _ _ _ _ _ _ _ E) as (s3 & s4 & v & t' & X3 & L3 & N3 & K3 & -> & X4 & K4 & R). simpl. eauto. }
  exists (ds1 ++ ds2). rewrite app_assoc. auto.
Qed.

Section Run.
  Variable K : list (sym * ctor).
  Variable tys : stypes.
  Hypothesis K_inj : forall c1 c2 k1 k2 f1 f2, lookup c1 K = Some k1 -> lookup c2 K = Some k2 ->
    tag f1 k1 = tag f2 k2 -> c1 = c2 /\ f1 = f2.
  Variable o : order.
  Variable n : nat.
  Notation vrel := (vrel K tys). Notation erel := (erel K tys).

  Definition senv_rel (D : list sym) (s : gst) (r : res senv) (r' : res env) : Prop :=
    match r, r' with
    | Ok en, Ok en' => erel s D en en'
    | Trap m, Trap m' => m = m'
    | Panic, Panic => True
    | OutOfFuel, OutOfFuel => True
    | _, _ => False
    end.

  (** Constructors. *)
  Definition bind_ctor (en : senv) (c : sym * list (option sty)) : senv :=
    (fst c, match snd c with [] => WCon false (fst c) [] | fs => WCtor (fst c) (length fs) [] end) :: en.
  Lemma eval_lams m en' cn ts ps (fs : list (option sty)) vs k c : lookup c K = Some k -> k_regular k = cn -> length ps = length fs -> NoDup (map fst ps) ->
    exists v', eval_o o m en' (abs_pi vs (lams ps (EConstruct cn ts (map EName (map fst ps))))) = Ok v' /\
      vrel (match fs with [] => WCon false c [] | fs => WCtor c (length fs) [] end) v'.
  Proof.
    intros Hk <- HL HN. rewrite eval_pis. destruct fs as [|f fs], ps as [|p ps]; try discriminate.
    - cbn [lams fold_right map]. rewrite eval_unfold. cbn [eval_eqn mapM bind]. unfold mk_tagged. simpl. eexists. split; [reflexivity|].
      change (k_regular k) with (tag false k). constructor; auto. constructor.
    - cbn [lams fold_right]. rewrite eval_unfold. cbn [eval_eqn map fst]. eexists. split; [reflexivity|].
      assert (VC := @VR_ctor K tys c k ts [] [] p ps en' Hk). simpl in VC. cbn [length] in HL |- *. rewrite <- HL. apply VC; auto. constructor.
  Qed.
  Lemma ctors_sim dt params : forall l s us s' D en en', gen_ctors false dt params l s = Some (us, s') -> below s ->
    (forall cc, In cc l -> exists k, lookup (fst (fst cc)) K = Some k /\ k_regular k = fst (snd cc)) ->
    NoDup (map (fun cc => fst (fst cc)) l) -> (forall x, In x D -> ~ In x (map (fun cc => fst (fst cc)) l)) ->
    erel s D en en' ->
    exists ds en1', g_defs s' = g_defs s ++ ds /\ eval_defs_o o n en' ds = Ok en1' /\
      erel s' (map (fun cc => fst (fst cc)) l ++ D) (fold_left bind_ctor (map fst l) en) en1'.
  Proof.
    unfold gen_ctors. induction l as [|cc l IH]; intros s us s' D en en' H HB HK HN HD HE.
    - simpl in H. gb. exists [], en'. rewrite app_nil_r. split; auto.
    - simpl in H. gb. match goal with H : gen_ctor _ _ _ _ _ _ _ = Some _ |- _ => rename H into EC end.
      match goal with H : gmap _ _ _ = Some _ |- _ => rename H into EM end.
      destruct (@gen_ctor_def _ _ _ _ _ _ _ _ EC) as (t & vs & ts & ps & HL & [W1 W2] & Hlt & EN & ED).
      match type of EM with _ = Some (_, ?S) => rename S into sfin end. rename s0 into s1.
      destruct (HK cc (or_introl eq_refl)) as (k & Hk & Hreg).
      destruct (@eval_lams n en' _ ts ps (snd (fst cc)) vs k _ Hk Hreg HL W1) as (v' & Ev & Hv).
      simpl in HN. inversion HN as [|? ? Hx HN']; subst.
      assert (XD : ~ In (fst (fst cc)) D) by (intros Hc; apply (HD _ Hc); left; auto).
      assert (HB1 : below s1).
      { unfold below in *. rewrite EN. constructor; [simpl; lia|]. eapply Forall_impl; [|exact HB]. simpl. lia. }
      assert (HE1 : erel s1 (fst (fst cc) :: D) (bind_ctor en (fst cc)) ((g_nn s, v') :: en')).
      { unfold bind_ctor. apply erel_bind.
        - apply erel_in. intros y Hy. destruct (@erel_get _ _ _ _ _ _ y HE Hy) as (m & w & w' & H1 & H2 & H3 & H4).
          exists m, w, w'. rewrite EN. simpl. destruct (Nat.eqb_spec y (fst (fst cc))); [subst; tauto|]. auto.
        - rewrite EN. simpl. rewrite Nat.eqb_refl. auto.
        - clear - Hv. destruct (snd (fst cc)); exact Hv.
        - intros y Hy. split; [intros ->; tauto|]. rewrite EN. simpl. destruct (Nat.eqb_spec y (fst (fst cc))); [subst; tauto|].
          intros Hc. apply below_lookup in Hc; auto. lia. }
      destruct (IH s1 _ sfin (fst (fst cc) :: D) (bind_ctor en (fst cc)) ((g_nn s, v') :: en') EM HB1) as (ds & en1' & E1 & E2 & E3); auto.
      + intros cc' Hc. apply HK. right; auto.
      + intros y [<-|Hy] Hc; [auto|]. apply (HD y Hy). right; auto.
      + exists (mkValDef (g_nn s) None t (abs_pi vs (lams ps (EConstruct (fst (snd cc)) ts (map EName (map fst ps))))) :: ds), en1'.
        split; [rewrite E1, ED, <- app_assoc; auto|]. split.
        * cbn [eval_defs_o vd_value vd_name]. rewrite Ev. cbn [bind]. exact E2.
        * simpl. eapply erel_incl; [|exact E3]. intros y. simpl. rewrite !in_app_iff. simpl. tauto.
  Qed.

  Lemma eval_defs_app m ds1 : forall en ds2, eval_defs_o o m en (ds1 ++ ds2) = (en1 <- eval_defs_o o m en ds1 ;; eval_defs_o o m en1 ds2).
  Proof. induction ds1 as [|d ds1 IH]; intros en ds2; simpl; auto. destruct (eval_o o m en (vd_value d)); cbn [bind]; auto. Qed.

  (** One item. *)
  Lemma item_sim all pre i rest b s u s1 D en en' : emit_item b i s = Some (u, s1) -> basic i -> tables all pre s -> tables all (pre ++ [i]) s1 ->
    tys = types_of (pre ++ i :: rest) -> (forall c k, lookup c (g_ctors s1) = Some k -> lookup c K = Some k) ->
    (forall y, lookup y tys <> None -> In y all) -> (forall c, ~ In c (ctor_syms [i]) -> lookup c (g_ctors s1) = lookup c (g_ctors s)) ->
    NoDup (syms (pre ++ [i])) -> (forall x, In x D -> ~ In x (item_syms i)) -> (forall y, In y all -> ~ In y (item_tvars i)) ->
    match i with IVal _ _ _ _ (inr e) => sscoped D e = true /\ plain_folds e = true | _ => True end ->
    erel s D en en' ->
    exists ds, g_defs s1 = g_defs s ++ ds /\ senv_rel (own_values i ++ D) s1 (srun_item o tys n en i) (eval_defs_o o n en' ds).
  Proof.
    intros E Hb TB TB1 Htys HK Hall HC HN HD HT HS HE.
    assert (Gd : good K tys s).
    { rewrite Htys. eapply tables_good; eauto; [|rewrite <- Htys; auto]. intros c k Hk. apply HK. rewrite HC; auto.
      intros Hin. apply (tb_dom TB) in Hk as [Hk _]. rewrite syms_app in HN. apply NoDup_app_iff in HN as (_ & _ & HN).
      apply (HN c); apply ctor_syms_in; auto. }
    assert (HN1 : NoDup (item_syms i)).
    { rewrite syms_app in HN. apply NoDup_app_iff in HN as (_ & HN & _). unfold syms in HN. simpl in HN. rewrite app_nil_r in HN. auto. }
    destruct i as [x ps cs|x vars t ex body|]; [| |destruct Hb].
    - (* a type *)
      simpl in HN1, HD. pose proof HN1 as HN2. inversion HN2 as [|? ? Hxc Hnd]; subst x0 l.
      pose proof E as Eall. cbn [emit_item] in E. apply gbind_some in E as (u0 & s0 & E0 & E). injection E0 as <- <-.
      apply gbind_some in E as (u1 & s2 & E1 & E). set (s0 := up_fields s (rev cs ++ g_fields s)) in *.
      destruct (@gen_type_half _ _ _ _ _ _ _ E1 HN1) as (dt & tvs & cs1 & tcs1 & s4 & s5 & HA).
      destruct (@gen_type_half _ _ _ _ _ _ _ E HN1) as (dtF & tvsF & csF & tcs & s4' & s5' & HB).
      pose proof (@gen_type_made _ _ _ _ _ _ _ E1 HN1) as (dt' & vars' & cs' & tcs1' & M1).
      pose proof (@gen_type_made _ _ _ _ _ _ _ E HN1) as (dtF' & varsF' & csF' & tcs' & M2).
      assert (Q1 : cs' = cs1).
      { destruct M1, HA. rewrite h_types in m_types. apply app_inv_head in m_types. injection m_types as _ _ <-. auto. }
      subst cs'.
      (* the names of the constructors *)
      assert (REG : forall cc, In cc (combine cs cs1) -> exists k, lookup (fst (fst cc)) K = Some k /\ k_regular k = fst (snd cc)).
      { intros [c d] Hcc. simpl.
        assert (Hold : lookup (fst c) (g_ctors s) = None).
        { destruct (lookup (fst c) (g_ctors s)) eqn:Q; auto. apply (tb_dom TB) in Q as [Q _]. exfalso.
          rewrite syms_app in HN. apply NoDup_app_iff in HN as (_ & _ & HN). apply (HN (fst c)); [apply ctor_syms_in; auto|].
          unfold syms. simpl. rewrite app_nil_r. right. apply in_map. eapply in_combine_l; eauto. }
        assert (Hin : In c cs) by (eapply in_combine_l; eauto).
        assert (L1 : lookup (fst c) (g_ctors s2) = Some (mkCtor (fst c) (fst d) (fst d))).
        { destruct M1. simpl in m_upd. clear - m_upd Hcc Hold. revert Hcc Hold. induction m_upd as [|c0 d0 l l' H0 _ IH]; simpl; intros [] Hold.
          - injection H as -> ->. rewrite H0, Hold. auto.
          - apply IH; auto. }
        destruct M2. destruct (@f2_in_l _ _ _ _ _ c m_upd Hin) as (dF & _ & L2). rewrite L1 in L2.
        eexists. split; [apply HK; exact L2|]. reflexivity. }
      destruct HA as [_ h_dt h_nn4 h_nn5 h_nn h_names4 h_defs4 [us Ec] h_length h_names h_defs _ _ _ _ _ _].
      assert (EM : map (fun cc : (sym * list (option sty)) * (name * list ty) => fst (fst cc)) (combine cs cs1) = map fst cs).
      { rewrite <- (map_map fst fst). f_equal. apply combine_fst'. auto. }
      assert (HE4 : erel s4 D en en').
      { apply erel_in. intros y Hy. destruct (@erel_get _ _ _ _ _ _ y HE Hy) as (m & w & w' & H1 & H2 & H3 & H4).
        exists m, w, w'. rewrite h_names4. simpl. destruct (Nat.eqb_spec y x); [subst; exfalso; apply (HD x Hy); left; auto|]. auto. }
      assert (HB4 : below s4).
      { unfold below. rewrite h_names4. constructor; [simpl; lia|]. pose proof (gd_below Gd) as HBs.
        assert (g_nn s <= g_nn s4). { simpl in h_dt. lia. }
        eapply Forall_impl; [|exact HBs]. simpl. lia. }
      destruct (@ctors_sim dt ps _ s4 us s5 D en en' Ec HB4 REG) as (ds & en1' & D1 & D2 & D3); auto.
      + rewrite EM. auto.
      + rewrite EM. intros y Hy Hc. apply (HD y Hy). right; auto.
      + assert (QU : g_names s1 = g_names s2 /\ g_defs s1 = g_defs s2).
        { destruct HB as [_ _ _ _ _ hn4 hd4 [us' Ec'] _ hn hd _ _ _ _ _ _]. apply gen_ctors_quiet in Ec' as [Q1 Q2]. split; congruence. }
        destruct QU as [QN QD].
        exists ds. split; [rewrite QD, h_defs, D1, h_defs4; auto|].
        rewrite D2. simpl. rewrite EM, combine_fst' in D3 by auto.
        change (fold_left _ cs en) with (fold_left bind_ctor cs en).
        eapply erel_names; [|exact D3]. congruence.
    - (* a value *)
      cbn [emit_item] in E. destruct (@value_parts _ _ _ _ _ _ _ _ _ E) as (s3 & s4 & v & t' & X3 & L3 & N3 & K3 & -> & X4 & K4 & R).
      exists [mkValDef (g_nn s) (if b then ex else None) t' v]. split; [auto|].
      assert (XD : ~ In x D) by (intros Hc; apply (HD x Hc); destruct body; simpl; auto).
      assert (XB : ~ In x (match body with inr e => sbinders e | inl _ => [] end)).
      { destruct body; simpl in *; auto. inversion HN1; auto. }
      assert (DB : forall y, In y D -> ~ In y (match body with inr e => sbinders e | inl _ => [] end)).
      { intros y Hy Hc. apply (HD y Hy). destruct body; simpl in *; auto. }
      assert (G3 : good K tys s3).
      { eapply ext_good; [exact X3| |auto]. intros y Hy. apply K3. intros Hc. apply (HT y (Hall y Hy)). destruct body; simpl; auto. apply in_or_app; auto. }
      assert (E3 : erel s3 D en en').
      { eapply ext_erel; [exact X3| |exact HE]. intros y Hy [<-|[]]. auto. }
      assert (NM : lookup x (g_names s4) = Some (g_nn s)).
      { rewrite (@ext_lookup _ _ _ _ X4 XB), L3. simpl. rewrite Nat.eqb_refl. auto. }
      assert (FIN : forall w w', vrel w w' -> erel (up_defs s4 (g_defs s ++ [mkValDef (g_nn s) (if b then ex else None) t' v])) (x :: D) ((x, w) :: en) ((g_nn s, w') :: en')).
      { intros w w' Hw. eapply erel_names with (s := s4); [reflexivity|]. apply erel_bind; auto.
        - eapply ext_erel; [exact X4|exact DB|exact E3].
        - intros y Hy. split; [intros ->; auto|]. rewrite (@ext_lookup _ _ _ _ X4 (DB y Hy)), L3. simpl.
          destruct (Nat.eqb_spec y x); [subst; tauto|]. intros Hc. apply below_lookup in Hc; [lia|apply Gd]. }
      cbn [own_values srun_item eval_defs_o vd_value vd_name app].
      destruct body as [[|i]|e].
      + cbn [bind]. unfold iterate_intrinsic in R. gb. unfold iterate_core. cbn [eval_defs_o]. rewrite eval_unfold. cbn [eval_eqn].
        rewrite eval_unfold. cbn [eval_eqn bind map fst]. simpl senv_rel. apply FIN.
        match goal with |- SrcRel.vrel _ _ _ (VFn _ None [?a1] (ELam [(?a2, _)] (ELam [(?a3, _)] (ELetRec ?a4 _ (ELam [(?a5, _); (?a6, _)] _) _)))) =>
          apply (@VR_iter0 K tys en' a1 a2 a3 a4 a5 a6 (g_nt s3)) end.
        simpl. repeat constructor; simpl; lia.
      + cbn [bind]. unfold string_intrinsic in R. apply gbind_some in R as (ns & s5 & E5 & R). injection R as <- <-.
        apply string_params_ok in E5 as (_ & LN & [W1 _]).
        assert (ARI : exists p ns', ns = p :: ns').
        { destruct ns; [exfalso; destruct i; discriminate|eauto]. }
        destruct ARI as (p & ns' & ->). cbn [fold_right]. rewrite eval_unfold. cbn [eval_eqn bind map fst]. simpl senv_rel. apply FIN.
        assert (VC := @VR_op K tys i [] [] p ns' en'). simpl in VC. unfold lams in VC. rewrite map_map in VC. simpl in VC, LN. apply VC.
        * unfold op_arity. lia.
        * exact W1.
        * constructor.
      + destruct R as (v' & vs & R & ->). destruct HS as [HS HP]. rewrite eval_pis.
        assert (RR : rrel K tys (seval o tys (sapply o tys n) en e) (eval_o o n en' v')).
        { eapply sval_sim; [exact K_inj|apply (proj1 (@apply_sim K tys K_inj o n))|exact R|exact G3| |exact E3].
          split; [auto|split; [|split; [auto|split; [auto|]]]].
          - simpl in HN1. inversion HN1; auto.
          - intros y Hy Hc. apply (HT y (Hall y Hy)). simpl. apply in_or_app. auto. }
        destruct (seval o tys (sapply o tys n) en e) as [w| | |], (eval_o o n en' v') as [w'| | |]; try contradiction; simpl; auto.
  Qed.

  Lemma run_sim s l sf : emits s l sf -> K = g_ctors sf -> forall all pre D en en', NoDup (syms (pre ++ map snd l)) ->
    (forall i y, In i (map snd l) -> In y all -> ~ In y (item_tvars i)) -> tables all pre s ->
    tys = types_of (pre ++ map snd l) -> (forall y, lookup y tys <> None -> In y all) ->
    (forall x, In x D -> ~ In x (syms (map snd l))) -> module_scoped D (map snd l) = true ->
    (forall x vars t ex e, In (IVal x vars t ex (inr e)) (map snd l) -> plain_folds e = true) ->
    erel s D en en' ->
    exists ds, g_defs sf = g_defs s ++ ds /\ senv_rel (values (map snd l) ++ D) sf (srun o tys n en (map snd l)) (eval_defs_o o n en' ds).
  Proof.
    intros H EK. induction H as [s|s em is s' H IH|s b i u s1 is s' Hb E H IH]; intros all pre D en en' HN HT TB Htys Hall HD HS HP HE.
    - exists []. rewrite app_nil_r. split; auto.
    - destruct (IH EK all pre D en en') as (ds & D1 & D2); auto.
      + eapply tables_same; [..|exact TB]; reflexivity.
      + eapply erel_names; [|exact HE]. reflexivity.
      + exists ds. auto.
    - cbn [map snd] in *.
      assert (HN' := HN). change (i :: map snd is) with ([i] ++ map snd is) in HN'. rewrite app_assoc in HN'.
      assert (HN1 : NoDup (syms (pre ++ [i]))) by (rewrite syms_app in HN'; apply NoDup_app_iff in HN' as [? _]; auto).
      assert (E1 : emits s [(b, i)] s1) by (eapply emits_item; [auto|exact E|constructor]).
      destruct (@tables_emits _ _ _ E1 all pre) as (TB1 & C1 & L1); auto.
      { intros j y [<-|[]]. apply HT. left; auto. }
      simpl in TB1, C1, L1.
      destruct (@tables_emits _ _ _ H all (pre ++ [i])) as (TB2 & C2 & L2); auto.
      { intros j y Hj. apply HT. right; auto. }
      cbn [module_scoped] in HS. apply andb_true_iff in HS as [HS1 HS2].
      assert (Hsub : forall x, In x (item_syms i) -> In x (syms (i :: map snd is))) by (intros x Hx; unfold syms; simpl; apply in_or_app; auto).
      assert (Hsub2 : forall x, In x (syms (map snd is)) -> In x (syms (i :: map snd is))) by (intros x Hx; unfold syms; simpl; apply in_or_app; auto).
      assert (KK : forall c k, lookup c (g_ctors s1) = Some k -> lookup c K = Some k).
      { intros c k Hk. rewrite EK, C2; auto. intros Hc. apply (tb_dom TB1) in Hk as [Hk _].
        rewrite syms_app in HN'. apply NoDup_app_iff in HN' as (_ & _ & HN'). apply (HN' c); apply ctor_syms_in; auto. }
      destruct (@item_sim all pre i (map snd is) b s u s1 D en en') as (ds1 & D1 & R1); auto.
      + intros x Hx Hc. apply (HD x Hx). auto.
      + intros y. apply HT. left; auto.
      + destruct i as [| ? ? ? ? [|e] |]; auto. split; auto. eapply HP. left; reflexivity.
      + destruct (emits_defs H) as (ds2 & D2).
        destruct (srun_item o tys n en i) as [en1| | |] eqn:ES, (eval_defs_o o n en' ds1) as [en1'| | |] eqn:ED; simpl in R1; try contradiction.
        * assert (Hown : usable i = own_values i) by (destruct i; auto; destruct Hb).
          destruct (IH EK all (pre ++ [i]) (own_values i ++ D) en1 en1') as (ds3 & D3 & R2); auto.
          -- intros j y Hj. apply HT. right; auto.
          -- rewrite <- app_assoc. exact Htys.
          -- intros x Hx Hc. apply in_app_or in Hx as [Hx|Hx]; [|apply (HD x Hx); auto].
             change (i :: map snd is) with ([i] ++ map snd is) in HN. rewrite !syms_app in HN. apply NoDup_app_iff in HN as (_ & HN & _).
             apply NoDup_app_iff in HN as (_ & _ & HN). apply (HN x); auto. apply values_syms. unfold values. simpl. rewrite app_nil_r. auto.
          -- rewrite <- Hown. auto.
          -- intros x vars t ex e Hin. eapply HP. right. exact Hin.
          -- exists (ds1 ++ ds3). split; [rewrite D3, D1, app_assoc; auto|]. cbn [srun]. rewrite ES, eval_defs_app, ED. cbn [bind].
             destruct (srun o tys n en1 (map snd is)) as [e1| | |], (eval_defs_o o n en1' ds3) as [e1'| | |]; simpl in *; auto.
             eapply erel_incl; [|exact R2]. intros x. unfold values. simpl. rewrite !in_app_iff. tauto.
        * exists (ds1 ++ ds2); split; [rewrite D2, D1, app_assoc; auto|]; cbn [srun]; rewrite ES, eval_defs_app, ED; cbn [bind]; auto.
        * exists (ds1 ++ ds2); split; [rewrite D2, D1, app_assoc; auto|]; cbn [srun]; rewrite ES, eval_defs_app, ED; cbn [bind]; auto.
        * exists (ds1 ++ ds2); split; [rewrite D2, D1, app_assoc; auto|]; cbn [srun]; rewrite ES, eval_defs_app, ED; cbn [bind]; auto.
  Qed.
End Run.
