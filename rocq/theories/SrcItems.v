(** Running the items of a program and running the definitions generated for them (C44). *)
From Verif Require Import GenSpec FoldSpec GenFacts GenNames GenItems FoldOk TypeTable EvalFacts IterateOk CompileStatic CompileCorrect SrcSim SrcApply SrcFlat SrcSem SrcRel.
Set Implicit Arguments.

(** The function of a constructor. *)
Lemma gen_ctor_def dt params cn x fs s u s' : gen_ctor false dt params cn x fs s = Some (u, s') ->
  exists t vs ts ps, length ps = length fs /\ seg (S (g_nn s)) (g_nn s') (map fst ps) /\ g_nn s < g_nn s' /\
    g_names s' = (x, g_nn s) :: g_names s /\
    g_defs s' = g_defs s ++ [mkValDef (g_nn s) None t (abs_pi vs (lams ps (EConstruct cn ts (map EName (map fst ps)))))].
Proof.
  unfold gen_ctor. intros H.
  apply gbind_some in H as (fn & s1 & E1 & H). apply gbind_some in H as (fi & s2 & E2 & H).
  apply gbind_some in H as (u1 & s3 & E3 & H). apply fresh_inst_ext in E3 as (X3 & N3 & L3).
  apply gbind_some in H as (ps & s4 & E4 & H). apply fresh_names_ok in E4 as (X4 & L4 & Z4 & W4).
  apply gbind_some in H as (vs & s5 & E5 & H). apply (@pure_map _ _ _ _ tv_of_pure) in E5. subst s5.
  apply gbind_some in H as (ts & s6 & E6 & H). pose proof E6 as E6'. apply pure_map in E6; [|intros; eapply field_ty_pure; eauto]. subst s6.
  apply gbind_some in H as (fi2 & s7 & E7 & H).
  apply gbind_some in H as (u2 & s8 & E8 & H). apply fresh_inst_ext in E8 as (X8 & N8 & L8).
  apply gbind_some in H as (vs2 & s9 & E9 & H). apply (@pure_map _ _ _ _ tv_of_pure) in E9. subst s9.
  apply gbind_some in H as (ts2 & s10 & E10 & H). apply pure_map in E10; [|intros; eapply field_ty_pure; eauto]. subst s10.
  gb. apply gen_name_eq in E1 as [-> ->]. gb.
  assert (LT : length ts = length fs) by (apply gmap_length in E6'; auto).
  assert (EM : map fst (combine ps ts) = ps) by (apply combine_fst; congruence).
  assert (ED : g_defs s8 = g_defs s).
  { destruct X8 as [_ _ _ _ _ _ _ _ _ ->]. simpl. destruct X4 as [_ _ _ _ _ _ _ _ _ ->].
    destruct X3 as [_ _ _ _ _ _ _ _ _ ->]. auto. }
  assert (EN : g_names s8 = (x, g_nn s) :: g_names s) by (rewrite L8; simpl; rewrite L4, L3; auto).
  assert (NN : S (g_nn s) <= g_nn s4).
  { destruct X4 as [n4 _ _ _ _ _ _ _ _ _]. rewrite N3 in n4. simpl in n4. lia. }
  simpl. rewrite EN, ED. rewrite !app_nil_r.
  eexists _, vs, (map TVar vs), (combine ps ts). rewrite EM. split; [rewrite combine_length; lia|].
  split; [|split; [|split; [auto|]]].
  - rewrite N8. simpl. rewrite N3 in W4. exact W4.
  - rewrite N8. simpl. lia.
  - reflexivity.
Qed.
Lemma gen_ctor_quiet dt params cn x fs s u s' : gen_ctor true dt params cn x fs s = Some (u, s') ->
  g_names s' = g_names s /\ g_defs s' = g_defs s.
Proof.
  intros H. split; [eapply gen_ctor_names; eauto|]. revert s u s' H. change (keepsp g_defs (gen_ctor true dt params cn x fs)).
  unfold gen_ctor. kp.
Qed.
Lemma gen_ctors_quiet dt params l : forall s u s', gen_ctors true dt params l s = Some (u, s') ->
  g_names s' = g_names s /\ g_defs s' = g_defs s.
Proof.
  unfold gen_ctors. induction l as [|cc l IH]; simpl; intros s u s' H; gb; auto.
  match goal with H : gmap _ _ _ = Some _ |- _ => apply IH in H as [A1 A2] end. 
  match goal with H : gen_ctor _ _ _ _ _ _ _ = Some _ |- _ => apply gen_ctor_quiet in H as [B1 B2] end. split; congruence.
Qed.

(** One half of a type item. *)
Record half (functor : bool) (x : sym) (params : list sym) (cases : list (sym * list (option sty))) (s s' : gst)
       (dt : name) (vars : list tyvar) (cs : list (name * list ty)) (tcs : list ctor) (s4 s5 : gst) : Prop := mkHalf {
  h_types : g_types s' = g_types s ++ [mkTyDef dt vars cs];
  h_dt : dt = g_nn s;
  h_nn4 : S dt <= g_nn s4;
  h_nn5 : g_nn s4 <= g_nn s5;
  h_nn : g_nn s' = g_nn s5;
  h_names4 : g_names s4 = (if functor then g_names s else (x, dt) :: g_names s);
  h_defs4 : g_defs s4 = g_defs s;
  h_ctors : exists us, gen_ctors functor dt params (combine cases cs) s4 = Some (us, s5);
  h_length : length cs = length cases;
  h_names : g_names s' = g_names s5;
  h_defs : g_defs s' = g_defs s5;
  h_tyctors : g_tyctors s' = (dt, tcs) :: match lookup x (if functor then g_names s' else g_folded s') with
                                          | Some o => [(o, tcs)] | None => [] end ++ g_tyctors s;
  h_other : forall y, ~ In y (map fst cases) -> lookup y (g_ctors s') = lookup y (g_ctors s);
  h_tcs : Forall2 (fun c k => lookup (fst c) (g_ctors s') = Some k) cases tcs;
  h_folded : g_folded s' = (if functor then (x, dt) :: g_folded s else g_folded s);
  h_fields : g_fields s' = g_fields s;
  h_tvs : forall y, ~ In y params -> lookup y (g_tvs s') = lookup y (g_tvs s) }.

Lemma gen_ctor_tvs y functor dt params cn x fs : ~ In y params -> keepsp (fun s => lookup y (g_tvs s)) (gen_ctor functor dt params cn x fs).
Proof.
  intros Hy. unfold gen_ctor.
  repeat (match goal with |- keepsp _ (gbind (fresh_inst _) _) => apply kp_bind; [apply inst_keep; auto|intros]
                     | |- keepsp _ (gbind _ _) => apply kp_bind; [|intros] end); kp; destruct functor; auto.
Qed.
Lemma gen_type_half functor x params cases s u s' : gen_type_item functor x params cases s = Some (u, s') ->
  NoDup (x :: map fst cases) -> exists dt vars cs tcs s4 s5, half functor x params cases s s' dt vars cs tcs s4 s5.
Proof.
  unfold gen_type_item. intros H Hnd. inversion Hnd as [|? ? Hx Hnd']; subst.
  apply gbind_some in H as (dt & s1 & E1 & H). apply gbind_some in H as (vars & s2 & E2 & H).
  apply gbind_some in H as (fv & s3 & E3 & H). apply gbind_some in H as (cs & s4 & E4 & H).
  apply gbind_some in H as (us & s5 & E5 & H). apply gbind_some in H as (tcs & s6 & E6 & H).
  apply gbind_some in H as ([] & s7 & E7 & H). apply gbind_some in H as ([] & s8 & E8 & H).
  pose proof (cases_names _ _ _ E4) as (L4 & W4 & N4 & F4).
  fold (gen_ctors functor dt params (combine cases cs)) in E5.
  assert (EM : map (fun cc : (sym * list (option sty)) * (name * list ty) => fst (fst cc)) (combine cases cs) = map fst cases).
  { rewrite <- (map_map fst fst). f_equal. apply combine_fst'. auto. }
  assert (Hnd5 := Hnd'). rewrite <- EM in Hnd5.
  destruct (@gen_ctors_lookup _ _ _ _ _ _ _ E5 Hnd5) as [K5 F5]. rewrite EM in K5.
  apply pure_get in E6 as [-> F6]; [|intros ? ? ? ? Hg; apply gget_some in Hg as [_ ->]; auto].
  injection E7 as <-. injection E8 as <-. injection H as <- <-.
  assert (A2 : forall {X} (pi : gst -> X), (forall t n, pi (up_nt t n) = pi t) -> (forall t l, pi (up_tvs t l) = pi t) -> pi s2 = pi s1).
  { intros X pi H1 H2. eapply kp_map; [|exact E2]. intros v. cbv beta. kp. }
  assert (A2t : forall y, ~ In y params -> lookup y (g_tvs s2) = lookup y (g_tvs s1)).
  { intros y Hy. clear - E2 Hy. revert s1 vars s2 E2. induction params as [|v params IH]; simpl in *; intros s1 vars s2 E2; gb; auto.
    match goal with H : gmap _ _ _ = Some _ |- _ => apply IH in H; [|tauto] end. simpl in *.
    destruct (Nat.eqb_spec y v); [subst; tauto|auto]. }
  assert (A3 : forall {X} (pi : gst -> X), (forall t n, pi (up_nt t n) = pi t) -> pi s3 = pi s2).
  { intros X pi H1. destruct functor; gb; auto. }
  assert (A4 : forall {X} (pi : gst -> X), (forall t n, pi (up_nn t n) = pi t) -> pi s4 = pi s3).
  { intros X pi H1. eapply kp_map; [|exact E4]. intros v. cbv beta. kp. }
  assert (A5 : g_fields s5 = g_fields s4 /\ g_folded s5 = g_folded s4 /\ g_types s5 = g_types s4 /\ g_tyctors s5 = g_tyctors s4).
  { split; [|split; [|split]]; (eapply kp_map; [|exact E5]); intros; [apply gen_ctor_fields|apply gen_ctor_folded|apply gen_ctor_types|apply gen_ctor_tyctors]. }
  destruct A5 as (A5a & A5b & A5c & A5d).
  assert (A5t : forall y, ~ In y params -> lookup y (g_tvs s5) = lookup y (g_tvs s4)).
  { intros y Hy. eapply (@kp_map _ (fun s => lookup y (g_tvs s))); [|exact E5]. intros. apply gen_ctor_tvs. auto. }
  assert (A5n : g_nn s4 <= g_nn s5) by (eapply nn_map; [|exact E5]; intros; apply gen_ctor_nn).
  assert (B1 : g_nn s1 = S (g_nn s) /\ dt = g_nn s /\ g_fields s1 = g_fields s /\ g_ctors s1 = g_ctors s /\ g_types s1 = g_types s /\
               g_folded s1 = (if functor then (x, dt) :: g_folded s else g_folded s) /\
               g_names s1 = (if functor then g_names s else (x, dt) :: g_names s) /\ g_defs s1 = g_defs s /\ g_tyctors s1 = g_tyctors s /\ g_tvs s1 = g_tvs s).
  { destruct functor; [gb|apply gen_name_eq in E1 as [-> ->]]; simpl; repeat split; auto. }
  destruct B1 as (B1 & -> & B2 & B3 & B4 & B5 & B6 & B7 & B8 & B9).
  exists (g_nn s), (vars ++ fv), cs, tcs, s4, s5.
  set (sa := match lookup x (if functor then g_names s5 else g_folded s5) with
             | Some other => up_tyctors s5 ((other, tcs) :: g_tyctors s5) | None => s5 end) in *.
  assert (SA : g_types sa = g_types s5 /\ g_nn sa = g_nn s5 /\ g_names sa = g_names s5 /\ g_folded sa = g_folded s5 /\ g_fields sa = g_fields s5 /\ g_ctors sa = g_ctors s5
     /\ g_defs sa = g_defs s5 /\ g_tvs sa = g_tvs s5 /\ g_tyctors sa = match lookup x (if functor then g_names s5 else g_folded s5) with
                                          | Some o => [(o, tcs)] | None => [] end ++ g_tyctors s5).
  { unfold sa. destruct (lookup x (if functor then g_names s5 else g_folded s5)); auto 20. }
  destruct SA as (S1 & S2 & S3 & S4 & S5 & S6 & S7 & S8 & S9).
  assert (N3 : g_nn s3 = S (g_nn s)) by (rewrite (A3 _ g_nn), (A2 _ g_nn); auto).
  constructor; simpl.
  - rewrite S1, A5c, (A4 _ g_types), (A3 _ g_types), (A2 _ g_types), B4; auto.
  - auto.
  - lia.
  - auto.
  - auto.
  - rewrite (A4 _ g_names), (A3 _ g_names), (A2 _ g_names), B6; auto.
  - rewrite (A4 _ g_defs), (A3 _ g_defs), (A2 _ g_defs), B7; auto.
  - eauto.
  - auto.
  - auto.
  - auto.
  - rewrite S9, S3, S4, A5d, (A4 _ g_tyctors), (A3 _ g_tyctors), (A2 _ g_tyctors), B8; auto.
  - intros y Hy. rewrite S6, K5 by auto. rewrite (A4 _ g_ctors), (A3 _ g_ctors), (A2 _ g_ctors), B3; auto.
  - rewrite S6. eapply f2_impl; [|exact F6]. simpl. intros c k Hk. apply gget_some in Hk as [? _]. auto.
  - rewrite S4, A5b, (A4 _ g_folded), (A3 _ g_folded), (A2 _ g_folded); auto.
  - rewrite S5, A5a, (A4 _ g_fields), (A3 _ g_fields), (A2 _ g_fields); auto.
  - intros y Hy. rewrite S8, A5t by auto.
    rewrite (A4 _ (fun s => lookup y (g_tvs s))), (A3 _ (fun s => lookup y (g_tvs s))), A2t, B9; auto.
Qed.
