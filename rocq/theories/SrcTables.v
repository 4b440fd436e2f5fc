(** What the generator knows about the types it has generated, item after item (C44). *)
From Verif Require Import GenSpec FoldSpec GenFacts GenNames GenItems FoldOk TypeTable CompileStatic CompileCorrect SrcSim SrcFlat SrcItems SrcSem SrcRel.
Set Implicit Arguments.

Definition ctor_syms (is : list item) : list sym :=
  flat_map (fun i => match i with ITy _ _ cases => map fst cases | _ => [] end) is.
Definition frec (s : gst) (c : ctor) : sym * list bool :=
  (k_sym c, match lookup (k_sym c) (g_fields s) with Some fs => map is_rec fs | None => [] end).

Record tables (all : list sym) (pre : list item) (s : gst) : Prop := mkTables {
  tb_below : below s;
  tb_dom : forall c k, lookup c (g_ctors s) = Some k -> In c (ctor_syms pre) /\ k_sym k = c /\ k_regular k < g_nn s /\ k_folded k < g_nn s;
  tb_has : forall c, In c (ctor_syms pre) -> exists k, lookup c (g_ctors s) = Some k;
  tb_inj : forall c1 c2 k1 k2 f1 f2, lookup c1 (g_ctors s) = Some k1 -> lookup c2 (g_ctors s) = Some k2 ->
      tag f1 k1 = tag f2 k2 -> c1 = c2 /\ f1 = f2;
  tb_types : forall y n cs, lookup y (g_names s) = Some n -> lookup n (g_tyctors s) = Some cs ->
      lookup y (types_of pre) = Some (map (frec s) cs) /\ (forall c, In c cs -> lookup (k_sym c) (g_ctors s) = Some c);
  tb_known : forall n cs, lookup n (g_tyctors s) = Some cs -> n < g_nn s;
  tb_folded : forall y n, lookup y (g_folded s) = Some n -> In y (syms pre);
  tb_tvs : forall y, In y all -> lookup y (g_tvs s) = None }.

Lemma tables_0 all : tables all [] g0.
Proof. split; simpl; auto; try (intros; discriminate); try constructor. intros c []. Qed.

Lemma types_of_app a b : types_of (a ++ b) = types_of a ++ types_of b.
Proof. apply flat_map_app. Qed.
Lemma ctor_syms_app a b : ctor_syms (a ++ b) = ctor_syms a ++ ctor_syms b.
Proof. apply flat_map_app. Qed.
Lemma ctor_syms_in is x : In x (ctor_syms is) -> In x (syms is).
Proof.
  unfold ctor_syms, syms. rewrite !in_flat_map. intros (i & Hi & Hx). exists i. split; auto. destruct i; simpl in *; auto; destruct Hx.
Qed.
Lemma types_in is x : In x (map fst (types_of is)) -> In x (syms is).
Proof.
  unfold types_of. intros H. apply in_map_iff in H as ([y t] & <- & H). apply in_flat_map in H as (i & Hi & H).
  unfold syms. apply in_flat_map. exists i. split; auto. destruct i; simpl in *; try tauto. destruct H as [E|[]]. injection E as -> _. auto.
Qed.
Lemma lookup_app_l {A} y (l1 l2 : list (name * A)) v : lookup y l1 = Some v -> lookup y (l1 ++ l2) = Some v.
Proof. induction l1 as [|[z w] l1 IH]; simpl; [discriminate|]. destruct (Nat.eqb y z); auto. Qed.
Lemma lookup_none_app {A} y (l1 l2 : list (name * A)) : ~ In y (map fst l1) -> lookup y (l1 ++ l2) = lookup y l2.
Proof. induction l1 as [|[z w] l1 IH]; simpl; intros H; auto. destruct (Nat.eqb_spec y z); [subst; tauto|]. auto. Qed.

(** Items other than types. *)
Lemma tables_ext all B pre i s s' : ext B s s' -> (forall y, In y all -> lookup y (g_tvs s') = lookup y (g_tvs s)) ->
  types_of [i] = [] -> ctor_syms [i] = [] -> tables all pre s -> tables all (pre ++ [i]) s'.
Proof.
  intros X HT E1 E2 []. split.
  - eapply ext_below; eauto.
  - rewrite ctor_syms_app, E2, app_nil_r. destruct X. rewrite e_ctors. intros c k Hk. destruct (tb_dom0 c k Hk) as (? & ? & ? & ?). repeat split; auto; lia.
  - rewrite ctor_syms_app, E2, app_nil_r. destruct X. rewrite e_ctors. auto.
  - destruct X. rewrite e_ctors. auto.
  - rewrite types_of_app, E1, app_nil_r. intros y n cs Hy Hn. destruct X as [_ _ (L & EL & FL) _ EF EC ET _ _ _].
    rewrite ET in Hn. rewrite EC.
    assert (Hy' : lookup y (g_names s) = Some n).
    { rewrite EL in Hy. apply tb_known0 in Hn. clear - Hy Hn FL. induction L as [|[z m] L IH]; simpl in *; auto.
      inversion FL as [|? ? Hm FL']; subst. destruct (Nat.eqb_spec y z); [injection Hy as ->; simpl in Hm; lia|auto]. }
    destruct (tb_types0 y n cs Hy' Hn) as [H1 H2]. split; [|auto]. rewrite H1. unfold frec. rewrite EF. auto.
  - intros n cs Hn. destruct X. rewrite e_tyctors in Hn. apply tb_known0 in Hn. lia.
  - intros y n Hy. destruct X. rewrite e_folded in Hy. rewrite syms_app. apply in_or_app. left. eauto.
  - intros y Hy. rewrite HT; auto.
Qed.
Lemma tables_same all pre s s' : g_nn s' = g_nn s -> g_names s' = g_names s -> g_ctors s' = g_ctors s -> g_tyctors s' = g_tyctors s ->
  g_fields s' = g_fields s -> g_folded s' = g_folded s -> g_tvs s' = g_tvs s -> tables all pre s -> tables all pre s'.
Proof.
  intros H1 H2 H3 H4 H5 H6 H7 []. split; unfold below, frec in *; rewrite ?H1, ?H2, ?H3, ?H4, ?H5, ?H6, ?H7; auto.
Qed.

Definition ctor_range (cases : list (sym * list (option sty))) (lo hi : nat) (L : list (sym * name)) : Prop :=
  Forall (fun p => In (fst p) (map fst cases) /\ lo <= snd p < hi) L.
Lemma half_names x params cases s s' dt vars cs tcs s4 s5 : half false x params cases s s' dt vars cs tcs s4 s5 ->
  exists L, g_names s' = L ++ (x, dt) :: g_names s /\ ctor_range cases (S dt) (g_nn s') L.
Proof.
  intros []. destruct h_ctors as [us E]. unfold gen_ctors in E. apply gen_ctors_ok in E as [St _].
  destruct St as [_ (L & EL & FL) _ _]. exists L. rewrite h_names, EL, h_names4, h_nn. split; auto.
  unfold ctor_range. eapply Forall_impl; [|exact FL]. simpl. intros p [[_ Hp] Hq]. split; [|lia].
  rewrite <- (@combine_fst' _ _ cases cs) by auto. rewrite map_map. exact Hp.
Qed.
Lemma range_lookup cases lo hi L y n : ctor_range cases lo hi L -> lookup y L = Some n -> In y (map fst cases) /\ lo <= n < hi.
Proof. intros F H. apply lookup_in in H. unfold ctor_range in F. rewrite Forall_forall in F. apply (F _ H). Qed.
Lemma lookup_cases {A} y (l1 l2 : list (name * A)) v : lookup y (l1 ++ l2) = Some v -> lookup y l1 = Some v \/ lookup y l2 = Some v.
Proof. induction l1 as [|[z w] l1 IH]; simpl; auto. destruct (Nat.eqb y z); auto. Qed.

Lemma f2_in_l {A B} (R : A -> B -> Prop) l l' a : Forall2 R l l' -> In a l -> exists b, In b l' /\ R a b.
Proof. induction 1; intros []; subst; [eexists; split; [left; auto|auto]|]. destruct IHForall2 as (b & ? & ?); auto. exists b; split; auto; right; auto. Qed.
Lemma f2_in_r {A B} (R : A -> B -> Prop) l l' b : Forall2 R l l' -> In b l' -> exists a, In a l /\ R a b.
Proof. induction 1; intros []; subst; [eexists; split; [left; auto|auto]|]. destruct IHForall2 as (a & ? & ?); auto. exists a; split; auto; right; auto. Qed.

(** A type item. *)
Lemma tables_type all pre emit x params cases s u s' : emit_item emit (ITy x params cases) s = Some (u, s') ->
  NoDup (syms (pre ++ [ITy x params cases])) -> (forall y, In y all -> ~ In y params) -> tables all pre s ->
  tables all (pre ++ [ITy x params cases]) s' /\
  (forall c, ~ In c (map fst cases) -> lookup c (g_ctors s') = lookup c (g_ctors s)).
Proof.
  intros H HN Hps TB. rewrite syms_app in HN. unfold syms in HN at 2. cbn [flat_map item_syms] in HN. rewrite app_nil_r in HN.
  apply NoDup_app_iff in HN as (_ & Hnd & Hpre).
  assert (Hxp : ~ In x (syms pre)) by (intros Hc; apply (Hpre x Hc); left; auto).
  assert (Hcp : forall c, In c (map fst cases) -> ~ In c (syms pre)) by (intros c Hc Hp; apply (Hpre c Hp); right; auto).
  assert (Hnew : forall c, In c (map fst cases) -> lookup c (g_ctors s) = None).
  { intros c Hc. destruct (lookup c (g_ctors s)) eqn:E; auto. apply (tb_dom TB) in E as [E _]. exfalso. apply (Hcp c Hc). apply ctor_syms_in; auto. }
  cbn [emit_item] in H. apply gbind_some in H as (u0 & s0 & E0 & H). injection E0 as <- <-.
  apply gbind_some in H as (u1 & s1 & E1 & H).
  set (s0 := up_fields s (rev cases ++ g_fields s)) in *.
  pose proof (@gen_type_half _ _ _ _ _ _ _ E1 Hnd) as (dt & vars & cs & tcs1 & s4 & s5 & HA).
  pose proof (@gen_type_half _ _ _ _ _ _ _ H Hnd) as (dtF & varsF & csF & tcs & s4' & s5' & HB).
  pose proof (@gen_type_made _ _ _ _ _ _ _ E1 Hnd) as (dt' & vars' & cs' & tcs1' & M1).
  pose proof (@gen_type_made _ _ _ _ _ _ _ H Hnd) as (dtF' & varsF' & csF' & tcs' & M2).
  assert (Q1 : cs' = cs /\ dt' = dt).
  { destruct M1, HA. rewrite h_types in m_types. apply app_inv_head in m_types. injection m_types as <- _ <-. auto. }
  assert (Q2 : csF' = csF /\ dtF' = dtF).
  { destruct M2, HB. rewrite h_types in m_types. apply app_inv_head in m_types. injection m_types as <- _ <-. auto. }
  destruct Q1 as [-> ->], Q2 as [-> ->].
  destruct (half_names HA) as (L & EL & FL).
  inversion Hnd as [|? ? Hxc Hnd']; subst.
  assert (D1 : dt = g_nn s) by (destruct HA; auto). assert (D2 : dtF = g_nn s1) by (destruct HB; auto).
  assert (NN1 : S dt <= g_nn s1) by (destruct HA; lia). assert (NN2 : S dtF <= g_nn s') by (destruct HB; lia).
  assert (EN' : g_names s' = g_names s1).
  { destruct HB. destruct h_ctors as [us Ec]. apply gen_ctors_quiet in Ec as [Ec _]. rewrite h_names, Ec, h_names4. auto. }
  assert (Lx : lookup x L = None).
  { destruct (lookup x L) eqn:E; auto. apply (@range_lookup _ _ _ _ _ _ FL) in E as [E _]. tauto. }
  assert (Hx1 : lookup x (g_names s') = Some dt).
  { rewrite EN', EL. rewrite lookup_none_app; [simpl; rewrite Nat.eqb_refl; auto|]. intros Hc. apply in_map_iff in Hc as ([z n] & E & Hz).
    simpl in E. subst. unfold ctor_range in FL. rewrite Forall_forall in FL. apply FL in Hz as [Hz _]. auto. }
  assert (EF1 : g_folded s1 = g_folded s) by (destruct HA; auto).
  assert (Fx : lookup x (g_folded s1) = None).
  { rewrite EF1. destruct (lookup x (g_folded s)) eqn:E; auto. apply (tb_folded TB) in E. tauto. }
  assert (ET1 : g_tyctors s1 = (dt, tcs1) :: g_tyctors s).
  { destruct HA. rewrite h_tyctors, Fx. reflexivity. }
  assert (ET : g_tyctors s' = (dtF, tcs) :: (dt, tcs) :: (dt, tcs1) :: g_tyctors s).
  { destruct HB. rewrite h_tyctors, Hx1, ET1. reflexivity. }
  assert (EFI : g_fields s' = rev cases ++ g_fields s) by (destruct HA, HB; simpl in *; congruence).
  (* the entries of the new constructors *)
  assert (KOUT : forall c, ~ In c (map fst cases) -> lookup c (g_ctors s') = lookup c (g_ctors s)).
  { intros c Hc. destruct HA, HB. rewrite h_other0, h_other by auto. auto. }
  assert (KIN : Forall2 (fun c d => lookup (fst c) (g_ctors s1) = Some (mkCtor (fst c) (fst d) (fst d))) cases cs).
  { destruct M1. clear - m_upd Hnew. assert (Hn : forall c, In c cases -> lookup (fst c) (g_ctors s) = None) by (intros; apply Hnew; apply in_map; auto).
    clear Hnew. simpl in m_upd. induction m_upd as [|c d cases cs Hc Hr IH]; constructor.
    - rewrite Hc, Hn by (left; auto). auto.
    - apply IH. intros; apply Hn; right; auto. }
  assert (KIN2 : Forall2 (fun c d => exists n m, lookup (fst c) (g_ctors s') = Some (mkCtor (fst c) n (fst d)) /\ In (n, m) cs /\
                                       lookup (fst c) (g_ctors s1) = Some (mkCtor (fst c) n n)) cases csF).
  { destruct M2. clear - m_upd KIN.
    assert (KI : forall c, In c cases -> exists n m, In (n, m) cs /\ lookup (fst c) (g_ctors s1) = Some (mkCtor (fst c) n n)).
    { intros c Hc. destruct (@f2_in_l _ _ _ _ _ c KIN Hc) as ([n m] & Hd & Hl). eauto. }
    clear KIN. induction m_upd as [|c d cases csF Hc Hr IH]; constructor.
    - destruct (KI c (or_introl eq_refl)) as (n & m & Hi & Hl). exists n, m. rewrite Hc, Hl. auto.
    - apply IH. intros; apply KI; right; auto. }
  assert (SEG1 : seg dt (g_nn s1) (dt :: map fst cs)) by (destruct M1; simpl in *; rewrite D1 at 1; auto).
  assert (SEG2 : seg dtF (g_nn s') (dtF :: map fst csF)) by (destruct M2; simpl in *; rewrite D2 at 1; auto).
  assert (R1 : forall d, In d cs -> dt < fst d < g_nn s1).
  { intros d Hd. destruct SEG1 as [N F]. inversion F as [|? ? _ F']; subst. inversion N as [|? ? Hn _]; subst.
    rewrite Forall_forall in F'. assert (Hin : In (fst d) (map fst cs)) by (apply in_map; auto).
    pose proof (F' _ Hin). assert (fst d <> g_nn s) by (intros E; apply Hn; rewrite <- E; auto). lia. }
  assert (R2 : forall d, In d csF -> dtF < fst d < g_nn s').
  { intros d Hd. destruct SEG2 as [N F]. inversion F as [|? ? _ F']; subst. inversion N as [|? ? Hn _]; subst.
    rewrite Forall_forall in F'. assert (Hin : In (fst d) (map fst csF)) by (apply in_map; auto).
    pose proof (F' _ Hin). assert (fst d <> g_nn s1) by (intros E; apply Hn; rewrite <- E; auto). lia. }
  assert (NEW : forall c, In c (map fst cases) -> exists n m dF, lookup c (g_ctors s') = Some (mkCtor c n (fst dF)) /\ In (n, m) cs /\ In dF csF /\
                  lookup c (g_ctors s1) = Some (mkCtor c n n)).
  { intros c Hc. apply in_map_iff in Hc as (c0 & <- & Hc). destruct (@f2_in_l _ _ _ _ _ c0 KIN2 Hc) as (dF & HdF & n & m & H1 & H2 & H3).
    exists n, m, dF. auto. }
  assert (DEC : forall c, In c (map fst cases) \/ ~ In c (map fst cases)) by (intros; destruct (in_dec Nat.eq_dec c (map fst cases)); auto).
  (* distinct constructors have distinct names *)
  assert (INJ1 : forall c1 c2 d1 d2, In c1 (map fst cases) -> In c2 (map fst cases) ->
            lookup c1 (g_ctors s1) = Some (mkCtor c1 d1 d1) -> lookup c2 (g_ctors s1) = Some (mkCtor c2 d2 d2) -> d1 = d2 -> c1 = c2).
  { clear - KIN SEG1. intros c1 c2 d1 d2 H1 H2 L1 L2 <-. apply in_map_iff in H1 as (a & <- & Ha), H2 as (b & <- & Hb).
    destruct SEG1 as [N _]. inversion N as [|? ? _ N']; subst. clear N.
    induction KIN as [|c d cases cs Hc HF IH]; [destruct Ha|]. inversion N' as [|? ? Hn N2]; subst.
    assert (NI : forall a, In a cases -> lookup (fst a) (g_ctors s1) = Some (mkCtor (fst a) (fst d) (fst d)) -> False).
    { intros e He Hl. destruct (@f2_in_l _ _ _ _ _ e HF He) as (d' & Hd' & Hl'). rewrite Hl in Hl'. injection Hl' as Q. apply Hn. rewrite Q. apply in_map; auto. }
    destruct Ha as [<-|Ha], Hb as [<-|Hb]; auto.
    - exfalso. rewrite Hc in L1. injection L1 as <-. eapply NI; eauto.
    - exfalso. rewrite Hc in L2. injection L2 as <-. eapply NI; eauto. }
  assert (INJ2 : forall c1 c2 k1 k2, In c1 (map fst cases) -> In c2 (map fst cases) ->
            lookup c1 (g_ctors s') = Some k1 -> lookup c2 (g_ctors s') = Some k2 -> k_folded k1 = k_folded k2 -> c1 = c2).
  { clear - KIN2 SEG2. intros c1 c2 k1 k2 H1 H2 L1 L2 EQ. apply in_map_iff in H1 as (a & <- & Ha), H2 as (b & <- & Hb).
    destruct SEG2 as [N _]. inversion N as [|? ? _ N']; subst. clear N.
    induction KIN2 as [|c d cases csF Hc HF IH]; [destruct Ha|]. inversion N' as [|? ? Hn N2]; subst.
    assert (NI : forall a k, In a cases -> lookup (fst a) (g_ctors s') = Some k -> k_folded k = fst d -> False).
    { intros e k He Hl Hk. destruct (@f2_in_l _ _ _ _ _ e HF He) as (d' & Hd' & n & m & Hl' & _). rewrite Hl in Hl'. injection Hl' as ->. simpl in Hk.
      apply Hn. rewrite <- Hk. apply in_map; auto. }
    destruct Hc as (n & m & Hl & _).
    destruct Ha as [<-|Ha], Hb as [<-|Hb]; auto.
    - exfalso. rewrite Hl in L1. injection L1 as <-. simpl in EQ. eapply NI; [exact Hb|exact L2|auto].
    - exfalso. rewrite Hl in L2. injection L2 as <-. simpl in EQ. eapply NI; [exact Ha|exact L1|auto]. }
  split; [|exact KOUT]. split.
  - (* below *)
    unfold below. rewrite EN', EL. apply Forall_app. split.
    + eapply Forall_impl; [|exact FL]. simpl. intros p [_ Hp]. lia.
    + constructor; [simpl; lia|]. pose proof (tb_below TB) as HB0. eapply Forall_impl; [|exact HB0]. simpl. lia.
  - intros c k Hk. rewrite ctor_syms_app. simpl. rewrite app_nil_r, in_app_iff. destruct (DEC c) as [Hc|Hc].
    + destruct (NEW c Hc) as (n & m & dF & Hl & Hn & HdF & _). rewrite Hl in Hk. injection Hk as <-. simpl.
      specialize (R1 _ Hn). specialize (R2 _ HdF). simpl in R1. repeat split; auto; lia.
    + rewrite KOUT in Hk by auto. apply (tb_dom TB) in Hk as (H1 & H2 & H3 & H4). repeat split; auto; lia.
  - intros c. rewrite ctor_syms_app. simpl. rewrite app_nil_r, in_app_iff. intros Hc. destruct (DEC c) as [Hin|Hout].
    + destruct (NEW c Hin) as (n & m & dF & Hl & _). eauto.
    + destruct Hc as [Hc|Hc]; [|tauto]. rewrite KOUT by auto. apply (tb_has TB). auto.
  - intros c1 c2 k1 k2 f1 f2 H1 H2 Htag. destruct (DEC c1) as [D1c|D1c], (DEC c2) as [D2c|D2c].
    + destruct (NEW c1 D1c) as (n1 & m1 & dF1 & Hl1 & Hn1 & HdF1 & Hs1). destruct (NEW c2 D2c) as (n2 & m2 & dF2 & Hl2 & Hn2 & HdF2 & Hs2).
      rewrite Hl1 in H1. rewrite Hl2 in H2. injection H1 as <-. injection H2 as <-.
      pose proof (R1 _ Hn1). pose proof (R1 _ Hn2). pose proof (R2 _ HdF1). pose proof (R2 _ HdF2). simpl in *.
      destruct f1, f2; simpl in Htag.
      * split; auto. eapply (INJ2 c1 c2); eauto.
      * lia.
      * lia.
      * split; auto. eapply (INJ1 c1 c2 n1 n2); eauto.
    + exfalso. destruct (NEW c1 D1c) as (n1 & m1 & dF1 & Hl1 & Hn1 & HdF1 & _). rewrite Hl1 in H1. injection H1 as <-.
      rewrite KOUT in H2 by auto. apply (tb_dom TB) in H2 as (_ & _ & Q1 & Q2). pose proof (R1 _ Hn1). pose proof (R2 _ HdF1). simpl in *.
      destruct f1, f2; simpl in Htag; lia.
    + exfalso. destruct (NEW c2 D2c) as (n1 & m1 & dF1 & Hl1 & Hn1 & HdF1 & _). rewrite Hl1 in H2. injection H2 as <-.
      rewrite KOUT in H1 by auto. apply (tb_dom TB) in H1 as (_ & _ & Q1 & Q2). pose proof (R1 _ Hn1). pose proof (R2 _ HdF1). simpl in *.
      destruct f1, f2; simpl in Htag; lia.
    + rewrite KOUT in H1, H2 by auto. eapply (tb_inj TB); eauto.
  - intros y n l Hy Hn. rewrite types_of_app. rewrite ET in Hn. cbn [lookup] in Hn. rewrite EN', EL in Hy.
    apply lookup_cases in Hy as [Hy|Hy].
    + apply (@range_lookup _ _ _ _ _ _ FL) in Hy as [_ Hy]. destruct (Nat.eqb_spec n dtF); [lia|]. destruct (Nat.eqb_spec n dt); [lia|].
      apply (tb_known TB) in Hn. lia.
    + cbn [lookup] in Hy. destruct (Nat.eqb_spec y x) as [->|Hyx].
      * injection Hy as <-. destruct (Nat.eqb_spec dt dtF); [lia|]. rewrite Nat.eqb_refl in Hn. injection Hn as <-.
        assert (HT : Forall2 (fun c k => lookup (fst c) (g_ctors s') = Some k) cases tcs) by (destruct HB; auto).
        assert (KS : forall c k, In c cases -> lookup (fst c) (g_ctors s') = Some k -> k_sym k = fst c).
        { intros c k Hc Hl. destruct (NEW (fst c)) as (n1 & m1 & dF1 & Hl1 & _); [apply in_map; auto|]. rewrite Hl in Hl1. injection Hl1 as ->. auto. }
        split.
        -- rewrite lookup_none_app by (intros Hc; apply types_in in Hc; tauto). simpl. rewrite Nat.eqb_refl. f_equal.
           assert (LK : forall c, In c cases -> lookup (fst c) (g_fields s') = Some (snd c)).
           { rewrite EFI. intros c Hc. apply lookup_here; [|apply -> in_rev; auto]. rewrite map_rev. apply NoDup_rev. auto. }
           clear - HT KS LK. induction HT as [|c k cases tcs Hk HT IH]; simpl; auto. f_equal.
           ++ unfold frec. rewrite (KS c k) by (auto; left; auto). rewrite LK by (left; auto). reflexivity.
           ++ apply IH; intros; [apply KS|apply LK]; auto; right; auto.
        -- intros c Hc. destruct (@f2_in_r _ _ _ _ _ c HT Hc) as (c0 & Hc0 & Hl). rewrite (KS c0 c Hc0 Hl). auto.
      * assert (Hlt : n < g_nn s) by (eapply below_lookup; [apply TB|eauto]).
        destruct (Nat.eqb_spec n dtF); [lia|]. destruct (Nat.eqb_spec n dt); [lia|].
        destruct (@tb_types _ _ _ TB y _ _ Hy Hn) as [Q1 Q2].
        assert (OLD : forall c, In c l -> ~ In (k_sym c) (map fst cases)).
        { intros c Hc Hin. apply Q2 in Hc. apply (tb_dom TB) in Hc as [Hc _]. apply (Hcp _ Hin). apply ctor_syms_in. auto. }
        split.
        -- rewrite (@lookup_app_l _ _ _ _ _ Q1). f_equal. apply map_ext_in. intros c Hc. unfold frec. rewrite EFI.
           rewrite lookup_none_app; auto. rewrite map_rev. intros Hin. apply in_rev in Hin. eapply OLD; eauto.
        -- intros c Hc. rewrite KOUT; auto.
  - intros n l Hn. rewrite ET in Hn. cbn [lookup] in Hn. destruct (Nat.eqb_spec n dtF); [lia|]. destruct (Nat.eqb_spec n dt); [lia|].
    apply (tb_known TB) in Hn. lia.
  - intros y n Hy. rewrite syms_app. apply in_or_app. unfold syms at 2. cbn [flat_map item_syms]. rewrite app_nil_r.
    assert (EFF : g_folded s' = (x, dtF) :: g_folded s) by (destruct HB; rewrite h_folded, EF1; auto).
    rewrite EFF in Hy. cbn [lookup] in Hy. destruct (Nat.eqb_spec y x); [subst; right; left; auto|]. left. eapply (tb_folded TB); eauto.
  - intros y Hy. destruct HA, HB. rewrite h_tvs0, h_tvs by (apply Hps; auto). apply (tb_tvs TB). auto.
Qed.
