(** The pass saturate over a program. *)
From Verif Require Import EvalFacts Orders Compile CompileStatic Wf Vm OptEv OptRel OptWalk OptGood OptPasses OptLaws OptProg OptInline OptCopy OptRelD OptInlineOk OptSaturate OptSatRel OptSatOk OptSatProg.
Set Implicit Arguments.

Lemma ev_strip e : forall c r v, ev c r e v <-> ev c r (strip_pis e) v.
Proof.
  induction e; intros c0 r v0; simpl; try tauto. rewrite <- IHe. split; intros H; [inversion H; auto|constructor; auto].
Qed.
Lemma check_none t a : length (ty_groups (ty_body t)) < 2 -> check_for_rewrite t a = None.
Proof. intros H. unfold check_for_rewrite. destruct (Nat.ltb_spec (length (ty_groups (ty_body t))) 2); auto. lia. Qed.
Definition groups_of (d : valdef) : nat := length (ty_groups (ty_body (vd_ty d))).
Definition sat_ty (t t' : ty) : Prop := t' = t \/ (2 <= length (ty_groups (ty_body t)) /\ t' = under_abs collapse_arg_groups t).

Lemma G_dom R R' k r r' : (forall x v, lookup x r = Some v -> R x = R' x) -> G (PR R) k r r' -> G (PR R') k r r'.
Proof. intros H HG x e' HP v Hv. apply (HG x); auto. unfold PR in *. rewrite (H _ _ Hv). auto. Qed.

(** One definition. *)
Lemma sat_def_ok fuel s d d' s3 : saturate_def fuel s d = Some (d', s3) ->
  (forall x, cnt x [vd_name d] + cnt x (binders (vd_value d)) <= 1) -> below (s_nn s) (vd_value d) ->
  (forall x, x = vd_name d \/ In x (binders (vd_value d)) -> ~ In x (keys (s_rw s))) ->
  vd_name d' = vd_name d /\ vd_export d' = vd_export d /\ sat_ty (vd_ty d) (vd_ty d') /\ s_nn s <= s_nn s3 /\
  fv (vd_value d') = fv (vd_value d) /\ (forall x, cnt x (binders (vd_value d')) = cnt x (binders (vd_value d)) + rng (s_nn s) (s_nn s3) x) /\
  (forall m, recs m (vd_value d) = true -> recs m (vd_value d') = true) /\
  (forall x, In x (keys (s_rw s3)) -> In x (keys (s_rw s)) \/ In x (binders (vd_value d)) \/ (x = vd_name d /\ 2 <= groups_of d)) /\
  (forall r r' c v, (forall k, G (PR (szs (s_rw s))) k r r') ->
     (forall x v, lookup x r = Some v -> x <> vd_name d /\ ~ In x (binders (vd_value d))) -> ev c r (vd_value d) v ->
     exists c' v', ev c' r' (vd_value d') v' /\ obs_value v' = obs_value v /\
       forall k, G (PR (szs (s_rw s3))) k ((vd_name d, v) :: r) ((vd_name d, v') :: r')).
Proof.
  intros H Hc Hb Hk. unfold saturate_def in H.
  assert (Hcx : cnt (vd_name d) (binders (vd_value d)) = 0).
  { specialize (Hc (vd_name d)). rewrite cnt_cons in Hc. destruct (Nat.eq_dec (vd_name d) (vd_name d)); [lia|tauto]. }
  assert (HD : forall (w : list (name * rewrite)) r r', (forall k, G (PR (szs (s_rw s))) k r r') ->
     (forall x, In x (keys w) -> x = vd_name d \/ In x (binders (vd_value d))) ->
     (forall x v, lookup x r = Some v -> x <> vd_name d /\ ~ In x (binders (vd_value d))) -> forall k, G (PR (szs (w ++ s_rw s))) k r r').
  { intros w r r' HG Hw Hr k. eapply G_dom; [|apply HG]. intros x v Hv. unfold szs. rewrite lookup_app, (lookup_none x w); auto.
    intros Hi. destruct (Hr x v Hv). destruct (Hw x Hi); tauto. }
  destruct (check_for_rewrite (vd_ty d) (vd_value d)) as [[[t v] rw]|] eqn:Ec; rewrite collapse_col in H.
  - destruct (col fuel v) as [[v1 w]|] eqn:Ew; cbn [obind] in H; [|discriminate].
    match type of H with context [rewrite_walk fuel ?q v1] => set (s2 := q) in * end.
    destruct (rewrite_walk fuel s2 v1) as [[v2 s4]|] eqn:Er; cbn [obind] in H; [|discriminate]. injection H as <- <-. cbn [vd_name vd_export vd_ty vd_value].
    assert (Hs2n : s_nn s2 = s_nn s) by reflexivity.
    assert (Hs2w : s_rw s2 = (w ++ [(vd_name d, rw)]) ++ s_rw s) by (unfold s2, addrw; simpl; rewrite <- app_assoc; auto). clearbody s2.
    assert (HA : alike (vd_value d) v).
    { assert (HA := colrec_alike (ELetRec 0 (vd_ty d) (vd_value d) (EBool true))). simpl in HA. rewrite Ec in HA. simpl in HA.
      destruct (check_some _ _ Ec) as (g & gs & f & E1 & E2 & _). split.
      - rewrite <- (binders_strip v), <- (binders_strip (vd_value d)), E1, E2, binders_lams. reflexivity.
      - rewrite <- (fv_strip v), <- (fv_strip (vd_value d)), E1, E2, fv_lams. reflexivity.
      - intros m. rewrite <- (recs_strip m v), <- (recs_strip m (vd_value d)), E1, E2, recs_lams. reflexivity.
      - intros. rewrite E2. eauto.
      - intros. rewrite E1. simpl. eauto. }
    destruct (col_alike _ _ Ew) as [HA1 Hcw]. pose proof (alike_trans HA HA1) as HA2.
    assert (Hb2 : below (s_nn s2) v1) by (rewrite Hs2n; intros x; rewrite (k_bd HA2), (k_fv HA2); apply Hb).
    destruct (@rewrite_ok _ _ _ _ _ Er Hb2) as [W1 W2 W3 W4 W5].
    assert (Hkw : forall x, In x (keys (w ++ [(vd_name d, rw)])) -> x = vd_name d \/ In x (binders (vd_value d))).
    { intros x Hx. unfold keys in Hx. rewrite map_app in Hx. apply in_app_iff in Hx as [Hx|[<-|[]]]; auto. right. apply cnt_in. apply cnt_in in Hx.
      rewrite <- (k_bd HA). specialize (Hcw x). fold (keys w) in Hx. lia. }
    assert (H2g : 2 <= length (ty_groups (ty_body (vd_ty d)))).
    { destruct (Nat.lt_ge_cases (length (ty_groups (ty_body (vd_ty d)))) 2) as [HH|HH]; auto. rewrite check_none in Ec by auto. discriminate. }
    destruct (check_some _ _ Ec) as (g & gs & f & F1 & F2 & F3 & F4 & F5).
    split; [auto|]. split; [auto|]. split; [right; auto|]. split; [lia|]. split; [rewrite W1; apply (k_fv HA2)|].
    split; [intros x; rewrite W4, Hs2n, (k_bd HA2); auto|]. split; [intros m Hm; apply W5; rewrite (k_rec HA2); auto|]. split.
    + intros x Hx. rewrite W3, Hs2w in Hx. unfold keys in Hx. rewrite map_app in Hx. apply in_app_iff in Hx as [Hx|Hx]; [|auto].
      destruct (Hkw x Hx) as [->|Hx']; auto.
    + intros r r' c u HG Hr He. destruct (col_lam _ _ Ew F2) as (n' & f1 & Hn' & C1 & C2). destruct (rewrite_lam _ _ _ Er C2) as (m' & f2 & D1 & D2).
      apply (proj1 (ev_strip _ _ _ _)) in He. rewrite F1 in He. cbn [lams fold_right] in He. apply ev_lam_inv in He as [-> ->].
      exists 0, (VFn r' None (names_of (g :: gs)) f2). split; [apply ev_strip; rewrite D2; constructor|]. split; [reflexivity|].
      assert (Hbv : binders (vd_value d) = names_of (g :: gs) ++ binders f) by (rewrite <- binders_strip, F1, binders_lams; auto).
      assert (Hlk : forall x, In x (binders (vd_value d)) -> lookup x (s_rw s2) = lookup x w).
      { intros x Hx. rewrite Hs2w, !lookup_app. destruct (lookup x w); auto.
        rewrite (lookup_none x (s_rw s)) by (apply Hk; auto). simpl. destruct (Nat.eqb_spec x (vd_name d)) as [->|]; auto.
        apply cnt_in in Hx. lia. }
      assert (Hx : szs (s_rw s2) (vd_name d) = Some (sizes (g :: gs))).
      { unfold szs. rewrite Hs2w, !lookup_app, lookup_none; [simpl; rewrite Nat.eqb_refl; simpl; rewrite F3; auto|].
        intros Hi. apply cnt_in in Hi. specialize (Hcw (vd_name d)). rewrite (k_bd HA) in Hcw. lia. }
      assert (Hp : forall y, In y (names_of (g :: gs)) -> szs (s_rw s2) y = None).
      { intros y Hy. unfold szs. rewrite Hlk by (rewrite Hbv; apply in_or_app; auto). rewrite lookup_none; auto. intros Hi.
        destruct (col_alike _ _ C1) as [_ Hcq]. specialize (Hcq y). apply cnt_in in Hi, Hy. specialize (Hc y). rewrite Hbv, cnt_app in Hc. lia. }
      assert (Hrel : rel (PR (szs (s_rw s2))) f f2).
      { eapply (@sat_rel n' f f1 w C1 _ _ _ _ D1).
        - intros y Hy. apply Hlk. rewrite Hbv. apply in_or_app; auto.
        - intros y. specialize (Hc y). rewrite Hbv, cnt_app in Hc. lia.
        - intros y Hy. rewrite Hs2n. apply Hb. rewrite Hbv. destruct Hy as [Hy|Hy]; [|right; apply in_or_app; auto].
          destruct (in_dec Nat.eq_dec y (names_of (g :: gs))); [right; apply in_or_app; auto|]. left.
          rewrite <- fv_strip, F1, fv_lams. apply in_minus; auto. }
      intros k. rewrite W3. assert (HGk : forall k, G (PR (szs (s_rw s2))) k r r') by (rewrite Hs2w; apply HD; auto).
      apply G_eta; auto. eapply sat_def; eauto.
  - destruct (col fuel (vd_value d)) as [[v1 w]|] eqn:Ew; cbn [obind] in H; [|discriminate].
    match type of H with context [rewrite_walk fuel ?q v1] => set (s2 := q) in * end.
    destruct (rewrite_walk fuel s2 v1) as [[v2 s4]|] eqn:Er; cbn [obind] in H; [|discriminate]. injection H as <- <-. cbn [vd_name vd_export vd_ty vd_value].
    assert (Hs2n : s_nn s2 = s_nn s) by reflexivity. assert (Hs2w : s_rw s2 = w ++ s_rw s) by reflexivity. clearbody s2.
    destruct (col_alike _ _ Ew) as [HA Hcw].
    assert (Hb2 : below (s_nn s2) v1) by (rewrite Hs2n; intros x; rewrite (k_bd HA), (k_fv HA); apply Hb).
    destruct (@rewrite_ok _ _ _ _ _ Er Hb2) as [W1 W2 W3 W4 W5].
    assert (Hkw : forall x, In x (keys w) -> In x (binders (vd_value d))).
    { intros x Hx. apply cnt_in. apply cnt_in in Hx. specialize (Hcw x). lia. }
    split; [auto|]. split; [auto|]. split; [left; auto|]. split; [lia|]. split; [rewrite W1; apply (k_fv HA)|].
    split; [intros x; rewrite W4, Hs2n, (k_bd HA); auto|]. split; [intros m Hm; apply W5; rewrite (k_rec HA); auto|]. split.
    + intros x Hx. rewrite W3, Hs2w in Hx. unfold keys in Hx. rewrite map_app in Hx. apply in_app_iff in Hx as [Hx|Hx]; auto.
    + intros r r' c u HG Hr He.
      assert (Hrel : satL (szs (s_rw s2)) (vd_value d) v2).
      { eapply (@sat_rel _ _ _ _ Ew _ _ _ _ Er).
        - intros y Hy. rewrite Hs2w, lookup_app, (lookup_none y (s_rw s)) by (apply Hk; auto). destruct (lookup y w); auto.
        - intros y. specialize (Hc y). lia.
        - rewrite Hs2n. auto. }
      assert (HGk : forall k, G (PR (szs (s_rw s2))) k r r') by (rewrite Hs2w; apply HD; auto).
      destruct (rel_all (proj1 Hrel) HGk He) as (c' & v' & E & HV). exists c', v'. split; auto. split; [apply (@V_obs 0); auto|].
      intros k. rewrite W3. apply G_bind; auto. unfold szs. rewrite Hs2w, lookup_app, !lookup_none; auto.
      intros Hi. apply Hkw in Hi. apply cnt_in in Hi. lia.
Qed.

Definition same_obs (r r' : env) : Prop := forall x v, lookup x r = Some v -> exists v', lookup x r' = Some v' /\ obs_value v' = obs_value v.

Lemma sat_defs_ok fuel ds : forall S s ds' s', omapS (saturate_def fuel) s ds = Some (ds', s') ->
  scoped_defs S ds = true -> (forall x, In x S -> x < s_nn s) ->
  (forall x, cnt x (bnd ds) <= 1) -> (forall x, In x (bnd ds) -> ~ In x S /\ ~ In x (keys (s_rw s)) /\ x < s_nn s) ->
  Forall2 (fun d d' => vd_name d' = vd_name d /\ vd_export d' = vd_export d /\ sat_ty (vd_ty d) (vd_ty d')) ds ds' /\
  s_nn s <= s_nn s' /\ (forall x, cnt x (bnd ds') = cnt x (bnd ds) + rng (s_nn s) (s_nn s') x) /\
  scoped_defs S ds' = true /\
  (forall m, forallb (fun d => recs m (vd_value d)) ds = true -> forallb (fun d => recs m (vd_value d)) ds' = true) /\
  (forall x, In x (keys (s_rw s')) -> In x (keys (s_rw s)) \/ In x (flat_map (fun d => binders (vd_value d)) ds) \/ exists d, In d ds /\ vd_name d = x /\ 2 <= groups_of d) /\
  (forall r r' r1, (forall k, G (PR (szs (s_rw s))) k r r') -> same_obs r r' -> (forall x v, lookup x r = Some v -> In x S) -> evd r ds r1 ->
     exists r1', evd r' ds' r1' /\ (forall k, G (PR (szs (s_rw s'))) k r1 r1') /\ same_obs r1 r1' /\
       forall x v, lookup x r1 = Some v -> In x S \/ In x (def_names ds)).
Proof.
  induction ds as [|d ds IH]; simpl omapS; intros S s ds' s' E Hs HS Hc Hb.
  - injection E as <- <-. split; [constructor|]. split; [auto|]. split; [intros; rewrite rng_nil; simpl; lia|]. split; [auto|split; [auto|split; [auto|]]].
    intros r r' r1 HG Ho Hd He. inversion He; subst. exists r'. repeat split; auto; [constructor|]. eauto.
  - destruct (saturate_def fuel s d) as [[d1 s1]|] eqn:E1; cbn [obind] in E; [|discriminate].
    destruct (omapS (saturate_def fuel) s1 ds) as [[ds1 s2]|] eqn:E2; cbn [obind] in E; [|discriminate]. injection E as <- <-.
    simpl in Hs. apply andb_true_iff in Hs as [Hs1 Hs2].
    assert (Hcc : forall x, cnt x [vd_name d] + cnt x (binders (vd_value d)) + cnt x (bnd ds) <= 1) by (intros x; rewrite <- bnd_cons; auto).
    assert (Hbb : forall x, In x [vd_name d] \/ In x (binders (vd_value d)) \/ In x (bnd ds) -> ~ In x S /\ ~ In x (keys (s_rw s)) /\ x < s_nn s).
    { intros x Hx. apply Hb. apply cnt_in. rewrite bnd_cons. destruct Hx as [Hx|[Hx|Hx]]; apply cnt_in in Hx; lia. }
    assert (Hbe : below (s_nn s) (vd_value d)).
    { intros x [Hx|Hx]; [apply HS; eapply scoped_fv; eauto|apply Hbb; auto]. }
    destruct (sat_def_ok _ _ _ E1) as (D1 & D2 & D3 & D4 & D5 & D6 & D7 & D8 & D9); auto.
    { intros x. specialize (Hcc x). lia. }
    { intros x [->|Hx]; apply Hbb; simpl; auto. }
    destruct (IH (vd_name d :: S) s1 ds1 s2 E2) as (I1 & I2 & I3 & I4 & I5 & I6 & I7); auto.
    { intros x [<-|Hx]; [assert (vd_name d < s_nn s) by (apply Hbb; simpl; auto); lia|]. specialize (HS x Hx). lia. }
    { intros x. specialize (Hcc x). lia. }
    { intros x Hx. destruct (Hbb x) as (Q1 & Q2 & Q3); auto. apply cnt_in in Hx. assert (HX := Hcc x). rewrite cnt_cons, cnt_nil in HX. split; [|split; [|lia]].
      - intros [Hi|Hi]; auto. destruct (Nat.eq_dec (vd_name d) x); [lia|tauto].
      - intros Hi. destruct (D8 x Hi) as [Hi'|[Hi'|[-> _]]]; auto; [apply cnt_in in Hi'; lia|]. destruct (Nat.eq_dec (vd_name d) (vd_name d)); [lia|tauto]. }
    split; [constructor; auto|]. split; [lia|]. split; [|split; [|split; [|split]]].
    + intros x. rewrite !bnd_cons. rewrite D1, D6, I3. rewrite <- (@rng_split (s_nn s) (s_nn s1) (s_nn s2)) by lia. lia.
    + simpl. rewrite D1, I4, andb_true_r. apply fv_scoped. rewrite D5. apply scoped_fv; auto.
    + intros m Hm. simpl in *. apply andb_true_iff in Hm as [Hm1 Hm2]. rewrite D7, I5; auto.
    + intros x Hx. cbn [flat_map]. rewrite in_app_iff. destruct (I6 x Hx) as [Hi|[Hi|(d2 & Hd2 & Hn2 & Hg)]]; auto.
      * destruct (D8 x Hi) as [?|[?|[-> ?]]]; auto. right; right. exists d. simpl; auto.
      * right; right. exists d2. simpl; auto.
    + intros r r' r1 HG Ho Hd He. apply evd_cons_inv in He as (c & w & H1 & H2).
      destruct (D9 r r' c w HG) as (c' & w' & E' & Hobs & HG'); auto.
      { intros x v Hv. apply Hd in Hv. split; [intros ->; destruct (Hbb (vd_name d)); simpl; auto|intros Hi; destruct (Hbb x); auto]. }
      destruct (I7 ((vd_name d, w) :: r) ((vd_name d, w') :: r') r1) as (r1' & E3 & HG3 & Ho3 & Hd3); auto.
      { intros x v Hv. simpl in *. destruct (Nat.eqb x (vd_name d)); eauto. injection Hv as <-. eauto. }
      { intros x v Hv. simpl in Hv. destruct (Nat.eqb_spec x (vd_name d)) as [->|]; simpl; eauto. }
      exists r1'. split; [|split; [auto|split; [auto|]]].
      * rewrite <- D1 in E3. econstructor; eauto.
      * intros x v Hv. destruct (Hd3 x v Hv) as [[?|?]|?]; simpl; auto.
Qed.

(** Expressions whose value the pass keeps: a name, or an expression that only uses definitions with at most
    one group of parameters in their type. *)
Definition direct (p : program) (e : expr) : Prop :=
  (exists x, e = EName x) \/ forall x, In x (fv e) -> exists d, In d (p_defs p) /\ vd_name d = x /\ groups_of d < 2.

Theorem saturate_ok fuel nn nt p p' nn' nt' : ok_names p -> names_below nn p -> saturate_fuel fuel nn nt p = Some (p', (nn', nt')) ->
  (forall exprs, Forall (direct p) exprs -> results_kept p p' exprs) /\ ok_names p' /\ nn <= nn' /\ names_below nn' p' /\ p_types p' = p_types p /\
  Forall2 (fun d d' => vd_name d' = vd_name d /\ vd_export d' = vd_export d /\ sat_ty (vd_ty d) (vd_ty d')) (p_defs p) (p_defs p') /\
  (forall m, forallb (fun d => recs m (vd_value d)) (p_defs p) = true -> forallb (fun d => recs m (vd_value d)) (p_defs p') = true).
Proof.
  intros (O1 & O2 & O3) Hb H. unfold saturate_fuel in H.
  destruct (omapS _ _ _) as [[ds s]|] eqn:E; cbn [obind] in H; [|discriminate]. injection H as <- <- <-.
  assert (HC : forall x, cnt x (bnd (p_defs p)) <= 1).
  { intros x. apply (NoDup_count_occ Nat.eq_dec) with (x := x) in O2. exact O2. }
  destruct (@sat_defs_ok fuel (p_defs p) [] _ ds s E O1) as (A1 & A2 & A3 & A4 & A5 & A6 & A7); [simpl; contradiction|exact HC|intros x Hx; simpl; repeat split; auto|].
  simpl in *.
  assert (HB : forall x, cnt x (bnd ds) <= 1 /\ (In x (bnd ds) -> x < s_nn s)).
  { intros x. specialize (A3 x). destruct (Nat.eq_dec (cnt x (bnd (p_defs p))) 0) as [E0|E0].
    - pose proof (rng_le nn (s_nn s) x). split; [lia|]. intros Hx. apply cnt_in in Hx.
      assert (Hrg : rng nn (s_nn s) x = 1) by lia. apply rng_1 in Hrg. lia.
    - assert (x < nn) by (apply Hb; apply cnt_in; lia). rewrite rng_0 in A3 by lia. split; [specialize (HC x); lia|lia]. }
  split; [|split; [split; [auto|split; [|auto]]|split; [auto|split; [|split; [auto|split; auto]]]]].
  - intros exprs HE n vs Ht. apply treewalk_ev in Ht as (r & c & H1 & H2).
    destruct (A7 [] [] r) as (r' & H1' & HG & Ho & _); auto; [intros k; apply G_nil|intros x v Hv; discriminate|discriminate|].
    assert (Hev : exists c' vs', evs c' r' exprs vs' /\ map obs_value vs' = map obs_value vs).
    { clear - HE H2 HG Ho O2 A6. revert c vs H2. induction HE as [|e es He _ IH]; intros c vs H2.
      - apply evs_nil_inv in H2 as [-> ->]. exists 0, []. split; constructor.
      - apply evs_cons_inv in H2 as (i & j & w & ws & -> & -> & H1 & H2). destruct (IH _ _ H2) as (c2 & v2 & E2 & V2).
        assert (Hw : exists c1 w', ev c1 r' e w' /\ obs_value w' = obs_value w).
        { destruct He as [[x ->]|He].
          - apply ev_name_inv in H1 as [_ H1]. destruct (Ho _ _ H1) as (w' & Hw & Hw'). exists 0, w'. split; auto. constructor; auto.
          - assert (Hr : rel (PR (szs (s_rw s))) e e).
            { eapply rel_sub; [|apply rel_refl_fv]. intros x e' [Hx ->]. unfold PR, szs. rewrite lookup_none; [reflexivity|].
              intros Hi. destruct (He x Hx) as (d & Hd & Hn & Hg). destruct (A6 x Hi) as [[]|[Hi'|(d2 & Hd2 & Hn2 & Hg2)]].
              - apply in_split in Hd as (l1 & l2 & El). apply (NoDup_count_occ Nat.eq_dec) with (x := x) in O2. fold (cnt x) in O2.
                rewrite count_occ_app in O2. apply (count_occ_In Nat.eq_dec) in Hi'.
                assert (Hi2 : In x (def_names (p_defs p))) by (rewrite <- Hn; unfold def_names; apply in_map; rewrite El; apply in_or_app; simpl; auto).
                apply (count_occ_In Nat.eq_dec) in Hi2. lia.
              - assert (d = d2); [|subst; lia]. apply NoDup_app_l in O2. unfold def_names in O2. rewrite <- Hn in Hn2. clear - O2 Hd Hd2 Hn2.
                induction (p_defs p) as [|a l IH]; [destruct Hd|]. simpl in *. inversion O2; subst.
                destruct Hd as [->|Hd], Hd2 as [->|Hd2]; auto.
                + exfalso. apply H1. rewrite <- Hn2. apply in_map; auto.
                + exfalso. apply H1. rewrite Hn2. apply in_map; auto. }
            destruct (rel_all Hr HG H1) as (c1 & w' & E1 & V1). exists c1, w'. split; auto. apply (@V_obs 0); auto. }
        destruct Hw as (c1 & w' & E1 & V1). exists (c1 + c2), (w' :: v2). split; [constructor; auto|]. simpl. congruence. }
    destruct Hev as (c' & vs' & H2' & HV).
    destruct (@ev_treewalk (mkProgram (p_types p) ds) exprs r' c' vs' H1' H2') as [m Hm]. exists m, vs'. auto.
  - apply (NoDup_count_occ Nat.eq_dec). intros x. apply HB.
  - intros x. apply HB.
Qed.
