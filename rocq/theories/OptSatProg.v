(** The pass saturate preserves results. *)
From Verif Require Import EvalFacts Orders Compile CompileStatic Wf Vm OptEv OptRel OptWalk OptGood OptPasses OptLaws OptProg OptInline OptCopy OptRelD OptInlineOk OptSaturate OptSatRel OptSatOk.
Set Implicit Arguments.

Definition szs (w : list (name * rewrite)) (x : name) : option (list nat) := option_map (fun rw => sizes (rw_groups rw)) (lookup x w).
Definition satL (R : name -> option (list nat)) (e e' : expr) : Prop :=
  rel (PR R) e e' /\
  (forall ps f, strip_pis e = ELam ps f -> exists f', strip_pis e' = ELam ps f' /\ (forall x, In x (map fst ps) -> R x = None) /\ rel (PR R) f f').

Lemma satL_head R e e' : rel (PR R) e e' -> (forall ps f, strip_pis e <> ELam ps f) -> satL R e e'.
Proof. intros H1 H2. split; auto. intros ps f E. exfalso; eapply H2; eauto. Qed.
Lemma satL_nil R es : forall l, Forall2 (fun k e' => satL R (snd k) e') (map (fun x => (@nil name, x)) es) l -> Forall2 (rel (PR R)) es l.
Proof. induction es; simpl; intros l H; inversion H; subst; constructor; auto. match goal with H : satL _ _ _ |- _ => apply H end. Qed.
Ltac sk := match goal with H : satL _ ?a ?b |- rel _ ?a ?b => apply H end.
Lemma satL_rebuild R e l : (forall n, e <> EName n) -> (forall x, In x (own e) -> R x = None) ->
  Forall2 (fun k e' => satL R (snd k) e') (kids e) l -> satL R e (rebuild e l).
Proof.
  intros Hnm Ho H.
  destruct e; cbn [kids] in H;
    repeat match goal with H : Forall2 _ (_ :: _) _ |- _ => inversion H; clear H; subst end;
    try match goal with H : Forall2 _ [] _ |- _ => inversion H; clear H; subst end;
    cbn [rebuild snd own] in *.
  - apply satL_head; [apply rel_bool|discriminate].
  - apply satL_head; [apply rel_int|discriminate].
  - apply satL_head; [apply rel_str|discriminate].
  - exfalso. eapply Hnm; eauto.
  - apply satL_head; [|discriminate]. apply rel_call; [sk|apply satL_nil; auto].
  - apply satL_head; [|discriminate]. apply rel_if; sk.
  - apply satL_head; [|discriminate]. apply rel_op; sk.
  - apply satL_head; [|discriminate]. apply rel_intr. apply satL_nil; auto.
  - split.
    + apply rel_lam; auto. eapply rel_sub; [apply PR_exts; auto|sk].
    + intros ps' f' Es. simpl in Es. injection Es as <- <-. exists y. repeat split; auto. sk.
  - apply satL_head; [|discriminate]. apply rel_match; [sk|].
    match goal with H : Forall2 _ (map _ _) _ |- _ => revert H end. revert Ho. clear. revert l'. induction brs as [|br brs IH]; intros l' Ho HF; inversion HF; subst; simpl; constructor.
    + repeat split; auto. simpl. eapply rel_sub; [apply PR_exts|sk]. intros; apply Ho. simpl. apply in_or_app; auto.
    + apply IH; auto. intros; apply Ho. simpl. apply in_or_app; auto.
  - apply satL_head; [|discriminate]. apply rel_construct. apply satL_nil; auto.
  - apply satL_head; [|discriminate]. apply rel_let; [sk|]. eapply rel_sub; [apply PR_ext; apply Ho; simpl; auto|sk].
  - apply satL_head; [|discriminate].
    destruct (strip_pis e1) as [| | | | | | | |ps f| | | | | | |] eqn:Es; try (apply rel_letrec_bad; intros ? ?; rewrite Es; discriminate).
    match goal with H : satL _ e1 _ |- _ => destruct H as [_ HS]; destruct (HS _ _ Es) as (f' & Es' & Hp & Hf) end.
    eapply rel_letrec; [exact Es|exact Es'|auto| |].
    + eapply rel_sub; [|exact Hf]. intros z e0 He0. eapply ext_sub; [apply PR_exts; auto|]. apply PR_ext; auto. apply Ho; simpl; auto.
    + eapply rel_sub; [apply PR_ext; apply Ho; simpl; auto|sk].
  - match goal with H : satL _ _ _ |- _ => destruct H as [A1 A2] end. split; [apply rel_pi_l, rel_pi_r; auto|]. simpl. auto.
  - apply satL_head; [|discriminate]. apply rel_piapp_l, rel_piapp_r. sk.
  - apply satL_head; [apply rel_trap|discriminate].
Qed.

Lemma lookup_none x (w : list (name * rewrite)) : ~ In x (keys w) -> lookup x w = None.
Proof.
  induction w as [|[y v] w IH]; simpl; auto. intros H. destruct (Nat.eqb_spec x y) as [->|]; [tauto|]. apply IH. tauto.
Qed.
Lemma lookup_app x (a b : list (name * rewrite)) : lookup x (a ++ b) = match lookup x a with Some v => Some v | None => lookup x b end.
Proof. induction a as [|[y v] a IH]; simpl; auto. destruct (Nat.eqb x y); auto. Qed.
Lemma lookup_mid x (l1 l2 : list (list (name * rewrite))) w w0 : (forall a, In a l1 \/ In a l2 -> ~ In x (keys a)) -> ~ In x (keys w0) ->
  lookup x (concat (rev (l1 ++ w :: l2)) ++ w0) = lookup x w.
Proof.
  intros H H0. assert (HN : forall l, (forall a, In a l -> ~ In x (keys a)) -> lookup x (concat l) = None).
  { induction l as [|a l IH]; simpl; intros Hl; auto. rewrite lookup_app, lookup_none by auto. apply IH; auto. }
  rewrite rev_app_distr. cbn [rev]. rewrite !concat_app, !lookup_app. cbn [concat]. rewrite app_nil_r.
  rewrite HN by (intros a Ha; apply H; right; apply in_rev; auto).
  rewrite HN by (intros a Ha; apply H; left; apply in_rev; auto). rewrite (lookup_none x w0) by auto. destruct (lookup x w); auto.
Qed.

(** The two walks over an expression together. *)
Lemma rebuild_twice e l1 l2 : length l1 = length (kids e) -> length l2 = length (kids e) -> rebuild (rebuild e l1) l2 = rebuild e l2.
Proof.
  destruct e; cbn [kids length]; rewrite ?map_length; intros H1 H2; lens H1; lens H2; cbn [rebuild]; auto.
  f_equal. revert l1 l2 H1 H2. induction brs as [|b brs IH]; intros [|v1 l1] [|v2 l2] H1 H2; simpl in *; try discriminate; auto.
  f_equal; auto.
Qed.

Lemma sat_rel n : forall e e1 w, col n e = Some (e1, w) -> forall m s e2 s', rewrite_walk m s e1 = Some (e2, s') ->
  (forall x, In x (binders e) -> lookup x (s_rw s) = lookup x w) -> (forall x, cnt x (binders e) <= 1) -> below (s_nn s) e ->
  satL (szs (s_rw s)) e e2.
Proof.
  induction n as [n IHn] using lt_wf_ind. intros e e1 w H m s e2 s' Hw Hl Hc Hb. destruct n as [|n]; [discriminate|].
  assert (H0 := H). cbn [col] in H. destruct (colrec e) as [e' w0] eqn:Ec.
  destruct (omap (col n) (map snd (kids e'))) as [l|] eqn:El; cbn [obind] in H; [|discriminate]. injection H as <- <-.
  destruct m as [|m]; [discriminate|]. cbn [rewrite_walk] in Hw. apply omap_len in El.
  assert (HL1 : length (map fst l) = length (kids e')) by (pose proof (Forall2_len El) as HQ; rewrite map_length in HQ; rewrite map_length; symmetry; exact HQ).
  destruct (kids_rebuild e' (map fst l) HL1) as (R1 & R2 & R3). rewrite R1, map_snd_combine in Hw by (rewrite (map_length fst (kids _)); auto).
  destruct (omapS (rewrite_walk m) s (map fst l)) as [[l2 s1]|] eqn:E2; cbn [obind] in Hw; [|discriminate].
  assert (HL2 : length l2 = length (kids e')).
  { rewrite <- HL1. clear - E2. revert s l2 s1 E2. induction (map fst l) as [|a r IH]; intros s l2 s1 E; simpl in E; [injection E as <- <-; auto|].
    destruct (rewrite_walk m s a) as [[? ?]|]; cbn [obind] in E; [|discriminate]. destruct (omapS (rewrite_walk m) s0 r) as [[? ?]|] eqn:E1; cbn [obind] in E; [|discriminate].
    injection E as <- <-. simpl. f_equal. eauto. }
  rewrite rebuild_twice in Hw by auto.
  assert (HA : alike e e') by (pose proof (colrec_alike e) as HA; rewrite Ec in HA; exact HA).
  assert (Hb' : below (s_nn s) e') by (intros x; rewrite (k_bd HA), (k_fv HA); apply Hb).
  (* the children *)
  assert (HK : forall k, In k (kids e') -> below (s_nn s) (snd k)) by (intros; eapply below_kids; eauto).
  assert (HKc : forall x, cnt x (own e') + cnt x (flat_map binders (map snd (kids e'))) <= 1).
  { intros x. rewrite <- kids_cnt, (k_bd HA). auto. }
  assert (Hw0 : forall x, In x (keys w0) -> In x (own e')).
  { clear - Ec. destruct e; simpl in Ec; try (injection Ec as <- <-; simpl; tauto).
    destruct (check_for_rewrite t e1) as [[[? ?] ?]|]; injection Ec as <- <-; simpl; auto. }
  assert (Hin : forall x, In x (binders e') <-> In x (binders e)) by (intros x; rewrite (k_bd HA); tauto).
  assert (HW : Forall2 (fun k p => col n (snd k) = Some p) (kids e') l).
  { clear - El. remember (kids e') as ks eqn:Ek. clear Ek. revert l El. induction ks as [|k ks IH]; intros l El; inversion El; subst; constructor; auto. }
  assert (HF : Forall2 (fun k e2 => exists e1 wk m0 s0 s0', col n (snd k) = Some (e1, wk) /\ rewrite_walk m0 s0 e1 = Some (e2, s0') /\ s_rw s0 = s_rw s /\ s_nn s <= s_nn s0 /\
     (forall x, In x (binders (snd k)) -> lookup x (s_rw s) = lookup x wk)) (kids e') l2 /\ s_nn s <= s_nn s1 /\ s_rw s1 = s_rw s).
  { assert (HP : forall pre ks lp lk, kids e' = pre ++ ks -> l = lp ++ lk -> Forall2 (fun k p => col n (snd k) = Some p) pre lp -> Forall2 (fun k p => col n (snd k) = Some p) ks lk ->
       forall sa l2, s_rw sa = s_rw s -> s_nn s <= s_nn sa -> omapS (rewrite_walk m) sa (map fst lk) = Some (l2, s1) ->
       Forall2 (fun k e2 => exists e1 wk m0 s0 s0', col n (snd k) = Some (e1, wk) /\ rewrite_walk m0 s0 e1 = Some (e2, s0') /\ s_rw s0 = s_rw s /\ s_nn s <= s_nn s0 /\
         (forall x, In x (binders (snd k)) -> lookup x (s_rw s) = lookup x wk)) ks l2 /\ s_nn s <= s_nn s1 /\ s_rw s1 = s_rw s).
    { intros pre ks. revert pre. induction ks as [|k ks IHk]; intros pre lp lk Ek Ell Hpre Hks sa l3 Hsa Hna E; inversion Hks as [|k0 y ks0 l' Hy Hys]; subst; simpl in E.
      - injection E as <- <-. split; [constructor|auto].
      - destruct y as [a1 wk]. cbn [fst] in E. destruct (rewrite_walk m sa a1) as [[a2 sb]|] eqn:Ea; cbn [obind] in E; [|discriminate].
        destruct (omapS (rewrite_walk m) sb (map fst l')) as [[l4 s4]|] eqn:Eb; cbn [obind] in E; [|discriminate]. injection E as <- <-.
        destruct (col_alike _ _ Hy) as [HAk Hck].
        assert (Hbk : below (s_nn sa) a1).
        { intros x. rewrite (k_bd HAk), (k_fv HAk). intros Hx. assert (x < s_nn s); [|lia]. apply (HK k); auto. rewrite Ek. apply in_or_app; simpl; auto. }
        destruct (@rewrite_ok _ _ _ _ _ Ea Hbk) as [_ W2 W3 _ _].
        destruct (IHk (pre ++ [k]) (lp ++ [(a1, wk)]) l') with (sa := sb) (l2 := l4) as (I1 & I2 & I3); auto; try congruence; try lia.
        + rewrite Ek, <- app_assoc. auto.
        + rewrite <- app_assoc. auto.
        + apply Forall2_app; auto.
        + split; [|auto]. constructor; auto. exists a1, wk, m, sa, sb. repeat split; auto.
          intros x Hx. apply cnt_in in Hx.
          assert (HX : forall (ls : list (list name * expr)) ps, Forall2 (fun k p => col n (snd k) = Some p) ls ps -> forall p, In p ps -> In x (keys (snd p)) -> 1 <= cnt x (flat_map binders (map snd ls))).
          { clear - IHn. induction 1 as [|k p ls ps Hp _ IH]; intros q [] Hq; subst; simpl map; cbn [flat_map]; rewrite cnt_app.
            - destruct q as [q1 q2]. destruct (col_alike _ _ Hp) as [_ Hcq]. simpl in Hq. apply cnt_in in Hq. specialize (Hcq x). lia.
            - specialize (IH _ H Hq). lia. }
          assert (HKx := HKc x). rewrite Ek, map_app, flat_map_app, cnt_app in HKx. cbn [map flat_map] in HKx. rewrite cnt_app in HKx.
          rewrite Hl.
          * rewrite map_app. cbn [map snd]. apply lookup_mid.
            -- intros a [Ha|Ha] Hx2; apply in_map_iff in Ha as (p & <- & Hp).
               ++ pose proof (HX _ _ Hpre _ Hp Hx2). lia.
               ++ pose proof (HX _ _ Hys _ Hp Hx2). lia.
            -- intros Hx2. apply Hw0 in Hx2. apply cnt_in in Hx2. lia.
          * apply Hin. apply cnt_in. rewrite kids_cnt, Ek, map_app, flat_map_app, cnt_app. cbn [map flat_map]. rewrite cnt_app. lia. }
    apply (HP [] (kids e') [] l) with (sa := s); auto. }
  destruct HF as (HF & Hn1 & Hr1).
  assert (HKb : forall k, In k (kids e') -> forall x, cnt x (binders (snd k)) <= 1).
  { intros k Hk x. specialize (HKc x). assert (cnt x (binders (snd k)) <= cnt x (flat_map binders (map snd (kids e')))); [|lia]. apply cnt_flat. apply in_map; auto. }
  assert (Hnm : (exists x, e = EName x) \/ forall x, e <> EName x) by (destruct e; try (right; discriminate); left; eauto).
  destruct Hnm as [[x ->]|Hnm].
  { simpl in Ec. injection Ec as <- <-. simpl in HL2. destruct l2; [|discriminate]. simpl in Hw. apply satL_head; [|discriminate].
    apply rel_name. unfold PR, szs. rewrite <- Hr1. destruct (lookup x (s_rw s1)) as [rw|] eqn:Elx; simpl; [|injection Hw as <- <-; auto].
    injection Hw as Hw. destruct (@rewrite_use_ok _ _ _ _ _ Hw) as (Q1 & _); auto.
    assert (x < s_nn s) by (apply Hb; simpl; auto). lia. }
  assert (Hnm' : forall x, e' <> EName x).
  { clear - Ec Hnm. intros x ->. destruct e; simpl in Ec; try discriminate; [|]; try (injection Ec as E _; eapply Hnm; eauto; fail).
    destruct (check_for_rewrite t e1) as [[[? ?] ?]|]; discriminate. }
  assert (He2 : e2 = rebuild e' l2).
  { rewrite rewrite_expr_node in Hw; [injection Hw as <- <-; auto|]. intros x Hx. destruct (kids_rebuild e' l2 HL2) as (_ & _ & R4). eapply R4; eauto. }
  subst e2. clear Hw.
  (* a collapsed recursive definition *)
  assert (Hcase : (e' = e /\ w0 = []) \/ exists x t a b t' a' rw, e = ELetRec x t a b /\ check_for_rewrite t a = Some (t', a', rw) /\ e' = ELetRec x t' a' b /\ w0 = [(x, rw)]).
  { clear - Ec. destruct e; simpl in Ec; try (injection Ec as <- <-; left; auto; fail).
    destruct (check_for_rewrite t e1) as [[[t' a'] rw]|] eqn:E; injection Ec as <- <-; [right|left; auto]. exists n, t, e1, e2, t', a', rw. auto. }
  destruct Hcase as [[-> ->]|(x & t & a & b & t' & a' & rw & -> & Ek & -> & ->)].
  - apply satL_rebuild; auto.
    + intros x Hx. unfold szs. rewrite Hl by (apply cnt_in; rewrite kids_cnt; apply cnt_in in Hx; lia). rewrite app_nil_r.
      destruct (lookup x (concat (rev (map snd l)))) eqn:Elx; auto. exfalso.
      assert (Hk : In x (keys (concat (rev (map snd l))))).
      { destruct (in_dec Nat.eq_dec x (keys (concat (rev (map snd l))))) as [Hi|Hi]; auto. apply lookup_none in Hi. congruence. }
      unfold keys in Hk. apply in_map_iff in Hk as (q & <- & Hq). apply in_concat in Hq as (wk & Hwk & Hq). apply in_rev in Hwk.
      apply in_map_iff in Hwk as ([e1 wk'] & <- & Hp). simpl in Hq.
      assert (HX : exists k, In k (kids e) /\ col n (snd k) = Some (e1, wk')).
      { clear - HW Hp. induction HW as [|k p ks ps Hkp _ IH]; [destruct Hp|]. destruct Hp as [->|Hp]; [exists k; simpl; auto|].
        destruct (IH Hp) as (k' & ? & ?). exists k'; simpl; auto. }
      destruct HX as (k & Hk & Hck). destruct (col_alike _ _ Hck) as [_ Hcq]. specialize (Hcq (fst q)).
      assert (1 <= cnt (fst q) (keys wk')) by (apply cnt_in; apply in_map; auto).
      assert (cnt (fst q) (binders (snd k)) <= cnt (fst q) (flat_map binders (map snd (kids e)))) by (apply cnt_flat; apply in_map; auto).
      specialize (HKc (fst q)). apply cnt_in in Hx. lia.
    + clear - HF IHn HK HKb. remember (kids e) as ks eqn:Eks. clear Eks. induction HF as [|k e2 ks l2 (e1 & wk & m0 & s0 & s0' & H1 & H2 & H3 & H4 & H5) _ IH]; constructor.
      * rewrite <- H3. eapply IHn; eauto; [rewrite H3; auto|apply HKb; simpl; auto|]. eapply below_le; [exact H4|]. apply HK; simpl; auto.
      * apply IH; intros; [apply HK|apply HKb]; simpl; auto.
  - cbn [kids] in HF. inversion HF as [|k1 a2 ks1 lr1 K1 HF1]; subst. inversion HF1 as [|k2 b2 ks2 lr2 K2 HF2]; subst. inversion HF2; subst. clear HF HF1 HF2.
    cbn [rebuild snd] in *.
    destruct K1 as (a1 & wa & ma & sa & sa' & A1 & A2 & A3 & A4 & A5). destruct K2 as (b1 & wb & mb & sb & sb' & B1 & B2 & B3 & B4 & B5).
    destruct (check_some _ _ Ek) as (g & gs & f & F1 & F2 & F3 & F4 & F5).
    destruct (col_lam _ _ A1 F2) as (n' & f1 & Hn' & C1 & C2). destruct (rewrite_lam _ _ _ A2 C2) as (m' & f2 & D1 & D2).
    assert (Hba : binders a' = names_of (g :: gs) ++ binders f) by (rewrite <- binders_strip, F2; reflexivity).
    assert (Hca : forall y, cnt y (binders a') <= 1) by (intros y; apply (HKb ([x], a')); simpl; auto).
    apply satL_head; [|discriminate]. eapply rel_sat_letrec; [exact F1|exact D2| | | |].
    + intros y Hy. unfold szs. rewrite A5 by (rewrite Hba; apply in_or_app; auto). rewrite lookup_none; auto. intros Hk.
      destruct (col_alike _ _ C1) as [_ Hcq]. specialize (Hcq y). apply cnt_in in Hk, Hy. specialize (Hca y). rewrite Hba, cnt_app in Hca. lia.
    + unfold szs. rewrite Hl by (simpl; auto). rewrite lookup_app.
      assert (Hx : ~ In x (keys (concat (rev (map snd l))))).
      { intros Hk. unfold keys in Hk. rewrite keys_concat in Hk. apply cnt_in in Hk. rewrite map_rev, cnt_concat_rev in Hk.
        cbn [kids] in HW. inversion HW as [|k1 p1 ks1 lr1 W1 HW1]; subst. inversion HW1 as [|k2 p2 ks2 lr2 W2 HW2]; subst. inversion HW2; subst.
        cbn [snd] in *. rewrite A1 in W1. rewrite B1 in W2. injection W1 as <-. injection W2 as <-. cbn [map snd] in Hk. unfold list_sum in Hk; cbn [fold_right] in Hk.
        destruct (col_alike _ _ A1) as [_ Hca']. destruct (col_alike _ _ B1) as [_ Hcb']. specialize (Hca' x). specialize (Hcb' x).
        specialize (HKc x). cbn [own kids map snd flat_map] in HKc. rewrite !cnt_app, cnt_cons, !cnt_nil in HKc. destruct (Nat.eq_dec x x); [|tauto].
        change (cnt x (keys wa) + (cnt x (keys wb) + 0) >= 1) in Hk. lia. }
      rewrite (lookup_none x) by auto. simpl. rewrite Nat.eqb_refl. simpl. rewrite F3. auto.
    + rewrite <- A3. eapply (IHn n'); [lia|exact C1|exact D1| | |].
      * intros y Hy. rewrite A3. apply A5. rewrite Hba. apply in_or_app; auto.
      * intros y. specialize (Hca y). rewrite Hba, cnt_app in Hca. lia.
      * intros y Hy. assert (y < s_nn s); [|lia]. apply (HK ([x], a')); [simpl; auto|]. simpl.
        rewrite Hba. destruct Hy as [Hy|Hy]; [|right; apply in_or_app; auto].
        destruct (in_dec Nat.eq_dec y (names_of (g :: gs))); [right; apply in_or_app; auto|]. left.
        rewrite <- fv_strip, F2. cbn [fv]. apply in_minus; auto.
    + rewrite <- B3. eapply IHn; [|exact B1|exact B2| | |]; [lia|rewrite B3; auto|apply (HKb ([x], b)); simpl; auto|].
      eapply below_le; [exact B4|]. apply (HK ([x], b)); simpl; auto.
Qed.
