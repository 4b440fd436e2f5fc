(** C02 for whole programs. *)
From Verif Require Import EvalFacts Vm Wf CompileStatic CompileCorrect CompileTotal RunnerCorrect StackSpec StackBound.
Set Implicit Arguments.

Definition need_defs (ds : list valdef) : nat := list_sum (map (fun d => need (vd_value d)) ds).

Lemma defs_bsim full code K : link full = Some code -> (forall l, cnt l full <= 1) ->
  forall n ds st0 st1 c f pc en stk Sc base,
  seqs (map dcmd ds) st0 = Some (st1, c, f) -> code_at full pc c -> placed full f ->
  wfds Sc ds -> StackBound.erel full K Sc en (c_locals st0) (c_sz st0) stk ->
  length stk = c_sz st0 + base -> c_sz st0 + need_defs ds <= K ->
  dsim code K base (eval_defs_d n en ds) n pc stk
    (fun en' pc' stk' => pc' = pc + size c /\ length stk' = c_sz st1 + base /\ c_sz st1 = c_sz st0 + length ds /\
        StackBound.erel full K (rev (def_names ds) ++ Sc) en' (c_locals st1) (c_sz st1) stk').
Proof.
  intros Hl Hu n. unfold need_defs.
  induction ds as [|d ds IH]; intros st0 st1 c f pc en stk Sc base Hc Hat Hpl Hw He Hb HK; simpl in *.
  - unfold skip in Hc; injection Hc as <- <- <-. eapply dsim_ok; [constructor; lia|].
    rewrite ?Nat.add_0_r. auto.
  - destruct Hw as (W1 & W2 & W3 & W4). inv_seq Hc as s1 c1 f1 c2 f2 H1 H2.
    unfold dcmd in H1. inv_seq H1 as s3 c3 f3 c4 f4 H3 H4. apply define_inv in H4 as (? & -> & -> & ->).
    rewrite !app_nil_r in *. apply code_at_app in Hat as [Hat1 Hat2]. apply placed_app in Hpl as [Hp1 Hp2].
    cstat H3 W2 L3 Z3. pose proof (need_pos (vd_value d)) as Np.
    eapply dsim_bind.
    + eapply (@StackBound.esim_nt full code K n (vd_value d) main_ctx) with (base := base);
        [eapply (StackBound.esim_holds Hl Hu)|exact H3|exact Hat1|exact Hp1|exact W1|exact W2|exact He|exact Hb|lia].
    + cbv beta. intros v pc1 q1 (-> & mv & Hv & ->).
      replace (pc + size (c3 ++ c2)) with (pc + size c3 + size c2) by (rewrite size_app; lia).
      rewrite <- app_assoc.
      assert (HH : dsim code K base (eval_defs_d n ((vd_name d, v) :: en) ds) n (pc + size c3) (mv :: stk)
         (fun en' pc' stk' => pc' = pc + size c3 + size c2 /\ length stk' = c_sz st1 + base /\
             c_sz st1 = c_sz s3 + length ds /\
             StackBound.erel full K (rev (def_names ds) ++ vd_name d :: Sc) en' (c_locals st1) (c_sz st1) stk')).
      { eapply dsim_post; [eapply IH with (base := base); [exact H2|exact Hat2|exact Hp2|exact W4| | |]|].
        - cs. rewrite Z3. replace (S (c_sz st0) - 1) with (c_sz st0) by lia.
          replace (S (c_sz st0)) with (c_sz st0 + 1) by lia.
          apply StackBound.erel_add; auto.
          apply (@StackBound.erel_ext full K Sc en en (c_locals st0) (c_locals s3) (c_sz st0) (c_sz st0) stk []); auto.
          intros x Hx; apply L3. intros Hx'. apply (proj2 (proj2 W1) x); auto.
        - cs. simpl. lia.
        - cs. lia.
        - cbv beta. intros v' pc' st' HH HL. apply after_0; auto. }
      eapply dsim_post; [exact HH|]. cbv beta. intros v' pc' st' (H5 & H6 & H7 & H8) HL.
      apply after_0; auto. cs. repeat split; auto; lia.
Qed.

Lemma bsteps_steps code B k pc st pc' st' : bsteps code B k pc st pc' st' ->
  forall j pcj stj, steps code j pc st pcj stj ->
    length stj <= B \/ (exists pc2 st2, step code pc' st' = Next pc2 st2).
Proof.
  induction 1 as [pc st H|k pc st pc1 st1 pc2 st2 H H1 _ IH]; intros j pcj stj Hj.
  - inversion Hj; subst; eauto.
  - inversion Hj as [|? ? ? pca sta ? ? Ha Hb]; subst; auto.
    rewrite H1 in Ha. injection Ha as <- <-. eauto.
Qed.
Lemma bsteps_steps_le code B k pc st pc' st' : bsteps code B k pc st pc' st' ->
  forall j pcj stj, steps code j pc st pcj stj -> j <= k -> length stj <= B.
Proof.
  induction 1 as [pc st H|k pc st pc1 st1 pc2 st2 H H1 _ IH]; intros j pcj stj Hj Hle.
  - inversion Hj; subst; auto. lia.
  - inversion Hj as [|? ? ? pca sta ? ? Ha Hb]; subst; auto.
    rewrite H1 in Ha. injection Ha as <- <-. eapply IH; eauto. lia.
Qed.

Theorem stack_bound p exprs : wf_program p exprs = true ->
  exists is code K, compile p exprs = Some is /\ link is = Some code /\
    forall n pc st, run_o ArgsFirst n p exprs <> Panic -> steps code n 0 [] pc st ->
      length st <= K * S (nesting n p exprs).
Proof.
  intros Hwf. destruct (wf_exprs _ _ Hwf) as (W1 & W2 & S1 & S2).
  destruct (compile_ok _ _ Hwf) as (s2 & c2 & f2 & s3 & c3 & f3 & code & H2 & H3 & Hcomp & Hlink & Huniq).
  set (full := (IEnter 0 :: c2 ++ c3 ++ [IExit]) ++ concat (f2 ++ f3)) in *.
  assert (Hpl : placed full (f2 ++ f3)).
  { intros c Hc. apply in_split in Hc as (l1 & l2 & El). unfold full. rewrite El, concat_app. simpl concat.
    exists (size (IEnter 0 :: c2 ++ c3 ++ [IExit]) + size (concat l1)).
    exists ((IEnter 0 :: c2 ++ c3 ++ [IExit]) ++ concat l1), (concat l2). rewrite size_app. split; auto.
    rewrite <- !app_assoc; auto. }
  apply placed_app in Hpl as [Hp2 Hp3].
  assert (Hat : code_at full 0 (IEnter 0 :: c2 ++ c3 ++ [IExit])) by (exists [], (concat (f2 ++ f3)); auto).
  apply code_at_cons in Hat as [_ Hat]. cbn [isize Nat.add] in Hat.
  apply code_at_app in Hat as [Hat2 Hat]. apply code_at_app in Hat as [Hat3 Hat4].
  set (K := need_defs (p_defs p) + length (p_defs p) + list_sum (map need exprs)).
  exists full, code, K. split; auto. split; auto.
  intros n pc st Hnp Hst.
  assert (Hsim : dsim code K 0 (run_d n p exprs) n 0 [] (fun vs pc st => step code pc st = Halt st)).
  { unfold run_d. eapply dsim_bind.
    - eapply (defs_bsim Hlink Huniq) with (base := 0); [exact H2|exact Hat2|exact Hp2|exact W1| | |].
      + intros x [].
      + reflexivity.
      + unfold K. simpl. lia.
    - cbv beta. intros en pc1 q1 (-> & Hq & Hz & He). simpl in Hz. eapply dsim_post.
      + eapply (@StackBound.args_sim full code K n main_ctx); [|exact H3|exact Hat3|exact Hp3|exact W2|exact S2|exact He|exact Hq|].
        * apply Forall_forall. intros; apply StackBound.esim_holds; auto.
        * unfold K. lia.
      + cbv beta. intros vs pc2 q2 (-> & ms & Hv & Hlm & ->) HL. apply after_0; auto.
        unfold step. rewrite (at_op Hlink Hat4 eq_refl). auto. }
  unfold dsim in Hsim. rewrite run_d_outcome in Hsim. fold (nesting n p exprs) in Hsim.
  change (lim K 0 (nesting n p exprs)) with (K * S (nesting n p exprs)) in Hsim.
  destruct (run_o ArgsFirst n p exprs) as [vs|m| |]; simpl in Hsim; try congruence.
  - destruct Hsim as (k & pc' & st' & Hb & Hh). destruct (bsteps_steps Hb Hst) as [|(? & ? & E)]; auto. congruence.
  - destruct Hsim as (k & pc' & st' & Hb & Hh). destruct (bsteps_steps Hb Hst) as [|(? & ? & E)]; auto. congruence.
  - destruct Hsim as (k & pc' & st' & Hk & Hb). eapply bsteps_steps_le; eauto.
Qed.
