(** Whole programs: the bytecode runner against the evaluator that evaluates arguments first. *)
From Verif Require Import EvalFacts Vm Wf CompileStatic CompileCorrect CompileTotal.
Set Implicit Arguments.

Lemma nodupb_NoDup l : nodupb l = true -> NoDup l.
Proof.
  induction l as [|x l IH]; simpl; [constructor|]. intros H. apply andb_prop in H as [H1 H2].
  apply negb_true_iff, mem_false in H1. constructor; auto.
Qed.

Definition dcmd (d : valdef) : cmd := (compile_expr (vd_value d) main_ctx false ;; define_local (vd_name d))%cmd.

Fixpoint wfds (Sc : list name) (ds : list valdef) : Prop :=
  match ds with
  | [] => True
  | d :: r => wfx Sc (vd_value d) /\ shape None false (vd_value d) = true /\ ~ In (vd_name d) Sc /\
              wfds (vd_name d :: Sc) r
  end.

Definition def_binders (ds : list valdef) : list name := flat_map (fun d => binders (vd_value d)) ds.

Lemma wfds_intro ds : forall Sc, scoped_defs Sc ds = true -> NoDup (def_names ds ++ def_binders ds) ->
  (forall x, In x (def_names ds ++ def_binders ds) -> ~ In x Sc) ->
  forallb (fun d => shape None false (vd_value d)) ds = true -> wfds Sc ds.
Proof.
  induction ds as [|d ds IH]; intros Sc Hs Hn Hd Hsh; simpl in *; auto.
  apply andb_prop in Hs as [Hs1 Hs2]. apply andb_prop in Hsh as [Hh1 Hh2].
  inversion Hn as [|? ? N0 N1]; subst. rewrite NoDup_app_iff in N1. destruct N1 as (N1 & N2 & N3).
  unfold def_binders in N2; simpl in N2. rewrite NoDup_app_iff in N2. destruct N2 as (N2 & N4 & N5).
  rewrite in_app_iff in N0. unfold def_binders in N0; simpl in N0. rewrite in_app_iff in N0.
  split; [|split; [|split]]; auto.
  - split; [|split]; auto. intros x Hx. apply Hd. right. apply in_or_app. right. unfold def_binders; simpl.
    apply in_or_app; auto.
  - apply IH; auto.
    + apply NoDup_app_iff. repeat split; auto. intros x Hx Hx'. apply (N3 x Hx). unfold def_binders; simpl.
      apply in_or_app; auto.
    + intros x Hx [<-|Hx']; [unfold def_binders in *; rewrite in_app_iff in Hx; tauto|].
      apply (Hd x); auto. right. rewrite in_app_iff in *. destruct Hx; auto. right.
      unfold def_binders in *; simpl. apply in_or_app; auto.
Qed.

Lemma defs_static ds : forallb (fun d => shape None false (vd_value d)) ds = true ->
  forall st0 st1 c f X, incl (def_names ds ++ def_binders ds) X ->
  seqs (map dcmd ds) st0 = Some (st1, c, f) ->
  static (tail_ref main_ctx) X st0 st1 c f /\ c_sz st1 = c_sz st0 + length ds.
Proof.
  induction ds as [|d ds IH]; intros Hs st0 st1 c f X Hi H; simpl in *.
  - unfold skip in H; injection H as <- <- <-. destruct st0 as [sz l n].
    split; [apply (static_nil _ _ (mkCst sz l n) sz)|simpl; lia].
  - apply andb_prop in Hs as [Hs1 Hs2]. inv_seq H as s1 c1 f1 c2 f2 H1 H2.
    unfold dcmd in H1. inv_seq H1 as s3 c3 f3 c4 f4 H3 H4. apply define_inv in H4 as (? & -> & -> & ->).
    destruct (compile_static _ _ _ _ H3 Hs1) as [S3 Z3].
    eapply IH in H2 as [S2 Z2]; eauto.
    2:{ intros x Hx. apply Hi. rewrite in_app_iff in Hx. simpl. rewrite in_app_iff. unfold def_binders in *; simpl.
        rewrite in_app_iff. tauto. }
    cs. split; [|lia]. eapply static_app; [|exact S2]. eapply static_app.
    + eapply static_weaken; [exact S3| |auto]. intros x Hx. apply Hi. simpl. rewrite in_app_iff.
      unfold def_binders; simpl. rewrite in_app_iff. tauto.
    + apply static_define. apply Hi. left; auto.
Qed.

Lemma defs_total ds : forall st0 Sc, wfds Sc ds -> sok Sc st0 ->
  exists st1 c f, seqs (map dcmd ds) st0 = Some (st1, c, f) /\ sok (rev (def_names ds) ++ Sc) st1.
Proof.
  induction ds as [|d ds IH]; intros st0 Sc Hw Hok; simpl in *.
  - unfold skip. do 3 eexists; split; eauto.
  - destruct Hw as (W1 & W2 & W3 & W4).
    destruct (@compile_total (vd_value d) main_ctx false st0 Sc W1 W2 Hok) as (s1 & c1 & f1 & H1); [discriminate|].
    cstat H1 W2 L1 Z1.
    assert (Hok1 : sok (vd_name d :: Sc) (mkCst (c_sz s1) ((vd_name d, c_sz s1 - 1) :: c_locals s1) (c_next s1))).
    { apply sok_add; [|lia]. eapply sok_ext; eauto; [apply W1|lia]. }
    destruct (IH _ _ W4 Hok1) as (s2 & c2 & f2 & H2 & Hok2).
    assert (Hd : dcmd d st0 = Some (mkCst (c_sz s1) ((vd_name d, c_sz s1 - 1) :: c_locals s1) (c_next s1), c1 ++ [], f1 ++ [])).
    { unfold dcmd, seq. rewrite H1, define_ok by lia. auto. }
    unfold seq at 1. rewrite Hd, H2. do 3 eexists; split; eauto. rewrite <- app_assoc. exact Hok2.
Qed.

Lemma wf_exprs p exprs : wf_program p exprs = true ->
  wfds [] (p_defs p) /\ Forall (wfx (rev (def_names (p_defs p)) ++ [])) exprs /\
  forallb (fun d => shape None false (vd_value d)) (p_defs p) = true /\
  forallb (shape None false) exprs = true.
Proof.
  unfold wf_program. intros H. apply andb_prop in H as [H H5]. apply andb_prop in H as [H H4].
  apply andb_prop in H as [H H3]. apply andb_prop in H as [H1 H2].
  apply nodupb_NoDup in H3. unfold all_binders in H3.
  fold (def_binders (p_defs p)) in H3. rewrite app_assoc, NoDup_app_iff in H3.
  destruct H3 as (N1 & N2 & N3).
  split; [apply wfds_intro; auto|]. split; auto. rewrite app_nil_r.
  apply wfx_args; auto.
  - rewrite forallb_In in *. intros e He. eapply scoped_weaken; [apply H2; auto|].
    intros x _ Hx. rewrite <- in_rev; auto.
  - intros x Hx Hx'. rewrite <- in_rev in Hx'. apply (N3 x); auto. apply in_or_app; auto.
Qed.

Lemma compile_ok p exprs : wf_program p exprs = true ->
  exists s2 c2 f2 s3 c3 f3 code,
    seqs (map dcmd (p_defs p)) (mkCst 0 [] 0) = Some (s2, c2, f2) /\
    seqs (map (fun e => compile_expr e main_ctx false) exprs) s2 = Some (s3, c3, f3) /\
    let full := (IEnter 0 :: c2 ++ c3 ++ [IExit]) ++ concat (f2 ++ f3) in
    compile p exprs = Some full /\
    link full = Some code /\ (forall l, cnt l full <= 1).
Proof.
  intros Hwf. destruct (wf_exprs _ _ Hwf) as (W1 & W2 & S1 & S2).
  destruct (@defs_total (p_defs p) (mkCst 0 [] 0) [] W1) as (s2 & c2 & f2 & H2 & Hok2).
  { intros x []. }
  destruct (defs_static _ S1 _ (incl_refl _) H2) as [St2 Z2]. simpl in Z2.
  destruct (@args_total main_ctx (rev (def_names (p_defs p)) ++ []) exprs) with (st := s2) as (s3 & c3 & f3 & H3); auto.
  { apply Forall_forall. intros; apply compile_total. }
  destruct (@args_static main_ctx exprs (flat_map binders exprs) true) with (st0 := s2) (st1 := s3) (c := c3) (f := f3)
    as [St3 Z3]; auto using incl_refl.
  { apply Forall_forall. intros; apply compile_static. }
  set (full := (IEnter 0 :: c2 ++ c3 ++ [IExit]) ++ concat (f2 ++ f3)).
  assert (Hcnt : forall l, cnt l full = between 0 (c_next s3) l).
  { intros l. unfold full. rewrite concat_app. cbn [app]. cbn [cnt]. rewrite !cnt_app. cbn [cnt].
    pose proof (s_cnt St2 l) as C2. pose proof (s_cnt St3 l) as C3. cs.
    pose proof (s_next St2) as N2. pose proof (s_next St3) as N3. cs.
    destruct (between_spec 0 (c_next s2) l), (between_spec (c_next s2) (c_next s3) l), (between_spec 0 (c_next s3) l); lia. }
  destruct (@link_all_ok (label_addrs 0 [] full) full) as [code Hcode].
  { intros l Hl. apply label_addrs_has. left. rewrite Hcnt.
    enough (0 <= l < c_next s3) by (destruct (between_spec 0 (c_next s3) l); lia).
    pose proof (s_next St2) as N2. pose proof (s_next St3) as N3. cs.
    assert (HT : forall l, tail_ref main_ctx l -> False) by (intros l' [E _]; apply E; reflexivity).
    unfold full in Hl. rewrite concat_app in Hl. cbn [app] in Hl.
    change (IEnter 0 :: (c2 ++ c3 ++ [IExit]) ++ concat f2 ++ concat f3) with
      ([IEnter 0] ++ (c2 ++ c3 ++ [IExit]) ++ concat f2 ++ concat f3) in Hl.
    rewrite !refs_app, !in_app_iff in Hl. cbn in Hl.
    assert (HH : (In l (refs c2) \/ In l (refs (concat f2))) \/ (In l (refs c3) \/ In l (refs (concat f3)))) by tauto.
    destruct HH as [HH|HH].
    - apply (s_refs St2) in HH as [?|?]; [cs; lia|exfalso; eauto].
    - apply (s_refs St3) in HH as [?|?]; [cs; lia|exfalso; eauto]. }
  exists s2, c2, f2, s3, c3, f3, code. split; auto. split; auto. cbv zeta. fold full. split; [|split; [exact Hcode|]].
  - unfold compile, compile_main. fold dcmd. unfold seq at 1. rewrite emit_ok by (cs; lia). cs.
    change (mkCst (0 + 0 - 0) [] 0) with (mkCst 0 [] 0).
    unfold seq at 1. change (fun d => seq (compile_expr (vd_value d) main_ctx false) (define_local (vd_name d))) with dcmd.
    rewrite H2. unfold seq at 1. rewrite H3. unfold seq at 1. rewrite emit_ok by lia. cs.
    rewrite Z3, Z2. cbn [Nat.add]. replace (_ + 0 - 0) with (length (p_defs p) + length exprs) by lia.
    rewrite Nat.eqb_refl. unfold full. cbn [app]. rewrite ?app_nil_r. reflexivity.
  - intros l. rewrite Hcnt. destruct (between_spec 0 (c_next s3) l); lia.
Qed.

Lemma defs_sim full code : link full = Some code -> (forall l, cnt l full <= 1) -> forall n ds st0 st1 c f pc en stk Sc,
  seqs (map dcmd ds) st0 = Some (st1, c, f) -> code_at full pc c -> placed full f ->
  wfds Sc ds -> erel full Sc en (c_locals st0) (c_sz st0) stk ->
  sim code (eval_defs_o ArgsFirst n en ds) n pc stk
    (fun en' pc' stk' => pc' = pc + size c /\ erel full (rev (def_names ds) ++ Sc) en' (c_locals st1) (c_sz st1) stk').
Proof.
  intros Hl Hu n. induction ds as [|d ds IH]; intros st0 st1 c f pc en stk Sc Hc Hat Hpl Hw He; simpl in *.
  - unfold skip in Hc; injection Hc as <- <- <-. eexists 0, _, _. split; [constructor|]. split; auto.
  - destruct Hw as (W1 & W2 & W3 & W4). inv_seq Hc as s1 c1 f1 c2 f2 H1 H2.
    unfold dcmd in H1. inv_seq H1 as s3 c3 f3 c4 f4 H3 H4. apply define_inv in H4 as (? & -> & -> & ->).
    rewrite !app_nil_r in *. apply code_at_app in Hat as [Hat1 Hat2]. apply placed_app in Hpl as [Hp1 Hp2].
    cstat H3 W2 L3 Z3.
    eapply sim_bind.
    + eapply esim_nt; [eapply (esim_holds Hl Hu)|exact H3|exact Hat1|exact Hp1|exact W1|exact W2|exact He].
    + cbv beta. intros v pc1 q1 (-> & mv & Hv & ->).
      rewrite size_app, <- app_assoc, Nat.add_assoc. eapply IH; eauto.
      cs. rewrite Z3. replace (S (c_sz st0) - 1) with (c_sz st0) by lia.
      replace (S (c_sz st0)) with (c_sz st0 + 1) by lia.
      apply erel_add; auto. apply (@erel_ext full Sc en en (c_locals st0) (c_locals s3) (c_sz st0) (c_sz st0) stk []); auto.
      intros x Hx; apply L3. intros Hx'. apply (proj2 (proj2 W1) x); auto.
Qed.

(** Running the machine from a state reached by [steps]. *)
Lemma vm_run_steps code k pc st pc' st' : steps code k pc st pc' st' ->
  forall fuel, vm_run code (k + fuel) pc st = vm_run code fuel pc' st'.
Proof. induction 1; intros fuel; simpl; auto. rewrite H. auto. Qed.
Lemma vm_run_short code k pc st pc' st' : steps code k pc st pc' st' -> forall fuel, fuel <= k ->
  vm_run code fuel pc st = OutOfFuel.
Proof.
  induction 1; intros fuel Hf.
  - assert (fuel = 0) by lia; subst; auto.
  - destruct fuel; auto. simpl. rewrite H. apply IHsteps. lia.
Qed.

Lemma vrel_ind' full (P : value -> mval -> Prop) :
  (forall i, P (VInt i) (MInt i)) -> (forall b, P (VBool b) (MBool b)) -> (forall s, P (VStr s) (MStr s)) ->
  (forall c vs ms, Forall2 (vrel full) vs ms -> Forall2 P vs ms -> length vs <= max_fields -> P (VComp c vs) (MObj c ms)) ->
  (forall cenv rec ps body addr ms, P (VFn cenv rec ps body) (MClo addr ms)) ->
  forall v m, vrel full v m -> P v m.
Proof.
  intros H1 H2 H3 H4 H5. fix IH 3. intros v m H; destruct H; auto.
  apply H4; auto. clear - IH H. induction H; constructor; auto.
Qed.

Lemma decode_vrel full v m : vrel full v m -> decode m = Ok (obs_value v).
Proof.
  induction 1 using vrel_ind'; auto. simpl.
  assert (E : mapM decode ms = Ok (map obs_value vs)).
  { clear H H1. induction H0; auto. rewrite mapM_cons, H. simpl. rewrite IHForall2. auto. }
  rewrite E. simpl. rewrite map_length. destruct (Nat.leb_spec (length vs) max_fields); auto; lia.
Qed.

Lemma decode_all full vs ms : Forall2 (vrel full) vs ms -> mapM decode ms = Ok (map obs_value vs).
Proof. induction 1; auto. rewrite mapM_cons, (decode_vrel H). simpl. rewrite IHForall2; auto. Qed.

Lemma Forall2_rev {A B} (R : A -> B -> Prop) a b : Forall2 R a b -> Forall2 R (rev a) (rev b).
Proof. induction 1; simpl; auto. apply Forall2_app; auto. Qed.

Theorem bytecode_correct p exprs n : wf_program p exprs = true ->
  match run_o ArgsFirst n p exprs with
  | Ok vs => exists k, forall k', k <= k' -> bytecode k' p exprs = Ok (map obs_value vs)
  | Trap m => exists k, forall k', k <= k' -> bytecode k' p exprs = Trap m
  | OutOfFuel => forall k, k <= n -> bytecode k p exprs = OutOfFuel
  | Panic => True
  end.
Proof.
  intros Hwf. destruct (wf_exprs _ _ Hwf) as (W1 & W2 & S1 & S2).
  destruct (compile_ok _ _ Hwf) as (s2 & c2 & f2 & s3 & c3 & f3 & code & H2 & H3 & Hcomp & Hlink & Huniq).
  set (full := (IEnter 0 :: c2 ++ c3 ++ [IExit]) ++ concat (f2 ++ f3)) in *.
  assert (Hpl : placed full (f2 ++ f3)).
  { intros c Hc. apply in_split in Hc as (l1 & l2 & El). unfold full. rewrite El, concat_app. simpl concat.
    exists (size (IEnter 0 :: c2 ++ c3 ++ [IExit]) + size (concat l1)).
    exists ((IEnter 0 :: c2 ++ c3 ++ [IExit]) ++ concat l1), (concat l2). rewrite size_app. split; auto.
    rewrite <- !app_assoc; auto. }
  apply placed_app in Hpl as [Hp2 Hp3].
  assert (Hat : code_at full 0 (IEnter 0 :: c2 ++ c3 ++ [IExit])) by (exists [], (concat (f2 ++ f3)); auto).
  apply code_at_cons in Hat as [_ Hat]. cbn [isize Nat.add] in Hat.
  apply code_at_app in Hat as [Hat2 Hat]. apply code_at_app in Hat as [Hat3 Hat4].
  assert (Hsim : sim code (run_o ArgsFirst n p exprs) n 0 []
      (fun vs pc st => step code pc st = Halt st /\
         exists ms q, Forall2 (vrel full) vs ms /\ length ms = length exprs /\ st = rev ms ++ q)).
  { unfold run_o. eapply sim_bind.
    - eapply (defs_sim Hlink Huniq); [exact H2|exact Hat2|exact Hp2|exact W1|]. intros x [].
    - cbv beta. intros en pc1 q1 (-> & He). eapply sim_post.
      + eapply args_sim; [|exact H3|exact Hat3|exact Hp3|exact W2|exact S2|exact He].
        apply Forall_forall. intros; apply esim_holds; auto.
      + cbv beta. intros vs pc2 q2 (-> & ms & Hv & Hlm & ->). eexists 0, _, _. split; [constructor|].
        split; [|eauto]. unfold step. rewrite (at_op Hlink Hat4 eq_refl). auto. }
  assert (Hb : forall k, bytecode k p exprs = (st <- vm_run code k 0 [] ;;
      match take_fields (length exprs) st with
      | Some (vs, _) => os <- mapM decode (rev vs) ;; Ok (rev os)
      | None => Panic
      end)).
  { intros k. unfold bytecode. rewrite Hcomp, Hlink. auto. }
  destruct (run_o ArgsFirst n p exprs) as [vs|m| |]; simpl in Hsim; auto.
  - destruct Hsim as (k & pc & st & Hst & Hh & ms & q & Hv & Hlm & ->).
    exists (k + 1). intros k' Hk. rewrite Hb. replace k' with (k + (k' - k)) by lia.
    rewrite (vm_run_steps Hst). destruct (k' - k) as [|j] eqn:Ej; [lia|]. simpl. rewrite Hh. simpl.
    rewrite <- Hlm, take_fields_rev. rewrite (decode_all (Forall2_rev Hv)). simpl.
    rewrite map_rev, rev_involutive. auto.
  - destruct Hsim as (k & pc & st & Hst & Hh). exists (k + 1). intros k' Hk. rewrite Hb.
    replace k' with (k + (k' - k)) by lia. rewrite (vm_run_steps Hst).
    destruct (k' - k) as [|j] eqn:Ej; [lia|]. simpl. rewrite Hh. auto.
  - destruct Hsim as (k & pc & st & Hk & Hst). intros k' Hk'. rewrite Hb, (vm_run_short Hst) by lia. auto.
Qed.
