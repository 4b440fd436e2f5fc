(** The bytecode compiler and linker succeed on well-formed programs. *)
From Verif Require Import EvalFacts Vm CompileStatic CompileCorrect.
Set Implicit Arguments.

Definition runs (cm : cmd) (st : cst) : Prop := exists st1 c f, cm st = Some (st1, c, f).

Lemma seq_ok a b st st1 c1 f1 : a st = Some (st1, c1, f1) -> runs b st1 -> runs (seq a b) st.
Proof. intros H (st2 & c2 & f2 & H2). unfold runs, seq. rewrite H, H2. eauto. Qed.
Lemma seq_runs a b st : runs a st -> (forall st1 c f, a st = Some (st1, c, f) -> runs b st1) -> runs (seq a b) st.
Proof. intros (st1 & c & f & H) Hb. eapply seq_ok; eauto. Qed.
Lemma chg_ok d u st : d <= c_sz st + u -> chg d u st = Some (mkCst (c_sz st + u - d) (c_locals st) (c_next st), [], []).
Proof. intros H. unfold chg. destruct (Nat.leb_spec d (c_sz st + u)); auto; lia. Qed.
Lemma emit_ok i d u st : d <= c_sz st + u ->
  emit i d u st = Some (mkCst (c_sz st + u - d) (c_locals st) (c_next st), [i], []).
Proof. intros H. unfold emit, seq. simpl. rewrite chg_ok by auto. auto. Qed.
Lemma emit_runs i d u st : d <= c_sz st + u -> runs (emit i d u) st.
Proof. intros; unfold runs; rewrite emit_ok by auto; eauto. Qed.
Lemma define_ok x st : 1 <= c_sz st ->
  define_local x st = Some (mkCst (c_sz st) ((x, c_sz st - 1) :: c_locals st) (c_next st), [], []).
Proof. intros H. unfold define_local. destruct (Nat.leb_spec 1 (c_sz st)); auto; lia. Qed.

Lemma define_slots_ok xs : forall st, exists st', define_slots xs st = Some (st', [], []).
Proof.
  induction xs as [|x xs IH]; intros st; unfold define_slots; simpl.
  - unfold skip; eauto.
  - unfold seq at 1. unfold seq at 1. rewrite chg_ok by lia. rewrite define_ok by (cs; lia).
    match goal with |- context[seqs _ ?s] => destruct (IH s) as [s' Hs'] end.
    unfold define_slots in Hs'. rewrite Hs'. eauto.
Qed.

Lemma define_slots_runs xs st : runs (define_slots xs) st.
Proof. destruct (define_slots_ok xs st) as [s H]. unfold runs; eauto. Qed.

(** Names in scope have stack slots. *)
Definition sok (Sc : list name) (st : cst) : Prop :=
  forall x, In x Sc -> exists a, lookup x (c_locals st) = Some a /\ a < c_sz st.

Lemma pick_runs Sc x st : sok Sc st -> In x Sc -> runs (pick_var x) st.
Proof.
  intros H Hx. destruct (H x Hx) as (a & Ha & Hl). unfold runs, pick_var. rewrite Ha.
  destruct (Nat.leb_spec (a + 1) (c_sz st)); [|lia]. apply emit_runs. lia.
Qed.

Lemma sok_ext Sc st st' X : sok Sc st ->
  (forall x, ~ In x X -> lookup x (c_locals st') = lookup x (c_locals st)) ->
  (forall x, In x X -> ~ In x Sc) -> c_sz st <= c_sz st' -> sok Sc st'.
Proof.
  intros H Hl Hd Hz x Hx. destruct (H x Hx) as (a & Ha & Hlt). exists a. rewrite Hl; [split; auto; lia|].
  intros Hx'; apply (Hd x); auto.
Qed.
Arguments sok_ext {Sc st st'} X.

Lemma sok_add Sc st x : sok Sc st -> 1 <= c_sz st ->
  sok (x :: Sc) (mkCst (c_sz st) ((x, c_sz st - 1) :: c_locals st) (c_next st)).
Proof.
  intros H Hz y Hy. simpl. destruct (Nat.eqb_spec y x).
  - eexists; split; eauto; lia.
  - destruct Hy as [->|Hy]; [tauto|]. auto.
Qed.

Lemma picks_runs Sc xs : forall st, sok Sc st -> incl xs Sc -> runs (seqs (map pick_var xs)) st.
Proof.
  induction xs as [|x xs IH]; intros st H Hi; simpl.
  - unfold runs, skip; eauto.
  - apply seq_runs; [eapply pick_runs; eauto; apply Hi; left; auto|].
    intros st1 c f Hc. apply pick_inv in Hc as (a & _ & _ & -> & _). apply IH.
    + intros y Hy. destruct (H y Hy) as (b & Hb & Hl). exists b. cs; split; auto; lia.
    + intros y Hy; apply Hi; right; auto.
Qed.

Lemma sets_runs xs : forall st,
  (forall x, In x xs -> exists a, lookup x (c_locals st) = Some a /\ a + 1 + length xs <= c_sz st) ->
  runs (seqs (map set_var xs)) st.
Proof.
  induction xs as [|x xs IH]; intros st H; simpl.
  - unfold runs, skip; eauto.
  - destruct (H x (or_introl eq_refl)) as (a & Ha & Hl). simpl in Hl. apply seq_runs.
    + unfold runs, set_var. rewrite Ha. destruct (Nat.leb_spec (a + 2) (c_sz st)); [|lia].
      apply emit_runs. lia.
    + intros st1 c f Hc. apply set_inv in Hc as (a' & _ & _ & -> & _). apply IH. cs.
      intros y Hy. destruct (H y (or_intror Hy)) as (b & Hb & Hlb). exists b. split; auto. simpl in Hlb. lia.
Qed.

Lemma swaps_runs {A} (bs : list A) : forall st, length bs <= c_sz st ->
  runs (seqs (map (fun _ => emit ISwapPop 1 0) bs)) st.
Proof.
  induction bs as [|b bs IH]; intros st H; simpl in *.
  - unfold runs, skip; eauto.
  - apply seq_runs; [apply emit_runs; lia|]. intros st1 c f Hc. apply emit_inv in Hc as (_ & -> & _).
    apply IH. cs; lia.
Qed.

Definition tok (ctx : fctx) (Sc : list name) (st : cst) : Prop :=
  f_entry_sz ctx <= c_sz st /\
  (forall p, In p (f_params ctx) -> exists a, lookup p (c_locals st) = Some a /\ a < f_entry_sz ctx) /\
  incl (f_params ctx) Sc.

Lemma tok_ext ctx Sc Sc' st st' X : tok ctx Sc st ->
  (forall x, ~ In x X -> lookup x (c_locals st') = lookup x (c_locals st)) ->
  (forall x, In x X -> ~ In x Sc) -> c_sz st <= c_sz st' -> incl Sc Sc' -> tok ctx Sc' st'.
Proof.
  intros (H1 & H2 & H3) Hl Hd Hz Hi. split; [lia|]. split.
  - intros p Hp. destruct (H2 p Hp) as (a & Ha & Hlt). exists a. rewrite Hl; auto.
    intros Hx; apply (Hd p); auto.
  - intros x Hx; auto.
Qed.
Arguments tok_ext {ctx Sc Sc' st st'} X.

Definition etotal (e : expr) : Prop := forall ctx tail st Sc,
  wfx Sc e -> shape (ctx_rec ctx) tail e = true -> sok Sc st ->
  (tail = true -> tok ctx Sc st) -> runs (compile_expr e ctx tail) st.

Lemma args_total ctx Sc args : Forall etotal args -> forall st,
  Forall (wfx Sc) args -> forallb (shape (ctx_rec ctx) false) args = true -> sok Sc st ->
  runs (seqs (map (fun a => compile_expr a ctx false) args)) st.
Proof.
  induction 1 as [|a args Ha _ IH]; intros st Hw Hs Hok; simpl.
  - unfold runs, skip; eauto.
  - inversion Hw; subst. simpl in Hs. apply andb_prop in Hs as [Hs1 Hs2].
    apply seq_runs; [eapply Ha; eauto; discriminate|]. intros st1 c f Hc. cstat Hc Hs1 L Z.
    apply IH; auto. eapply sok_ext; eauto; [apply H1|lia].
Qed.

Lemma fun_total entry tl ps rec caps body st :
  etotal body ->
  let Sc := ps ++ match rec with Some n => [n] | None => [] end ++ caps in
  NoDup Sc -> wfx Sc body ->
  shape (match rec with Some n => Some (n, length ps) | None => None end) true body = true ->
  runs (compile_function entry tl ps rec caps (fun c => compile_expr body c true)) st.
Proof.
  intros IH Sc Hnd Hwf Hsh.
  assert (Hlk : forall x, In x Sc -> exists a, lookup x (fun_locals ps rec caps) = Some a /\ a < fun_sz ps caps).
  { intros x Hx. unfold Sc in Hx. rewrite !in_app_iff in Hx. unfold fun_locals, fun_sz.
    assert (Hr : forall (xs : list name) k l, In x xs -> exists a, lookup x (rev (combine xs (List.seq k (length xs))) ++ l) = Some a /\ a < k + length xs).
    { clear. induction xs as [|y xs IHx]; simpl; [tauto|]. intros k l Hx. rewrite <- app_assoc.
      destruct (in_dec Nat.eq_dec x xs) as [Hi|Hi].
      - destruct (IHx (S k) ([(y, k)] ++ l) Hi) as (a & Ha & Hl). exists a. split; auto; lia.
      - destruct Hx as [->|]; [|tauto]. exists k. split; [|lia].
        rewrite lookup_rev_combine_notin by (auto; rewrite seq_length; auto). simpl. rewrite Nat.eqb_refl; auto. }
    destruct (in_dec Nat.eq_dec x caps) as [Hc|Hc].
    { destruct (Hr caps (length ps + 2) (match rec with Some n => [(n, length ps)] | None => [] end ++
        rev (combine ps (List.seq 0 (length ps)))) Hc) as (a & Ha & Hl). eauto. }
    rewrite lookup_rev_combine_notin by (auto; rewrite seq_length; auto).
    destruct rec as [n|]; simpl in *.
    - destruct (Nat.eqb_spec x n); [exists (length ps); split; auto; lia|].
      destruct Hx as [Hx|[[?|[]]|?]]; [|congruence|tauto].
      destruct (Hr ps 0 [] Hx) as (a & Ha & Hl). rewrite app_nil_r in Ha. exists a; split; auto; lia.
    - destruct Hx as [Hx|[[]|?]]; [|tauto].
      destruct (Hr ps 0 [] Hx) as (a & Ha & Hl). rewrite app_nil_r in Ha. exists a; split; auto; lia. }
  assert (Hshc : shape (ctx_rec (fun_ctx tl ps rec caps)) true body = true) by (destruct rec; exact Hsh).
  destruct (IH (fun_ctx tl ps rec caps) true (fun_st ps rec caps (c_next st)) Sc) as (sb & bc & bf & Hb); auto.
  { intros _. split; [unfold fun_ctx, fun_st; simpl; lia|]. split.
    - intros p Hp. apply Hlk. unfold Sc. apply in_or_app; auto.
    - intros p Hp. unfold Sc. apply in_or_app; auto. }
  cstat Hb Hshc L Z. unfold fun_st in Z; cs.
  unfold runs, compile_function. set (inner := seq _ _).
  enough (Hi : runs inner (mkCst 0 [] (c_next st))) by (destruct Hi as (si & ci & fi & ->); eauto).
  subst inner.
  eapply seq_ok; [apply emit_ok; cs; lia|]. cs.
  apply seq_runs; [apply define_slots_runs|].
  intros s1 c1 f1 Hc1. apply define_slots_code in Hc1 as (-> & -> & Hz1 & Hn1 & Hl1). cs. rewrite app_nil_r in Hl1.
  eapply seq_ok; [apply chg_ok; lia|]. cs.
  assert (HR : exists s4, (match rec with Some n => define_local n | None => skip end)
                    (mkCst (c_sz s1 + 1 - 0) (c_locals s1) (c_next s1)) = Some (s4, [], []) /\
     c_sz s4 = length ps + 1 /\ c_next s4 = c_next st /\
     c_locals s4 = match rec with Some n => [(n, length ps)] | None => [] end ++
                    rev (combine ps (List.seq 0 (length ps)))).
  { destruct rec.
    - rewrite define_ok by (cs; lia). cs. eexists; split; eauto. cs. rewrite Hl1, Hz1. repeat split; simpl; auto; try lia.
      do 2 f_equal. lia.
    - unfold skip. eexists; split; eauto. cs. rewrite Hl1, Hz1. repeat split; simpl; auto; lia. }
  destruct HR as (s4 & H4 & Hz4 & Hn4 & Hl4). eapply seq_ok; [exact H4|].
  eapply seq_ok; [apply chg_ok; lia|]. cs.
  apply seq_runs; [apply define_slots_runs|].
  intros s6 c6 f6 Hc6. apply define_slots_code in Hc6 as (-> & -> & Hz6 & Hn6 & Hl6). cs.
  assert (Est : s6 = fun_st ps rec caps (c_next st)).
  { destruct s6 as [s l n]; cs. unfold fun_st, fun_sz, fun_locals. subst. f_equal; try lia.
    rewrite Hz4, Hl4. do 4 f_equal; lia. }
  subst s6. cs. clear Hz6 Hn6 Hl6.
  eapply seq_ok; [apply emit_ok; lia|]. eapply seq_ok; [apply emit_ok; lia|]. cs.
  unfold fun_st in Hb |- *. cs. unfold fun_ctx in Hb. rewrite ?Nat.add_0_r, ?Nat.sub_0_r.
  eapply seq_ok; [exact Hb|].
  eapply seq_ok; [apply emit_ok; rewrite Z; unfold fun_sz; lia|]. cs.
  rewrite Z. unfold fun_sz. replace (S (length ps + 2 + length caps) + 0 - (length ps + length caps + 2)) with 1 by lia.
  unfold runs. cbn [c_sz Nat.eqb]. eauto.
Qed.

Lemma brs_total ctx tail end_l Sc brs : forall ls st,
  Forall (fun br => etotal (snd br)) brs -> length ls = length brs ->
  (forall br, In br brs -> wfx (snd (fst br) ++ Sc) (snd br) /\ NoDup (snd (fst br)) /\
                    (forall x, In x (snd (fst br)) -> ~ In x Sc)) ->
  (forall x, In x (flat_map (fun br => snd (fst br) ++ binders (snd br)) brs) -> ~ In x Sc) ->
  forallb (fun br => shape (ctx_rec ctx) tail (snd br)) brs = true ->
  sok Sc st -> (tail = true -> tok ctx Sc st) ->
  runs (compile_brs (fun v => compile_expr v ctx tail) end_l brs ls) st.
Proof.
  induction brs as [|[[c bs] b] brs IH]; intros ls st HF Hl Hw Hd Hs Hok Ht.
  - unfold runs; simpl. unfold skip; eauto.
  - destruct ls as [|lb ls]; [discriminate|]. simpl in Hs. apply andb_prop in Hs as [Hs1 Hs2].
    inversion HF as [|? ? Hb HF']; subst. cbn [snd fst] in *. simpl.
    eapply seq_ok; [apply emit_ok; lia|]. cs.
    apply seq_runs; [apply define_slots_runs|].
    intros s1 c1 f1 H1. apply define_slots_code in H1 as (-> & -> & Hz1 & Hn1 & Hl1). cs.
    assert (L1 : forall x, ~ In x bs -> lookup x (c_locals s1) = lookup x (c_locals st)).
    { intros x Hx. rewrite Hl1, lookup_rev_combine_notin; auto. rewrite seq_length; auto. }
    destruct (Hw _ (or_introl eq_refl)) as (Wb & Wn & Wd). cbn [fst snd] in *.
    assert (Hok1 : sok (bs ++ Sc) s1).
    { intros x Hx. destruct (in_dec Nat.eq_dec x bs) as [Hi|Hi].
      - apply In_nth_error in Hi as [i Hi]. assert (Hil : i < length bs) by (eapply nth_lt; eauto).
        exists (c_sz st + 0 - 0 + i). rewrite Hl1. split; [|lia].
        eapply lookup_rev_combine with (i := i); eauto.
        + rewrite seq_length; auto.
        + rewrite nth_error_nth' with (d := 0) by (rewrite seq_length; auto). rewrite seq_nth by auto. auto.
      - apply in_app_or in Hx as [?|Hx]; [tauto|]. rewrite L1 by auto.
        destruct (Hok x Hx) as (a & Ha & Hla). exists a; split; auto; lia. }
    assert (Ht1 : tail = true -> tok ctx (bs ++ Sc) s1).
    { intros Htl. eapply tok_ext; [apply Ht; auto|exact L1|exact Wd|lia|]. intros x Hx; apply in_or_app; auto. }
    apply seq_runs; [eapply Hb; eauto|]. intros s2 c2 f2 H2. cstat H2 Hs1 L2 Z2.
    apply seq_runs; [apply swaps_runs; lia|]. intros s3 c3 f3 H3. apply swappops_inv in H3 as (_ & _ & _ & ->).
    eapply seq_ok; [apply emit_ok; lia|]. cs. eapply seq_ok; [apply chg_ok; cs; lia|]. cs.
    assert (LL : forall x, ~ In x (bs ++ binders b) -> lookup x (c_locals s2) = lookup x (c_locals st)).
    { intros x Hx; rewrite in_app_iff in Hx. rewrite L2, L1 by tauto; auto. }
    assert (DD : forall x, In x (bs ++ binders b) -> ~ In x Sc).
    { intros x Hx; apply Hd. simpl. apply in_or_app; auto. }
    apply IH; auto.
    + intros br Hbr; apply Hw; right; auto.
    + intros x Hx; apply Hd; simpl; apply in_or_app; auto.
    + eapply sok_ext; [exact Hok|exact LL|exact DD|cs; lia].
    + intros Htl. eapply tok_ext; [exact (Ht Htl)|exact LL|exact DD|cs; lia|apply incl_refl].
Qed.

Theorem compile_total e : etotal e.
Proof.
  induction e using expr_ind_rec; intros ctx tail st Sc Hwf Hsh Hok Ht.
  - apply emit_runs; lia.
  - apply emit_runs; lia.
  - apply emit_runs; lia.
  - eapply pick_runs; eauto. destruct Hwf as (Hs & _). simpl in Hs. apply mem_In; auto.
  - (* Call *)
    cbn [compile_expr]. simpl in Hsh. apply andb_prop in Hsh as [Hsh Hk]. apply andb_prop in Hsh as [Hf Ha].
    apply wfx_call in Hwf as (Wf & Wa & Wd).
    apply seq_runs; [eapply args_total; eauto|]. intros s1 c1 f1 H1.
    destruct (args_after _ _ _ Ha H1) as [L1 Z1].
    destruct (is_self_tail ctx tail e) eqn:Et.
    + apply is_self_tail_inv in Et as (m & -> & -> & Hr). destruct (Ht eq_refl) as (T1 & T2 & T3).
      unfold ctx_rec in Hk; rewrite Hr in Hk. cbn in Hk. rewrite Nat.eqb_refl in Hk. apply Nat.eqb_eq in Hk.
      unfold tail_call. apply seq_runs.
      * apply sets_runs. intros x Hx. rewrite <- in_rev in Hx. destruct (T2 x Hx) as (a & Ha' & Hla).
        exists a. rewrite L1, rev_length; [split; auto; lia|]. intros Hx'; apply (Wd x); auto.
      * intros s2 c2 f2 H2. apply sets_inv in H2 as (_ & Hle & -> & _). rewrite rev_length in *. cs.
        apply seq_runs.
        -- unfold runs. cs. destruct (Nat.leb_spec (f_entry_sz ctx) (c_sz s1 - length (f_params ctx))); [|lia].
           destruct (0 <? (c_sz s1 - length (f_params ctx) - f_entry_sz ctx)); [apply emit_runs; cs; lia|unfold runs, skip; eauto].
        -- intros s3 c3 f3 _. apply emit_runs. lia.
    + apply seq_runs.
      * eapply IHe; eauto; [|discriminate]. eapply sok_ext; eauto. lia.
      * intros s2 c2 f2 H2. cstat H2 Hf L2 Z2. apply emit_runs. lia.
  - (* If *)
    cbn [compile_expr]. simpl in Hsh. apply andb_prop in Hsh as [Hsh Hs3]. apply andb_prop in Hsh as [Hs1 Hs2].
    apply wfx_if in Hwf as (W1 & W2 & W3).
    assert (D1 : forall x, In x (binders e1) -> ~ In x Sc) by apply W1.
    assert (D2 : forall x, In x (binders e2) -> ~ In x Sc) by apply W2.
    apply seq_runs; [eapply IHe1; eauto; discriminate|]. intros s1 c1 f1 H1. cstat H1 Hs1 L1 Z1.
    unfold fresh. unfold runs. cs.
    eapply seq_ok; [apply emit_ok; cs; lia|]. cs.
    apply seq_runs.
    { eapply IHe2; eauto.
      - eapply (sok_ext (binders e1)); [exact Hok|exact L1|exact D1|cs; lia].
      - intros Htl. eapply (tok_ext (binders e1)); [exact (Ht Htl)|exact L1|exact D1|cs; lia|apply incl_refl]. }
    intros s3 c3 f3 H3. cstat H3 Hs2 L3 Z3. cs.
    eapply seq_ok; [apply emit_ok; lia|]. cs. eapply seq_ok; [apply emit_ok; cs; lia|]. cs.
    eapply seq_ok; [apply chg_ok; cs; lia|]. cs.
    assert (LL : forall x, ~ In x (binders e1 ++ binders e2) -> lookup x (c_locals s3) = lookup x (c_locals st)).
    { intros x Hx; rewrite in_app_iff in Hx. rewrite L3, L1 by tauto; auto. }
    assert (DD : forall x, In x (binders e1 ++ binders e2) -> ~ In x Sc).
    { intros x Hx; apply in_app_or in Hx as [?|?]; auto. }
    apply seq_runs.
    { eapply IHe3; eauto.
      - eapply sok_ext; [exact Hok|exact LL|exact DD|cs; lia].
      - intros Htl. eapply tok_ext; [exact (Ht Htl)|exact LL|exact DD|cs; lia|apply incl_refl]. }
    intros s4 c4 f4 _. apply emit_runs. lia.
  - (* Op *)
    cbn [compile_expr]. simpl in Hsh. apply andb_prop in Hsh as [Hs1 Hs2]. apply wfx_op in Hwf as (W1 & W2).
    apply seq_runs; [eapply IHe1; eauto; discriminate|]. intros s1 c1 f1 H1. cstat H1 Hs1 L1 Z1.
    apply seq_runs.
    + eapply IHe2; eauto; [|discriminate]. eapply sok_ext; eauto; [apply W1|lia].
    + intros s2 c2 f2 H2. cstat H2 Hs2 L2 Z2. apply emit_runs. lia.
  - (* Intr *)
    cbn [compile_expr]. simpl in Hsh. apply andb_prop in Hsh as [Hk Ha]. apply Nat.eqb_eq in Hk.
    assert (Wa : Forall (wfx Sc) args) by (destruct Hwf as (? & ? & ?); apply wfx_args; auto).
    apply seq_runs; [eapply args_total; eauto|]. intros s1 c1 f1 H1.
    destruct (args_after _ _ _ Ha H1) as [L1 Z1]. apply emit_runs. lia.
  - (* Lam *)
    cbn [compile_expr]. simpl in Hsh. unfold fresh. unfold runs. cs.
    apply wfx_lambda in Hwf as (Hi & Hnd & Wb).
    apply seq_runs; [apply fun_total; auto|]. intros s1 c1 f1 H1.
    apply compile_function_inv in H1 as (sb & bc & bf & _ & _ & -> & _ & _). cs.
    apply seq_runs; [eapply picks_runs; eauto; intros x Hx; apply Hok; auto|]. intros s2 c2 f2 H2.
    apply picks_sz in H2 as (Hz & _). apply emit_runs. cs; lia.
  - (* Match *)
    rewrite compile_match_eq. simpl in Hsh. apply andb_prop in Hsh as [Hs1 Hs2].
    apply wfx_match in Hwf as (W1 & Wb & Wd).
    assert (D1 : forall x, In x (binders e) -> ~ In x Sc) by apply W1.
    apply seq_runs; [eapply IHe; eauto; discriminate|]. intros s1 c1 f1 H1. cstat H1 Hs1 L1 Z1.
    unfold fresh, fresh_n. unfold runs. cs.
    eapply seq_ok; [apply emit_ok; cs; lia|]. cs.
    apply seq_runs.
    { eapply brs_total; eauto.
      - rewrite seq_length; auto.
      - eapply (sok_ext (binders e)); [exact Hok|exact L1|exact D1|cs; lia].
      - intros Htl. eapply (tok_ext (binders e)); [exact (Ht Htl)|exact L1|exact D1|cs; lia|apply incl_refl]. }
    intros s2 c2 f2 H2. eapply seq_ok; [apply emit_ok; lia|]. unfold runs. rewrite chg_ok by lia. eauto.
  - (* Construct *)
    cbn [compile_expr]. simpl in Hsh.
    assert (Wa : Forall (wfx Sc) fs) by (destruct Hwf as (? & ? & ?); apply wfx_args; auto).
    apply seq_runs; [eapply args_total; eauto|]. intros s1 c1 f1 H1.
    destruct (args_after _ _ _ Hsh H1) as [L1 Z1]. apply emit_runs. lia.
  - (* Let *)
    cbn [compile_expr]. simpl in Hsh. apply andb_prop in Hsh as [Hs1 Hs2]. apply wfx_let in Hwf as (W1 & W2 & Wn).
    apply seq_runs; [eapply IHe1; eauto; discriminate|]. intros s1 c1 f1 H1. cstat H1 Hs1 L1 Z1.
    eapply seq_ok; [apply define_ok; lia|].
    assert (D1 : forall x, In x (binders e1) -> ~ In x Sc) by apply W1.
    apply seq_runs.
    + eapply IHe2; eauto.
      * apply sok_add; [|lia]. eapply sok_ext; eauto. lia.
      * intros Htl. eapply (tok_ext (n :: binders e1)); [exact (Ht Htl)| | |cs; lia|].
        -- intros x Hx. simpl in *. destruct (Nat.eqb_spec x n); [subst; tauto|]. apply L1; tauto.
        -- intros x [<-|Hx]; auto.
        -- intros x Hx; right; auto.
    + intros s2 c2 f2 H2. cstat H2 Hs2 L2 Z2. cs. apply emit_runs. lia.
  - (* LetRec *)
    cbn [compile_expr]. simpl in Hsh. destruct (strip_pis e1) as [| | | | | | | |ps b| | | | | | |] eqn:Es; try discriminate.
    apply andb_prop in Hsh as [Hs1 Hs2]. destruct (wfx_letrec Hwf Es) as (Hi & Hnd & Wb & W2 & Wn).
    set (caps := filter _ _) in *. unfold fresh. unfold runs. cs.
    apply seq_runs. { apply fun_total; auto. { exact (H ps b eq_refl). } rewrite map_length. exact Hs1. }
    intros s1 c1 f1 H1. apply compile_function_inv in H1 as (sb & bc & bf & _ & _ & -> & _ & _). cs.
    apply seq_runs; [eapply picks_runs; eauto; intros x Hx; apply Hok; auto|]. intros s2 c2 f2 H2.
    apply picks_sz in H2 as (Hz2 & _ & Hl2 & _). cs.
    eapply seq_ok; [apply emit_ok; lia|]. cs.
    eapply seq_ok; [apply define_ok; cs; lia|]. cs. rewrite Hl2.
    apply seq_runs.
    + eapply IHe2; eauto.
      * apply (sok_add (st := mkCst (c_sz s2 + 1 - length caps) (c_locals st) (c_next s2))); [|cs; lia].
        intros x Hx. destruct (Hok x Hx) as (a & Ha & Hla). exists a; cs; split; auto; lia.
      * intros Htl. eapply (tok_ext [n]); [exact (Ht Htl)| | |cs; lia|].
        -- intros x Hx. simpl in *. destruct (Nat.eqb_spec x n); [subst; tauto|]. auto.
        -- intros x [<-|[]]; auto.
        -- intros x Hx; right; auto.
    + intros s3 c3 f3 H3. cstat H3 Hs2 L3 Z3. cs. apply emit_runs. lia.
  - cbn [compile_expr]. eapply IHe; eauto.
  - cbn [compile_expr]. eapply IHe; eauto.
  - apply emit_runs; lia.
Qed.

(** ** Linking *)
Lemma label_addrs_has l is : forall a acc, (1 <= cnt l is \/ lookup l acc <> None) ->
  lookup l (label_addrs a acc is) <> None.
Proof.
  induction is as [|i is IH]; intros a acc H; cbn [label_addrs cnt] in *.
  - destruct H; [lia|auto].
  - destruct i; try (apply IH; destruct H; [left; lia|auto]).
    apply IH. simpl. destruct (Nat.eqb_spec l l0); [right; discriminate|]. destruct H; [left; lia|auto].
Qed.

Lemma link_all_ok la is : (forall l, In l (refs is) -> lookup l la <> None) -> exists c, link_all la is = Some c.
Proof.
  induction is as [|i is IH]; intros H; simpl; eauto.
  destruct IH as [c ->]. { intros l Hl; apply H. unfold refs; simpl. apply in_or_app; auto. }
  assert (Hi : forall l, In l (refs1 i) -> lookup l la <> None).
  { intros l Hl; apply H. unfold refs; simpl. apply in_or_app; auto. }
  assert (exists x, link1 la i = Some x) as [x ->]; eauto.
  destruct i; cbn [link1]; eauto.
  - specialize (Hi l (or_introl eq_refl)). destruct (lookup l la); [eauto|tauto].
  - specialize (Hi l (or_introl eq_refl)). destruct (lookup l la); [eauto|tauto].
  - destruct upvalues; eauto.
  - specialize (Hi l (or_introl eq_refl)). destruct (lookup l la); [eauto|tauto].
  - simpl in Hi.
    match goal with |- context[map_opt ?f ?b] => assert (exists t, map_opt f b = Some t) as [t ->] end; eauto.
    induction brs as [|[[c' l] k] brs IHb]; simpl; eauto.
    simpl in Hi. assert (Hl := Hi l (or_introl eq_refl)). destruct (lookup l la); [|tauto].
    destruct IHb as [t Hb]; [| |rewrite Hb; eauto].
    + intros l0 Hl0. apply H. unfold refs in *; simpl in *. rewrite !in_app_iff in *. destruct Hl0 as [?|?]; auto.
    + intros l0 Hl0. apply Hi; auto.
Qed.
