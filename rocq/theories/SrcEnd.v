(** The last steps of C44: exports, and the relation of SrcRel.v meets the specification. *)
From Verif Require Import IterateOk GenFacts GenNames GenItems FoldOk TypeTable CompileStatic CompileCorrect SrcSim SrcApply SrcFlat SrcItems SrcTables SrcRun SrcSpec SrcSem SrcRel.
Set Implicit Arguments.

Lemma gen_ctors_private dt params l : forall s u s', gen_ctors false dt params l s = Some (u, s') ->
  exists ds, g_defs s' = g_defs s ++ ds /\ Forall (fun d => vd_export d = None) ds.
Proof.
  unfold gen_ctors. induction l as [|cc l IH]; simpl; intros s u s' H; gb.
  - exists []. rewrite app_nil_r. auto.
  - match goal with H : gmap _ _ _ = Some _ |- _ => apply IH in H as (ds & -> & F) end.
    match goal with H : gen_ctor _ _ _ _ _ _ _ = Some _ |- _ => apply gen_ctor_def in H as (t & vs & ts & ps & _ & _ & _ & _ & ->) end.
    rewrite <- app_assoc. eexists. split; [reflexivity|]. constructor; auto.
Qed.

Lemma item_exports b i s u s1 : basic i -> NoDup (item_syms i) -> emit_item b i s = Some (u, s1) ->
  exists ds, g_defs s1 = g_defs s ++ ds /\
    match i with
    | IVal x _ _ ex _ => exists d, ds = [d] /\ vd_export d = (if b then ex else None) /\ lookup x (g_names s1) = Some (vd_name d)
    | _ => Forall (fun d => vd_export d = None) ds
    end.
Proof.
  intros Hb HN E. destruct i as [x ps cs|x vars t ex body|]; [| |destruct Hb].
  - simpl in HN. cbn [emit_item] in E. apply gbind_some in E as (u0 & s0 & E0 & E). injection E0 as <- <-.
    apply gbind_some in E as (u1 & s2 & E1 & E).
    destruct (@gen_type_half _ _ _ _ _ _ _ E1 HN) as (dt & tvs & cs1 & tcs1 & s4 & s5 & HA).
    destruct (@gen_type_half _ _ _ _ _ _ _ E HN) as (dtF & tvsF & csF & tcs & s4' & s5' & HB).
    destruct HA as [_ _ _ _ _ _ hd4 [us Ec] _ _ hd _ _ _ _ _ _].
    destruct HB as [_ _ _ _ _ _ hd4' [us' Ec'] _ _ hd' _ _ _ _ _ _].
    apply gen_ctors_quiet in Ec' as [_ Q]. apply gen_ctors_private in Ec as (ds & Q1 & F). simpl in hd4.
    exists ds. split; [congruence|auto].
  - cbn [emit_item] in E. destruct (@value_parts _ _ _ _ _ _ _ _ _ E) as (s3 & s4 & v & t' & X3 & L3 & N3 & K3 & -> & X4 & K4 & R).
    eexists. split; [reflexivity|]. eexists. split; [reflexivity|]. split; [reflexivity|]. simpl.
    rewrite (@ext_lookup _ _ _ x X4), L3; [simpl; rewrite Nat.eqb_refl; auto|]. destruct body; simpl in *; auto. inversion HN; auto.
Qed.

Lemma emits_exports s l sf : emits s l sf -> NoDup (syms (map snd l)) ->
  (forall y, ~ In y (syms (map snd l)) -> lookup y (g_names sf) = lookup y (g_names s)) ->
  forall all pre, NoDup (syms (pre ++ map snd l)) ->
  (forall i y, In i (map snd l) -> In y all -> ~ In y (item_tvars i)) -> tables all pre s ->
  (forall b x vars t ex body, In (b, IVal x vars t ex body) l ->
     exists d, In d (g_defs sf) /\ vd_export d = (if b then ex else None) /\ lookup x (g_names sf) = Some (vd_name d)) /\
  (forall d nm, In d (g_defs sf) -> vd_export d = Some nm -> In d (g_defs s) \/
     exists x vars t body, In (true, IVal x vars t (Some nm) body) l /\ lookup x (g_names sf) = Some (vd_name d)).
Proof.
  induction 1 as [s|s em is s' H IH|s b i u s1 is s' Hb E H IH]; intros HN HL all pre HNp HT TB.
  - split; [intros b x vars t ex body []|auto].
  - destruct (IH HN) with (all := all) (pre := pre) as [A B]; auto. eapply tables_same; [..|exact TB]; reflexivity.
  - cbn [map snd] in *.
    assert (HN' : NoDup (syms ([i] ++ map snd is))) by exact HN. rewrite syms_app in HN'. apply NoDup_app_iff in HN' as (HNi & HNr & HNd).
    assert (HNp' := HNp). change (i :: map snd is) with ([i] ++ map snd is) in HNp'. rewrite app_assoc in HNp'.
    assert (HN1 : NoDup (syms (pre ++ [i]))) by (rewrite syms_app in HNp'; apply NoDup_app_iff in HNp' as [? _]; auto).
    assert (HNi' : NoDup (item_syms i)) by (unfold syms in HNi; simpl in HNi; rewrite app_nil_r in HNi; auto).
    assert (E1 : emits s [(b, i)] s1) by (eapply emits_item; [auto|exact E|constructor]).
    destruct (@tables_emits _ _ _ E1 all pre) as (TB1 & C1 & L1); auto.
    { intros j y [<-|[]]. apply HT. left; auto. }
    simpl in TB1.
    destruct (@tables_emits _ _ _ H all (pre ++ [i])) as (TB2 & C2 & L2); auto.
    { intros j y Hj. apply HT. right; auto. }
    destruct (IH HNr L2 all (pre ++ [i]) HNp') as [A B]; auto.
    { intros j y Hj. apply HT. right; auto. }
    destruct (emits_defs H) as (ds2 & D2).
    destruct (@item_exports b i s u s1 Hb HNi' E) as (ds & D1 & I1).
    assert (KEEP : forall x m, In x (item_syms i) -> lookup x (g_names s1) = Some m -> lookup x (g_names s') = Some m).
    { intros x m Hx Hm. rewrite L2; auto. apply HNd. unfold syms. simpl. rewrite app_nil_r. auto. }
    split.
    + intros b' x vars t ex body [Eq|Hin]; [|eauto]. injection Eq as -> ->. destruct I1 as (d & -> & X1 & X2). exists d.
      split; [rewrite D2, D1; apply in_or_app; left; apply in_or_app; right; left; auto|]. split; [auto|].
      apply KEEP; auto. destruct body; simpl; auto.
    + intros d nm Hd Hx. destruct (B d nm Hd Hx) as [Hin|(x & vars & t & body & Hin & Hl)].
      * rewrite D1 in Hin. apply in_app_or in Hin as [Hin|Hin]; [auto|]. right. destruct i as [x ps cs|x vars t ex body|]; [| |destruct Hb].
        -- rewrite Forall_forall in I1. rewrite (I1 _ Hin) in Hx. discriminate.
        -- destruct I1 as (d' & -> & X1 & X2). destruct Hin as [<-|[]]. rewrite X1 in Hx. destruct b; [|discriminate]. rewrite Hx in *.
           exists x, vars, t, body. split; [left; congruence|]. apply KEEP; auto. destruct body; simpl; auto.
      * right. exists x, vars, t, body. split; [right; auto|auto].
Qed.

Lemma lookup_some_in {A} y (l : list (name * A)) : lookup y l <> None -> In y (map fst l).
Proof. induction l as [|[z w] l IH]; simpl; [congruence|]. destruct (Nat.eqb_spec y z); auto. Qed.

Lemma vrels_forall2 K tys l l' : vrels K tys l l' <-> Forall2 (vrel K tys) l l'.
Proof. split; [induction 1|induction 1]; constructor; auto. Qed.

Definition tag_of (K : list (sym * ctor)) (f : bool) (c : sym) : name :=
  match lookup c K with Some k => tag f k | None => 0 end.
Definition name_of (names : list (sym * name)) (x : sym) : name :=
  match lookup x names with Some n => n | None => 0 end.

Lemma rrel_agree K tys r r' : rrel K tys r r' -> agree (vrel K tys) r r'.
Proof. destruct r, r'; simpl; auto. Qed.

Theorem generated_agrees root p : generate_core root = Some p -> resolved root -> typed root ->
  exists tag N R, represents root tag R /\
    (forall o n, agree (env_agrees root N R) (run_source o n root) (eval_defs_o o n [] (p_defs p))) /\
    (forall x vars t nm body, In (IVal x vars t (Some nm) body) root ->
       exists d, In d (p_defs p) /\ vd_export d = Some nm /\ vd_name d = N x) /\
    (forall d nm, In d (p_defs p) -> vd_export d = Some nm ->
       exists x vars t body, In (IVal x vars t (Some nm) body) root /\ vd_name d = N x).
Proof.
  unfold generate_core. intros HG HR [T1 T2]. destruct (emit_items true root g0) as [[u sf]|] eqn:E; [|discriminate]. injection HG as <-.
  destruct (emits_flat _ E) as (l & EM & EL & B1 & B2). destruct (flat_resolved HR) as (HN & HS & HB).
  set (tys := types_of (flat root)). set (K := g_ctors sf). set (all := map fst tys).
  rewrite <- EL in HN, HS, HB, T1, T2.
  assert (HT : forall i y, In i (map snd l) -> In y all -> ~ In y (item_tvars i)).
  { intros i y Hi Hy. apply T2; auto. rewrite EL. exact Hy. }
  destruct (@tables_emits _ _ _ EM all [] HN HT (tables_0 all)) as (TB & _ & _). simpl in TB.
  assert (KI : forall c1 c2 k1 k2 f1 f2, lookup c1 K = Some k1 -> lookup c2 K = Some k2 ->
    SrcRel.tag f1 k1 = SrcRel.tag f2 k2 -> c1 = c2 /\ f1 = f2) by apply (tb_inj TB).
  assert (HAS : forall c, In c (constructors root) -> exists k, lookup c K = Some k).
  { intros c Hc. apply (tb_has TB). rewrite EL. exact Hc. }
  destruct (@emits_exports _ _ _ EM HN) with (all := all) (pre := @nil item) as [X1 X2]; auto.
  { destruct (@tables_emits _ _ _ EM all [] HN HT (tables_0 all)) as (_ & _ & L). exact L. }
  { apply tables_0. }
  exists (tag_of K), (name_of (g_names sf)), (vrel K tys). split; [|split; [|split]].
  - split.
    + intros f1 c1 f2 c2 H1 H2. apply HAS in H1 as [k1 H1], H2 as [k2 H2]. unfold tag_of. rewrite H1, H2. intros Ht.
      destruct (KI _ _ _ _ _ _ H1 H2 Ht). auto.
    + intros i v. split; [intros H; inversion H; auto|intros ->; constructor].
    + intros b v. split; [intros H; inversion H; auto|intros ->; constructor].
    + intros s v. split; [intros H; inversion H; auto|intros ->; constructor].
    + intros f c fs v. split.
      * intros H. inversion H as [| | |? ? k ? fs' Hk Hfs| | | | | | | |]; subst. split.
        -- apply (tb_dom TB) in Hk as [Hk _]. rewrite EL in Hk. exact Hk.
        -- exists fs'. unfold tag_of. rewrite Hk. split; auto. apply vrels_forall2; auto.
      * intros (Hc & fs' & -> & Hfs). apply HAS in Hc as [k Hk]. unfold tag_of. rewrite Hk. constructor; auto. apply vrels_forall2; auto.
    + intros f v Hf H. inversion H; subst; try discriminate; do 4 eexists; reflexivity.
    + intros o n f f' v v' Hf Hv. apply rrel_agree. apply (proj1 (@apply_sim K tys KI o n)); auto.
  - intros o n.
    destruct (@run_sim K tys KI o n _ _ _ EM eq_refl all [] [] [] []) as (ds & D1 & D2); auto.
    + apply tables_0.
    + simpl. rewrite EL. reflexivity.
    + intros y Hy. apply lookup_some_in. exact Hy.
    + constructor.
    + simpl in D1. cbn [p_defs]. rewrite D1. unfold run_source. fold tys. rewrite <- EL.
      destruct (srun o tys n [] (map snd l)) as [en| | |], (eval_defs_o o n [] ds) as [en'| | |]; simpl in *; try contradiction; auto.
      intros x Hx. rewrite <- EL in Hx. destruct (@erel_get _ _ _ _ _ _ x D2) as (m & w & w' & Q1 & Q2 & Q3 & Q4); [rewrite app_nil_r; auto|].
      exists w, w'. unfold name_of. rewrite Q1. auto.
  - intros x vars t nm body Hin. apply B1 in Hin; [|exact I]. apply X1 in Hin as (d & Hd & He & Hn). exists d. cbn [p_defs].
    split; [auto|]. split; [auto|]. unfold name_of. rewrite Hn. auto.
  - intros d nm Hd He. cbn [p_defs] in Hd. destruct (X2 d nm Hd He) as [[]|(x & vars & t & body & Hin & Hn)].
    exists x, vars, t, body. split; [auto|]. unfold name_of. rewrite Hn. auto.
Qed.
