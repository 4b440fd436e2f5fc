(** Generated expressions do what the source says, step by step (C44). *)
From Verif Require Import GenSpec FoldSpec GenFacts GenNames FoldOk TypeTable EvalFacts IterateOk CompileStatic CompileCorrect SrcSem SrcRel.
Set Implicit Arguments.

Lemma inst_keep y vars : ~ In y vars -> keepsp (fun s => lookup y (g_tvs s)) (fresh_inst vars).
Proof.
  intros Hv. unfold fresh_inst. apply kp_bind; [|intros; apply kp_ret]. induction vars as [|v vars IH]; simpl in *; [kp|].
  apply kp_bind; [|intros; apply kp_bind; [apply IH; tauto|intros; kp]].
  kp. simpl. destruct (Nat.eqb_spec y v); [subst; tauto|auto].
Qed.
Lemma etvars_keep y e : ~ In y (etvars e) -> keepsp (fun s => lookup y (g_tvs s)) (gen_expr e).
Proof.
  assert (FI : forall vars, ~ In y vars -> keepsp (fun s => lookup y (g_tvs s)) (fresh_inst vars)) by apply inst_keep.
  assert (IT : forall vars t, ~ In y vars -> keepsp (fun s => lookup y (g_tvs s)) (inst_ty vars t)).
  { intros vars t Hv. unfold inst_ty. apply kp_bind; [auto|]. intros. kp. }
  induction e using sexpr_ind'; cbn [gen_expr etvars]; intros Hy; rewrite ?in_app_iff in Hy;
    repeat (match goal with |- keepsp _ (gbind (fresh_inst _) _) => apply kp_bind; [apply FI; tauto|intros]
                       | |- keepsp _ (gbind (inst_ty _ _) _) => apply kp_bind; [apply IT; tauto|intros]
                       | |- keepsp _ (gbind (gen_expr _) _) => apply kp_bind; [match goal with H : _ -> keepsp _ (gen_expr ?e) |- keepsp _ (gen_expr ?e) => apply H; tauto end|intros]
                       | |- keepsp _ (gbind _ _) => apply kp_bind; [|intros] end); kp;
    try (intros ? ? ? ?; discriminate); try (unfold lookup_name; kp; fail).
  - fold (gen_cases f).
    assert (HY : ~ In y (flat_map (fun c => etvars (snd c)) cs)) by tauto. clear Hy IHe.
    induction H as [|[[c xs] b] cs Hb _ IH]; simpl in *; [kp|]. rewrite in_app_iff in HY.
    apply kp_bind; [kp|intros]. apply kp_bind; [apply Hb; tauto|intros]. apply kp_bind; [kp|intros].
    apply kp_bind; [fold (gen_cases f); apply IH; tauto|intros; kp].
  - unfold gen_fold_branch. kp.
Qed.

Section Sim.
  Variable K : list (sym * ctor).
  Variable tys : stypes.
  Hypothesis K_inj : forall c1 c2 k1 k2 f1 f2, lookup c1 K = Some k1 -> lookup c2 K = Some k2 ->
    tag f1 k1 = tag f2 k2 -> c1 = c2 /\ f1 = f2.
  Hypothesis K_sym : forall c k, lookup c K = Some k -> k_sym k = c.
  Variable o : order.
  Notation vrel := (vrel K tys). Notation vrels := (vrels K tys). Notation names_rel := (names_rel K tys).
  Notation erel := (erel K tys). Notation good := (good K tys). Notation rrel := (rrel K tys). Notation static := (static tys).

  Lemma erel_in s D en en' : erel s D en en' <->
    forall x, In x D -> exists n v v', lookup x (g_names s) = Some n /\ lookup x en = Some v /\ lookup n en' = Some v' /\ vrel v v'.
  Proof.
    split.
    - revert s en en'. induction D as [|y D IH]; intros s en en' H x []; inversion H; subst; eauto 10.
    - induction D as [|y D IH]; intros H; [constructor|].
      destruct (H y (or_introl eq_refl)) as (n & v & v' & H1 & H2 & H3 & H4). econstructor; eauto.
      apply IH. intros x Hx. apply H. right; auto.
  Qed.
  Lemma erel_get s D en en' x : erel s D en en' -> In x D ->
    exists n v v', lookup x (g_names s) = Some n /\ lookup x en = Some v /\ lookup n en' = Some v' /\ vrel v v'.
  Proof. intros H. apply erel_in; auto. Qed.
  Lemma vrels_length l l' : vrels l l' -> length l = length l'.
  Proof. revert l'. induction l; intros l' H; inversion H; subst; simpl; auto. Qed.

  Lemma ext_good B s s' : ext B s s' -> (forall y, lookup y tys <> None -> lookup y (g_tvs s') = lookup y (g_tvs s)) -> good s -> good s'.
  Proof.
    intros X HT []. split.
    - eapply ext_below; eauto.
    - destruct X. rewrite e_ctors. auto.
    - intros y n cs Hy Hn. destruct X as [_ _ (L & EL & FL) _ EF _ ET _ _ _]. rewrite EF. rewrite ET in Hn.
      apply (gd_types y n cs); auto. rewrite EL in Hy. apply gd_known in Hn.
      clear - Hy Hn FL. induction L as [|[z m] L IH]; simpl in *; auto. inversion FL as [|? ? Hm FL']; subst.
      destruct (Nat.eqb_spec y z); [injection Hy as ->; simpl in Hm; lia|auto].
    - intros n cs Hn. destruct X. rewrite e_tyctors in Hn. apply gd_known in Hn. lia.
    - intros y Hy. rewrite HT; auto.
  Qed.
  Lemma gen_good_keep e s e' s' : gen_expr e s = Some (e', s') -> (forall y, lookup y tys <> None -> ~ In y (etvars e)) -> good s -> good s'.
  Proof.
    intros H HT HG. pose proof (@gen_expr_ext _ _ _ _ H) as X. eapply ext_good; eauto. intros y Hy.
    apply (@etvars_keep y e (HT y Hy) _ _ _ H).
  Qed.
  Lemma ext_erel B s s' D en en' : ext B s s' -> (forall x, In x D -> ~ In x B) -> erel s D en en' -> erel s' D en en'.
  Proof.
    intros X HD H. apply erel_in. intros x Hx. destruct (@erel_get _ _ _ _ x H ltac:(auto)) as (n & v & v' & H1 & H2 & H3 & H4).
    exists n, v, v'. rewrite (@ext_lookup _ _ _ _ X (HD x Hx)). auto.
  Qed.
  Lemma erel_names s s' D en en' : g_names s' = g_names s -> erel s D en en' -> erel s' D en en'.
  Proof. intros E H. apply erel_in. rewrite E. apply erel_in; auto. Qed.
  Lemma erel_incl s D D' en en' : (forall x, In x D' -> In x D) -> erel s D en en' -> erel s D' en en'.
  Proof. intros HI H. apply erel_in. intros x Hx. eapply erel_get; eauto. Qed.
  (** A value is added on both sides. *)
  Lemma erel_bind s D en en' x n v v' : erel s D en en' -> lookup x (g_names s) = Some n -> vrel v v' ->
    (forall y, In y D -> y <> x /\ lookup y (g_names s) <> Some n) -> erel s (x :: D) ((x, v) :: en) ((n, v') :: en').
  Proof.
    intros H Hx Hv HD. apply erel_in. intros y [<-|Hy].
    - exists n, v, v'. simpl. rewrite !Nat.eqb_refl. auto.
    - destruct (@erel_get _ _ _ _ y H ltac:(auto)) as (m & w & w' & H1 & H2 & H3 & H4). destruct (HD y Hy) as [Hne Hn].
      exists m, w, w'. simpl. destruct (Nat.eqb_spec y x); [congruence|]. destruct (Nat.eqb_spec m n); [subst; congruence|]. auto.
  Qed.
  (** A core value is added under a name that no symbol has. *)
  Lemma erel_core s D en en' n v' : erel s D en en' -> (forall y, In y D -> lookup y (g_names s) <> Some n) -> erel s D en ((n, v') :: en').
  Proof.
    intros H HD. apply erel_in. intros y Hy. destruct (@erel_get _ _ _ _ y H ltac:(auto)) as (m & w & w' & H1 & H2 & H3 & H4).
    exists m, w, w'. simpl. destruct (Nat.eqb_spec m n); [subst; exfalso; eapply HD; eauto|auto].
  Qed.
  Lemma good_below s D x n : below s -> lookup x (g_names s) = Some n -> In x D -> n < g_nn s.
  Proof. intros H E _. apply lookup_in in E. unfold below in H. rewrite Forall_forall in H. apply (H _ E). Qed.
  Lemma below_lookup s x n : below s -> lookup x (g_names s) = Some n -> n < g_nn s.
  Proof. intros H E. apply lookup_in in E. unfold below in H. rewrite Forall_forall in H. apply (H _ E). Qed.

  (** Pattern variables. *)
  Lemma erel_bind_all xs : forall s ns s1 D en en' fs fs', gmap gen_name xs s = Some (ns, s1) -> below s -> NoDup xs ->
    (forall x, In x D -> ~ In x xs) -> erel s D en en' -> vrels fs fs' -> length xs = length fs ->
    erel s1 (xs ++ D) (bind_all en xs fs) (add_all en' ns fs').
  Proof.
    induction xs as [|x xs IH]; intros s ns s1 D en en' fs fs' HG HB HN HD HE HV HL; simpl in HG.
    - gb. destruct fs; [|discriminate]. inversion HV; subst. exact HE.
    - apply gbind_some in HG as (n & s2 & E & HG). apply gen_name_eq in E as [-> E].
      apply gbind_some in HG as (ns' & s3 & E2 & HG). injection HG as <- <-.
      destruct fs as [|f fs]; [discriminate|]. inversion HV as [|? f' ? fs2 Hf HV']; subst. inversion HN as [|? ? Hx HN']; subst.
      set (s2 := up_names (up_nn s (S (g_nn s))) ((x, g_nn s) :: g_names s)) in *.
      assert (X : ext [x] s s2) by apply ext_gen_name.
      assert (XD : ~ In x D) by (intros Hc; apply (HD x Hc); left; auto).
      simpl. apply erel_incl with (D := xs ++ x :: D); [intros y; simpl; rewrite !in_app_iff; simpl; tauto|].
      eapply IH; eauto.
      + eapply ext_below; eauto.
      + intros y [<-|Hy]; auto. intros Hc. apply (HD y Hy). right; auto.
      + apply erel_bind; auto.
        * eapply ext_erel; eauto. intros y Hy [<-|[]]; auto.
        * simpl. rewrite Nat.eqb_refl. auto.
        * intros y Hy. split; [intros ->; auto|]. simpl. destruct (Nat.eqb_spec y x); [subst; tauto|].
          intros Hc. apply below_lookup in Hc; auto. lia.
  Qed.

  Lemma eval_name m en n : eval_o o m en (EName n) = match lookup n en with Some v => Ok v | None => Panic end.
  Proof. rewrite eval_unfold. reflexivity. Qed.
  Lemma eval_piapps m en ts : forall e, eval_o o m en (fold_left EPiApp ts e) = eval_o o m en e.
  Proof. induction ts as [|t ts IH]; simpl; intros e; auto. rewrite IH, eval_unfold. reflexivity. Qed.
  Lemma eval_pis m en vs e : eval_o o m en (abs_pi vs e) = eval_o o m en e.
  Proof. induction vs as [|v vs IH]; simpl; auto. rewrite eval_unfold. cbn [eval_eqn]. exact IH. Qed.

  Section Expr.
    Variable m : nat.
    Variable ap : sval -> sval -> res sval.
    Hypothesis Hap : forall f f' v v', vrel f f' -> vrel v v' -> rrel (ap f v) (call_o o m f' [v']).

    Definition sim (e : sexpr) : Prop := forall s e' s' D en en',
      gen_expr e s = Some (e', s') -> good s -> static s D e -> erel s D en en' ->
      rrel (seval o tys ap en e) (eval_o o m en' e').

    Lemma is_fun_rel v v' : vrel v v' -> is_fun v = match v' with VFn _ _ _ _ => true | _ => false end.
    Proof. intros H; inversion H; subst; auto. Qed.
    Lemma call_sim rf ra f a en' : rrel rf (eval_o o m en' f) -> rrel ra (eval_o o m en' a) ->
      rrel (call2 o ap rf ra) (eval_o o m en' (ECall f [a])).
    Proof.
      intros Hf Ha. rewrite eval_unfold. cbn [eval_eqn]. unfold call2. destruct o.
      - destruct rf as [fv|t| |], (eval_o FnFirst m en' f) as [fv'|t'| |] eqn:Ef; try contradiction; auto. cbn [bind].
        rewrite (is_fun_rel Hf). destruct fv' as [| | | |ce rc ps b]; try exact I.
        rewrite mapM_cons. destruct ra as [av|t| |], (eval_o FnFirst m en' a) as [av'|t'| |] eqn:Ea; try contradiction; auto.
        cbn [bind mapM]. apply Hap; auto.
      - rewrite mapM_cons. destruct ra as [av|t| |], (eval_o ArgsFirst m en' a) as [av'|t'| |] eqn:Ea; try contradiction; auto.
        cbn [bind mapM].
        destruct rf as [fv|t| |], (eval_o ArgsFirst m en' f) as [fv'|t'| |] eqn:Ef; try contradiction; auto. cbn [bind].
        apply Hap; auto.
    Qed.

    Lemma static_two D a b s1 s2 : NoDup (sbinders a ++ sbinders b) -> sscoped D a && sscoped D b = true ->
      (forall x, In x D -> ~ In x (sbinders a ++ sbinders b)) -> plain_folds a && plain_folds b = true ->
      (forall y, lookup y tys <> None -> ~ In y (etvars a ++ etvars b)) -> static s1 D a /\ static s2 D b.
    Proof.
      intros HN HS HD HP HT. apply andb_true_iff in HS as [S1 S2]. apply andb_true_iff in HP as [P1 P2].
      apply nodup_app3 in HN as (N1 & N2 & N3).
      split; (split; [auto|split; [auto|split; [|split; [auto|]]]]).
      - intros x Hx Hb. apply (HD x Hx). apply in_or_app; auto.
      - intros y Hy Hb. apply (HT y Hy). apply in_or_app; auto.
      - intros x Hx Hb. apply (HD x Hx). apply in_or_app; auto.
      - intros y Hy Hb. apply (HT y Hy). apply in_or_app; auto.
    Qed.
    (** Two expressions generated one after the other. *)
    Lemma sim_two a b s a' s1 b' s2 D en en' : sim a -> sim b -> gen_expr a s = Some (a', s1) -> gen_expr b s1 = Some (b', s2) ->
      good s -> static s D a -> static s1 D b -> (forall x, In x D -> ~ In x (sbinders a)) -> erel s D en en' ->
      rrel (seval o tys ap en a) (eval_o o m en' a') /\ rrel (seval o tys ap en b) (eval_o o m en' b').
    Proof.
      intros Ha Hb Ea Eb HG Sa Sb HD HE. split; [eapply Ha; eauto|].
      eapply Hb; eauto.
      - eapply gen_good_keep; eauto. apply Sa.
      - eapply ext_erel; [eapply gen_expr_ext; eauto|auto|auto].
    Qed.

    Definition sfind (en : senv) (c : sym) (fs : list sval) : list (sym * list sym * sexpr) -> res sval :=
      fix find (l : list (sym * list sym * sexpr)) : res sval :=
        match l with
        | [] => Panic
        | ((c', xs), b) :: r =>
          if Nat.eqb c' c
          then if length xs =? length fs then seval o tys ap (bind_all en xs fs) b else Panic
          else find r
        end.
    Lemma cases_sim folded c k fs fs' l : Forall (fun x => sim (snd x)) l -> lookup c K = Some k -> vrels fs fs' ->
      forall s brs s' D en en', gen_cases folded l s = Some (brs, s') -> good s ->
      forallb (fun c => sscoped (snd (fst c) ++ D) (snd c)) l = true ->
      NoDup (flat_map (fun c => snd (fst c) ++ sbinders (snd c)) l) ->
      (forall x, In x D -> ~ In x (flat_map (fun c => snd (fst c) ++ sbinders (snd c)) l)) ->
      forallb (fun c => plain_folds (snd c)) l = true ->
      (forall y, lookup y tys <> None -> ~ In y (flat_map (fun c => etvars (snd c)) l)) ->
      erel s D en en' ->
      rrel (sfind en c fs l)
           (match find_branch (tag folded k) brs with
            | Some (bs, b) => if length bs =? length fs' then eval_o o m (add_all en' bs fs') b else Panic
            | None => Panic
            end).
    Proof.
      intros HF Hk Hv. induction HF as [|[[c' xs] b] l Hb _ IH]; intros s brs s' D en en' HG HGd HS HN HD HP HT HE; simpl in HG.
      { gb. exact I. }
      fold (gen_cases folded) in HG. cbn [fst snd flat_map forallb] in *.
      apply gbind_some in HG as (ns & s1 & E1 & HG). apply gbind_some in HG as (b' & s2 & E2 & HG).
      apply gbind_some in HG as (k' & s2' & E3 & HG). apply gget_some in E3 as [E3 ->].
      apply gbind_some in HG as (rs & s3 & E4 & HG). injection HG as <- <-.
      apply andb_true_iff in HS as [HS1 HS2]. apply andb_true_iff in HP as [HP1 HP2].
      apply nodup_app3 in HN as (N1 & N2 & N3). apply nodup_app3 in N1 as (N4 & N5 & N6).
      pose proof (@gen_names_ok _ _ _ _ E1 N4) as (X1 & Z1 & W1 & I1).
      assert (TV1 : good s1).
      { eapply ext_good; eauto. intros y _. assert (KP : keepsp (fun s => lookup y (g_tvs s)) (gmap gen_name xs)) by kp. apply (KP _ _ _ E1). }
      assert (TV2 : good s2).
      { eapply gen_good_keep; eauto. intros y Hy Hb'. apply (HT y Hy). apply in_or_app; auto. }
      pose proof (@gen_expr_ext _ _ _ _ E2) as X2.
      assert (Hk' : lookup c' K = Some k') by (apply (gd_ctors TV2); auto).
      cbn [sfind find_branch].
      change (if folded then k_folded k' else k_regular k') with (tag folded k').
      destruct (Nat.eqb_spec (tag folded k') (tag folded k)) as [Et|Et].
      - destruct (@K_inj _ _ _ _ _ _ Hk' Hk Et) as [-> _]. rewrite Nat.eqb_refl, Z1, <- (vrels_length Hv).
        destruct (length xs =? length fs) eqn:EL; [|exact I]. apply Nat.eqb_eq in EL.
        eapply Hb; [exact E2|auto| |].
        + split; [exact HS1|split; [auto|split; [|split; [auto|]]]].
          * intros x Hx Hbx. apply in_app_or in Hx as [Hx|Hx]; [eapply N6; eauto|]. apply (HD x Hx). rewrite !in_app_iff. auto.
          * intros y Hy Hb'. apply (HT y Hy). apply in_or_app; auto.
        + eapply erel_bind_all; eauto; [apply HGd|]. intros x Hx Hc. apply (HD x Hx). rewrite !in_app_iff. auto.
      - destruct (Nat.eqb_spec c' c) as [->|_]; [exfalso; apply Et; congruence|]. fold (sfind en c fs).
        eapply IH; eauto.
        + intros x Hx Hc. apply (HD x Hx). apply in_or_app. auto.
        + intros y Hy Hc. apply (HT y Hy). apply in_or_app. auto.
        + eapply ext_erel; [exact X2| |eapply ext_erel; [exact X1| |exact HE]].
          * intros x Hx Hc. apply (HD x Hx). rewrite !in_app_iff. auto.
          * intros x Hx Hc. apply (HD x Hx). rewrite !in_app_iff. auto.
    Qed.

    (** Branches of a match on the other kind of values. *)
    Lemma branch_tags f f0 c k : lookup c K = Some k -> f0 <> f -> forall l s brs s', gen_cases f l s = Some (brs, s') -> good s ->
      (forall y, lookup y tys <> None -> ~ In y (flat_map (fun c => etvars (snd c)) l)) -> find_branch (tag f0 k) brs = None.
    Proof.
      intros Hk Hf. induction l as [|[[c' xs] b] l IH]; intros s brs s' HG HGd HT; simpl in HG; [gb; auto|].
      fold (gen_cases f) in HG. cbn [flat_map snd] in HT.
      apply gbind_some in HG as (ns & s1 & E1 & HG). apply gbind_some in HG as (b' & s2 & E2 & HG).
      apply gbind_some in HG as (k' & s2' & E3 & HG). apply gget_some in E3 as [E3 ->].
      apply gbind_some in HG as (rs & s3 & E4 & HG). injection HG as <- <-.
      assert (X : exts xs (gmap gen_name xs)) by (apply exts_map; intros; apply exts_name; auto).
      assert (TV1 : good s1).
      { eapply ext_good; [apply (X _ _ _ E1)| |auto]. intros y _.
        assert (KP : keepsp (fun s => lookup y (g_tvs s)) (gmap gen_name xs)) by kp. apply (KP _ _ _ E1). }
      assert (TV2 : good s2).
      { eapply gen_good_keep; eauto. intros y Hy Hb'. apply (HT y Hy). apply in_or_app; auto. }
      assert (Hk' : lookup c' K = Some k') by (apply (gd_ctors TV2); auto).
      cbn [find_branch]. change (if f then k_folded k' else k_regular k') with (tag f k').
      destruct (Nat.eqb_spec (tag f k') (tag f0 k)) as [Et|Et].
      - destruct (@K_inj _ _ _ _ _ _ Hk' Hk Et) as [_ ?]. congruence.
      - eapply IH; eauto. intros y Hy Hc. apply (HT y Hy). apply in_or_app; auto.
    Qed.

    Lemma sval_sim e : sim e.
    Proof.
      induction e using sexpr_ind'; try (match goal with |- sim (SStr ?q) => rename q into str end); intros s e' s' D en en' HG HGd (HS & HN & HD & HP & HT) HE;
        cbn [gen_expr sscoped sbinders plain_folds etvars seval] in *.
      - (* name *)
        gb. change (gmap gen_ty i) with (gmap (fun t => gget (fun s => gen_ty_in s t)) i) in *.
        match goal with H : gmap _ _ _ = Some _ |- _ => apply gmap_pure in H as [-> _] end.
        rewrite eval_piapps, eval_name. apply mem_In in HS.
        destruct (@erel_get _ _ _ _ x HE ltac:(auto)) as (n & v & v' & H1 & H2 & H3 & H4).
        match goal with H : lookup x (g_names s) = Some _ |- _ => rewrite H1 in H; injection H as <- end.
        rewrite H2, H3. exact H4.
      - (* apply *)
        apply gbind_some in HG as (a & s1 & E1 & HG). apply gbind_some in HG as (b & s2 & E2 & HG). injection HG as <- <-.
        destruct (@static_two _ _ _ s s1 HN HS HD HP HT) as [Sa Sb].
        edestruct (@sim_two e1 e2) as [R1 R2]; eauto; [apply Sa|]. apply call_sim; auto.
      - (* binary *)
        apply gbind_some in HG as (a & s1 & E1 & HG). apply gbind_some in HG as (b & s2 & E2 & HG). injection HG as <- <-.
        destruct (@static_two _ _ _ s s1 HN HS HD HP HT) as [Sa Sb].
        edestruct (@sim_two e1 e2) as [R1 R2]; eauto; [apply Sa|].
        rewrite eval_unfold. cbn [eval_eqn].
        destruct (seval o tys ap en e1) as [va| | |], (eval_o o m en' a) as [va'| | |]; try contradiction; auto. cbn [bind].
        inversion R1; subst; try exact I. cbn [as_int into_int bind].
        destruct (seval o tys ap en e2) as [vb| | |], (eval_o o m en' b) as [vb'| | |]; try contradiction; auto. cbn [bind].
        inversion R2; subst; try exact I. cbn [as_int into_int bind]. unfold arith.
        destruct o0; simpl; constructor.
      - (* pipe *)
        apply gbind_some in HG as (a & s1 & E1 & HG). apply gbind_some in HG as (b & s2 & E2 & HG). injection HG as <- <-.
        destruct (@static_two _ _ _ s s1 HN HS HD HP HT) as [Sa Sb].
        edestruct (@sim_two e1 e2) as [R1 R2]; eauto; [apply Sa|]. apply call_sim; auto.
      - (* let *)
        apply gbind_some in HG as (n & sx & E & HG). apply gen_name_eq in E as [-> Esx].
        apply gbind_some in HG as (u & si & Ei & HG). pose proof (@fresh_inst_ext _ _ _ _ Ei) as (Xi & Ni & Li).
        apply gbind_some in HG as (v' & s1 & E1 & HG).
        apply gbind_some in HG as (tvs & s1' & Et & HG).
        change (gmap tv_of vs) with (gmap (fun v => gget (fun s => lookup v (g_tvs s))) vs) in Et.
        apply gmap_pure in Et as [-> _].
        apply gbind_some in HG as (e'' & s2 & E2 & HG). injection HG as <- <-.
        apply andb_true_iff in HS as [HS1 HS2]. apply andb_true_iff in HP as [HP1 HP2]. inversion HN as [|? ? Hx HN']; subst.
        apply nodup_app3 in HN' as (N1 & N2 & N3). rewrite in_app_iff in Hx.
        pose proof (ext_gen_name x s) as X0. set (sx := up_names (up_nn s (S (g_nn s))) ((x, g_nn s) :: g_names s)) in *.
        assert (XD : ~ In x D) by (intros Hc; eapply HD; eauto; left; auto).
        assert (X0i : ext [x] s si) by (eapply ext_trans; [exact X0|eapply ext_incl; [|exact Xi]; inc]).
        assert (Gi : good si).
        { eapply ext_good; [exact X0i| |auto]. intros y Hy. transitivity (lookup y (g_tvs sx)); [|reflexivity].
          assert (Hv : ~ In y vs) by (intros Hc; apply (HT y Hy); apply in_or_app; auto). clear - Ei Hv.
          apply (@inst_keep y vs Hv _ _ _ Ei). }
        assert (Dx : forall y, In y D -> ~ In y [x]) by (intros y Hy [->|[]]; auto).
        assert (D1 : forall y, In y D -> ~ In y (sbinders e1)) by (intros y Hy Hb; eapply HD; eauto; right; apply in_or_app; auto).
        assert (T1 : forall y, lookup y tys <> None -> ~ In y (etvars e1)).
        { intros y Hy Hc. apply (HT y Hy). rewrite !in_app_iff. auto. }
        assert (T2 : forall y, lookup y tys <> None -> ~ In y (etvars e2)).
        { intros y Hy Hc. apply (HT y Hy). rewrite !in_app_iff. auto. }
        assert (Ei1 : erel si D en en') by (eapply ext_erel; eauto).
        pose proof (@gen_expr_ext _ _ _ _ E1) as X1.
        rewrite eval_unfold. cbn [eval_eqn]. rewrite eval_pis.
        assert (R1 : rrel (seval o tys ap en e1) (eval_o o m en' v')).
        { eapply IHe1; eauto. repeat (split; auto). }
        destruct (seval o tys ap en e1) as [w| | |], (eval_o o m en' v') as [w'| | |]; try contradiction; auto. cbn [bind].
        eapply (IHe2 s1 e'' s2 (x :: D)); [exact E2|eapply gen_good_keep; eauto| |].
        + split; [auto|split; [auto|split; [|split; auto]]]. intros y [<-|Hy] Hb; [tauto|]. eapply HD; eauto. right. apply in_or_app; auto.
        + apply erel_bind; auto.
          * eapply ext_erel; eauto.
          * rewrite (@ext_lookup _ _ _ _ X1) by tauto. rewrite Li. simpl. rewrite Nat.eqb_refl. auto.
          * intros y Hy. split; [intros ->; auto|]. rewrite (@ext_lookup _ _ _ _ X1) by auto. rewrite Li. simpl.
            destruct (Nat.eqb_spec y x); [subst; tauto|]. intros Hc. apply below_lookup in Hc; [lia|apply HGd].
      - (* match *)
        change (fix go (l : list (sym * list sym * sexpr)) : gen (list (name * list name * expr)) :=
                  match l with
                  | [] => gret []
                  | ((c, xs), b) :: r =>
                    ns <-- gmap gen_name xs ;; b' <-- gen_expr b ;;
                    k <-- gget (fun s => lookup c (g_ctors s)) ;;
                    brs <-- go r ;;
                    gret ((if f then k_folded k else k_regular k, ns, b') :: brs)
                  end) with (gen_cases f) in HG.
        apply gbind_some in HG as (d' & s1 & E1 & HG). apply gbind_some in HG as (brs & s2 & E2 & HG). injection HG as <- <-.
        apply andb_true_iff in HS as [HS1 HS2]. apply andb_true_iff in HP as [HP1 HP2]. apply nodup_app3 in HN as (N1 & N2 & N3).
        assert (D1 : forall y, In y D -> ~ In y (sbinders e)) by (intros y Hy Hb; eapply HD; eauto; apply in_or_app; auto).
        assert (T1 : forall y, lookup y tys <> None -> ~ In y (etvars e)).
        { intros y Hy Hc. apply (HT y Hy). rewrite !in_app_iff. auto. }
        assert (R1 : rrel (seval o tys ap en e) (eval_o o m en' d')) by (eapply IHe; eauto; repeat (split; auto)).
        rewrite eval_unfold. cbn [eval_eqn].
        destruct (seval o tys ap en e) as [dv| | |], (eval_o o m en' d') as [dv'| | |]; try contradiction; auto. cbn [bind].
        inversion R1 as [| | |f0 c k fs fs' Hk Hv| | | | | | | |]; subst; try exact I.
        destruct (Bool.eqb_spec f0 f) as [->|Hf].
        + eapply cases_sim; eauto.
          * eapply gen_good_keep; eauto.
          * intros y Hy Hb; eapply HD; eauto; apply in_or_app; auto.
          * intros y Hy Hc. apply (HT y Hy). rewrite !in_app_iff. auto.
          * eapply ext_erel; [eapply gen_expr_ext; eauto|auto|auto].
        + (* constructors of the other kind *)
          assert (FN : find_branch (tag f0 k) brs = None).
          { eapply branch_tags; eauto; [eapply gen_good_keep; eauto|]. intros y Hy Hc. apply (HT y Hy). rewrite !in_app_iff. auto. }
          rewrite FN. exact I.
      - (* if *)
        apply gbind_some in HG as (a & s1 & E1 & HG). apply gbind_some in HG as (b & s2 & E2 & HG).
        apply gbind_some in HG as (c & s3 & E3 & HG). injection HG as <- <-.
        apply andb_true_iff in HS as [HS HS3]. apply andb_true_iff in HP as [HP HP3].
        assert (HN2 := HN). rewrite app_assoc in HN2. apply nodup_app3 in HN2 as (N1 & N2 & N3).
        assert (HD2 : forall x, In x D -> ~ In x (sbinders e1 ++ sbinders e2)).
        { intros x Hx Hb. apply (HD x Hx). rewrite app_assoc. apply in_or_app. left. exact Hb. }
        assert (HT2 : forall y, lookup y tys <> None -> ~ In y (etvars e1 ++ etvars e2)).
        { intros x Hx Hb. apply (HT x Hx). rewrite app_assoc. apply in_or_app. left. exact Hb. }
        destruct (@static_two _ _ _ s s1 N1 HS HD2 HP HT2) as [Sa Sb].
        edestruct (@sim_two e1 e2) as [R1 R2]; eauto; [apply Sa|].
        pose proof (@gen_expr_ext _ _ _ _ E1) as X1. pose proof (@gen_expr_ext _ _ _ _ E2) as X2.
        assert (R3 : rrel (seval o tys ap en e3) (eval_o o m en' c)).
        { eapply (IHe3 s2 c s3 D); [exact E3| | |].
          - eapply gen_good_keep; [exact E2|apply Sb|]. eapply gen_good_keep; [exact E1|apply Sa|auto].
          - split; [auto|split; [auto|split; [|split; [auto|]]]].
            + intros x Hx Hb. apply (HD x Hx). rewrite !in_app_iff. auto.
            + intros x Hx Hb. apply (HT x Hx). rewrite !in_app_iff. auto.
          - eapply ext_erel; [exact X2|apply Sb|]. eapply ext_erel; [exact X1|apply Sa|auto]. }
        rewrite eval_unfold. cbn [eval_eqn].
        destruct (seval o tys ap en e1) as [w| | |], (eval_o o m en' a) as [w'| | |]; try contradiction; auto. cbn [bind].
        inversion R1; subst; try exact I. cbn [as_bool into_bool bind]. match goal with |- context [if ?b then _ else _] => destruct b end; auto.
      - gb. rewrite eval_unfold. constructor.
      - destruct (n <? W64)%N; gb. rewrite eval_unfold; constructor.
      - gb. rewrite eval_unfold. constructor.
      - (* fold *)
        apply andb_true_iff in HP as [HPt HP]. destruct t as [| | | |pt ot| | |]; try discriminate.
        inversion HN as [|? ? Hx HN']; subst.
        assert (XD : ~ In x D) by (intros Hc; eapply HD; eauto; left; auto).
        (* what the body is generated in *)
        assert (ST : forall s1, g_names s1 = (x, g_nn s) :: g_names s -> ext [x] s s1 ->
                  (forall y, lookup y (g_tvs s1) = lookup y (g_tvs s)) ->
                  good s1 /\ static s1 (x :: D) e /\ lookup x (g_names s1) = Some (g_nn s) /\ erel s1 D en en' /\
                  (forall y m, In y D -> lookup y (g_names s1) = Some m -> y <> x /\ m <> g_nn s /\ m <> S (g_nn s) /\ m <> S (S (g_nn s)))).
        { intros s1 En X ET. split; [eapply ext_good; eauto|]. split; [|split; [|split]].
          - split; [auto|split; [auto|split; [|split; auto]]]. intros y [<-|Hy] Hb; [auto|]. eapply HD; eauto. right; auto.
          - rewrite En. simpl. rewrite Nat.eqb_refl. auto.
          - eapply ext_erel; eauto. intros y Hy [<-|[]]; auto.
          - intros y k Hy Hk. rewrite En in Hk. simpl in Hk. destruct (Nat.eqb_spec y x); [subst; tauto|].
            apply below_lookup in Hk; [|apply HGd]. lia. }
        apply gbind_some in HG as (t' & st & Et & HG). unfold gen_ty in Et. apply gget_some in Et as [Et ->]. cbn [gen_ty_in] in Et.
        destruct (gen_ty_in s pt) as [pt'|] eqn:Ept; [|discriminate]. destruct (gen_ty_in s ot) as [ot'|] eqn:Eot; [|discriminate].
        injection Et as <-.
        assert (HG0 := HG).
        apply gbind_some in HG as (real & sx & E & HG). apply gen_name_eq in E as [-> ->].
        apply gbind_some in HG as (temp & sy & E & HG). injection E as <- <-.
        apply gbind_some in HG as (fold & sz & E & HG). injection E as <- <-.
        apply gbind_some in HG as (b' & s1 & E1 & HG). cbn [g_nn up_nn up_names] in HG.
        match type of E1 with gen_expr _ ?S = _ => set (sz := S) in * end.
        assert (Xz : ext [x] s sz).
        { eapply ext_trans; [apply ext_gen_name|]. eapply ext_incl; [|eapply ext_trans; apply ext_fresh_name]. inc. }
        destruct (ST sz eq_refl Xz (fun _ => eq_refl)) as (Gz & Sz & Lz & Ez & Dz).
        pose proof (@gen_expr_ext _ _ _ _ E1) as X1.
        (* a fold that does not look at its argument *)
        assert (KEEP : (forall n args, pt' <> TNamed n args) -> rrel (Ok (WFun en x e)) (eval_o o m en' e')).
        { intros Hn. destruct pt' as [| | | |n args| |]; try (exfalso; eapply Hn; reflexivity; fail);
            injection HG as <- <-; unfold fold_core; rewrite eval_unfold; cbn [eval_eqn strip_pis map fst];
            rewrite eval_name; simpl lookup; rewrite Nat.eqb_refl; simpl; eapply VR_keep; eauto. }
        (* a fold over a declared type *)
        assert (FOLD : forall y args n targs, pt = SNamed y args -> pt' = TNamed n targs -> lookup y (g_names s) = Some n ->
                  exists tbl, lookup y tys = Some tbl /\ rrel (Ok (WFold tbl en x e)) (eval_o o m en' e')).
        { intros y args n targs -> -> Hy. apply gbind_some in HG as (cs & s1' & Ec & HG). apply gget_some in Ec as [Ec ->].
          assert (Ec' : lookup n (g_tyctors s) = Some cs).
          { destruct X1, Xz. rewrite e_tyctors, e_tyctors0 in Ec. exact Ec. }
          destruct (gd_types HGd y Hy Ec') as [HTy HK].
          eexists. split; [exact HTy|].
          apply gbind_some in HG as (brs & s2 & Eb & HG). injection HG as <- <-.
          apply fold_branches_table in Eb; [|destruct X1; simpl in *; lia].
          assert (EF : g_fields s1 = g_fields sz) by (destruct X1; auto).
          replace (fold_table s1 cs) with (fold_table sz cs) in Eb by (unfold fold_table; rewrite EF; auto).
          unfold fold_core. rewrite eval_unfold. cbn [eval_eqn strip_pis map fst]. rewrite eval_name. simpl lookup. rewrite Nat.eqb_refl. simpl.
          change (g_fields s) with (g_fields sz).
          eapply VR_fold with (D := D) (s := sz) (fold := S (S (g_nn s))) (temp := S (g_nn s)) (real := g_nn s); eauto. }
        destruct pt as [| | |y args|a b| | |].
        + apply KEEP. intros n args Hc. subst. discriminate.
        + apply KEEP. intros n args Hc. subst. discriminate.
        + apply KEEP. intros n args Hc. subst. discriminate.
        + cbn [gen_ty_in] in Ept. destruct (lookup y (g_tvs s)) as [v|] eqn:Ev.
          * assert (HyN : lookup y tys = None).
            { destruct (lookup y tys) eqn:Q; auto. rewrite (gd_tvs HGd y) in Ev; [discriminate|congruence]. }
            rewrite HyN. apply KEEP. intros n args' ->. destruct args; discriminate.
          * destruct (lookup y (g_names s)) as [n|] eqn:Ey; [|discriminate].
            match type of Ept with match ?l with _ => _ end = _ => destruct l as [ts|] eqn:El; [|discriminate] end.
            injection Ept as <-. destruct (FOLD y args n ts eq_refl eq_refl Ey) as (tbl & -> & R). exact R.
        + apply KEEP. intros n args Hc. subst. cbn [gen_ty_in] in Ept.
          destruct (gen_ty_in s a), (gen_ty_in s b); discriminate.
        + discriminate.
        + apply KEEP. intros n args Hc. subst. discriminate.
        + discriminate.
      - (* lambda *)
        apply gbind_some in HG as (n & sx & E & HG). apply gen_name_eq in E as [-> ->].
        apply gbind_some in HG as (b' & s1 & E1 & HG).
        apply gbind_some in HG as (t' & s2 & Et & HG). injection HG as <- <-.
        pose proof (ext_gen_name x s) as X0. set (sx := up_names (up_nn s (S (g_nn s))) ((x, g_nn s) :: g_names s)) in *.
        inversion HN as [|? ? Hx HN']; subst.
        assert (XD : ~ In x D) by (intros Hc; eapply HD; eauto; left; auto).
        rewrite eval_unfold. cbn [eval_eqn map fst]. simpl. eapply VR_fun with (D := D) (s := sx); eauto.
        + eapply ext_good; [exact X0| |auto]. auto.
        + split; [auto|split; [auto|split; [|split; [auto|]]]].
          * intros y [<-|Hy] Hb; [auto|]. eapply HD; eauto. right; auto.
          * intros y Hy Hc. apply (HT y Hy). apply in_or_app; auto.
        + simpl. rewrite Nat.eqb_refl. auto.
        + intros y Hy. split; [intros ->; auto|]. simpl. destruct (Nat.eqb_spec y x); [subst; tauto|].
          intros Hc. apply below_lookup in Hc; [lia|apply HGd].
        + eapply ext_erel; eauto. intros y Hy [<-|[]]; auto.
      - (* paren *) eapply IHe; eauto. repeat (split; auto).
      - (* hole *) gb. rewrite eval_unfold. reflexivity.
    Qed.
  End Expr.
End Sim.
