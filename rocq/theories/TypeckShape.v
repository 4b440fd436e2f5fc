(** The annotated tree is the checked one; final types. *)
From Verif Require Export TypeckSpec TypeckSound.
From Verif Require Import GenFacts ChecksProofs.
Set Implicit Arguments.

Fixpoint ishape (e : rexpr) (i : iexpr) {struct e} : Prop :=
  match e, i with
  | RName x, INm y _ => x = y
  | RApply f a, IAp f' a' => ishape f f' /\ ishape a a'
  | RBinary a o b, IBin a' o' b' => o = o' /\ ishape a a' /\ ishape b b'
  | RPipe a f, IPipe a' f' => ishape a a' /\ ishape f f'
  | RLet x _ v e, ILt y v' e' => x = y /\ ishape v v' /\ ishape e e'
  | RMatch d cs, IMt _ d' cs' =>
    ishape d d' /\
    (fix go (l : list (sym * list sym * rexpr)) (l' : list (sym * list sym * iexpr)) : Prop :=
       match l, l' with
       | [], [] => True
       | (p, b) :: r, (p', b') :: r' => (p = p' /\ ishape b b') /\ go r r'
       | _, _ => False
       end) cs cs'
  | RIf a b c, IIf a' b' c' => ishape a a' /\ ishape b b' /\ ishape c c'
  | RBoolean b, IBo b' => b = b'
  | RNumber n, INu n' => n = n'
  | RStr s, ISt s' => s = s'
  | RLam f x b, IFo _ y b' => f = true /\ x = y /\ ishape b b'
  | RLam f x b, ILa y b' => f = false /\ x = y /\ ishape b b'
  | RParen e, IPa e' => ishape e e'
  | RHole t, IHo t' _ => t = t'
  | _, _ => False
  end.
Fixpoint sshape (e : rexpr) (i : sexpr) {struct e} : Prop :=
  match e, i with
  | RName x, SName y _ => x = y
  | RApply f a, SApply f' a' => sshape f f' /\ sshape a a'
  | RBinary a o b, SBinary a' o' b' => o = o' /\ sshape a a' /\ sshape b b'
  | RPipe a f, SPipe a' f' => sshape a a' /\ sshape f f'
  | RLet x _ v e, SLet y _ v' e' => x = y /\ sshape v v' /\ sshape e e'
  | RMatch d cs, SMatch _ d' cs' =>
    sshape d d' /\
    (fix go (l : list (sym * list sym * rexpr)) (l' : list (sym * list sym * sexpr)) : Prop :=
       match l, l' with
       | [], [] => True
       | (p, b) :: r, (p', b') :: r' => (p = p' /\ sshape b b') /\ go r r'
       | _, _ => False
       end) cs cs'
  | RIf a b c, SIf a' b' c' => sshape a a' /\ sshape b b' /\ sshape c c'
  | RBoolean b, SBoolean b' => b = b'
  | RNumber n, SNumber n' => n = n'
  | RStr s, SStr s' => s = s'
  | RLam f x b, SFold _ y b' => f = true /\ x = y /\ sshape b b'
  | RLam f x b, SLam y _ _ b' => f = false /\ x = y /\ sshape b b'
  | RParen e, SParen e' => sshape e e'
  | RHole t, SHole t' _ => t = t'
  | _, _ => False
  end.

Lemma cbind_inv A B (m : chk A) (f : A -> chk B) u b r u2 : cbind m f u = Done (b, r, u2) ->
  exists a r1 u1 r2, m u = Done (a, r1, u1) /\ f a u1 = Done (b, r2, u2).
Proof.
  unfold cbind, obind. destruct (m u) as [[[a r1] u1]| |]; try discriminate. destruct (f a u1) as [[[b' r2] u2']| |] eqn:E; try discriminate.
  intros H. injection H as -> _ ->. eauto 8.
Qed.
Ltac cbi := repeat match goal with
  | H : cbind _ _ _ = Done _ |- _ => apply cbind_inv in H as (? & ? & ? & ? & ? & H)
  | H : cret _ _ = Done _ |- _ => unfold cret in H; injection H as <- _ _
  end.
Lemma check_shape S_ C_ k : forall e i u ie r u', check S_ C_ k e i u = Done (ie, r, u') -> ishape e ie.
Proof.
  induction e using rexpr_ind'; intros i u ie r u' E; cbn [check] in E.
  - cbi. cbn. auto.
  - cbi. cbn. repeat split; eauto.
  - cbi. cbn. repeat split; eauto.
  - cbi. cbn. repeat split; eauto.
  - cbi. cbn. repeat split; eauto.
  - apply cbind_inv in E as (di & r1 & u1 & r2 & _ & E). apply cbind_inv in E as (d' & r3 & u3 & r4 & Ed & E).
    apply cbind_inv in E as (n & r5 & u5 & r6 & _ & E). destruct (match n with Some (TyFolded a b) => (a, b) | _ => (di, di) end) as [pr rec].
    apply cbind_inv in E as (cs' & r7 & u7 & r8 & Ec & E). unfold cret in E. injection E as <- _ _. cbn. split; eauto.
    clear Ed. revert cs' r7 u5 u7 Ec. induction H as [|[p b] cs Hb _ IH]; intros cs' r7 u5 u7 Ec.
    + unfold cret in Ec. injection Ec as <- _ _. auto.
    + destruct p as [c xs]. apply cbind_inv in Ec as (? & ? & ? & ? & _ & Ec). apply cbind_inv in Ec as (b' & ? & ? & ? & Eb & Ec).
      apply cbind_inv in Ec as (bs & ? & ? & ? & Er & Ec). unfold cret in Ec. injection Ec as <- _ _. cbn [snd] in Hb.
      split; [split; [reflexivity|eapply Hb; eassumption]|eapply IH; eassumption].
  - cbi. cbn. repeat split; eauto.
  - cbi. cbn. auto.
  - cbi. cbn. auto.
  - cbi. cbn. auto.
  - cbi. destruct f; cbn; repeat split; eauto.
  - cbi. cbn. repeat split; eauto.
  - cbi. cbn. auto.
Qed.

Lemma obind_inv A B (m : out A) (f : A -> out B) b : obind m f = Done b -> exists a, m = Done a /\ f a = Done b.
Proof. destruct m; cbn; try discriminate. eauto. Qed.
Ltac obi := repeat match goal with
  | H : obind _ _ = Done _ |- _ => apply obind_inv in H as (? & ? & H)
  | H : Done _ = Done _ |- _ => injection H as <-
  end.
Lemma annotate_shape D S_ k u : forall e ie s, ishape e ie -> annotate D S_ k u ie = Done s -> sshape e s.
Proof.
  induction e using rexpr_ind'; intros ie se I E; destruct ie; cbn [ishape] in I; try contradiction; cbn [annotate] in E.
  - obi. auto.
  - destruct I. obi. cbn. eauto.
  - destruct I as (? & ? & ?). obi. cbn. eauto.
  - destruct I. obi. cbn. eauto.
  - destruct I as (? & ? & ?). obi. cbn. eauto.
  - destruct I as [I1 I2]. apply obind_inv in E as (d' & Ed & E). apply obind_inv in E as (t & Et & E). apply obind_inv in E as (f & Ef & E).
    apply obind_inv in E as (cs' & Ec & E). injection E as <-. cbn. split; eauto. clear - H Ec I2. revert cases cs' Ec I2.
    induction H as [|[p b] cs Hb _ IH]; intros [|[p' b'] cases] cs' Ec I2; try contradiction.
    + injection Ec as <-. auto.
    + apply obind_inv in Ec as (b2 & E1 & Ec). apply obind_inv in Ec as (bs & E2 & Ec). injection Ec as <-.
      destruct I2 as [[-> I2] I3]. cbn [snd] in Hb. split; [split; [reflexivity|eapply Hb; eassumption]|eapply IH; eassumption].
  - destruct I as (? & ? & ?). obi. cbn. repeat split; eauto.
  - obi. auto.
  - obi. auto.
  - obi. auto.
  - destruct I as (? & ? & ?). obi. cbn. repeat split; eauto.
  - destruct I as (? & ? & ?). obi. cbn. repeat split; eauto.
  - obi. cbn. eauto.
  - obi. auto.
Qed.

(** ** Final types *)
Lemma to_ir_inv k : forall u i x t, to_ir k u i = Done x -> resolves u i t -> ir_of t = Some x.
Proof.
  induction k as [|k IH]; intros u i x t E R; [discriminate|]. cbn [to_ir] in E.
  apply obind_inv in E as (n & En & E). apply norm_spec in En as (j & Ej & Hj). destruct (final_spec _ _ _ Ej) as [_ Q]. apply Q in R.
  destruct n as [[]|]; inversion R; subst; rewrite Hj in *; try discriminate;
    repeat match goal with K : Some (STy _) = Some (STy _) |- _ => injection K as K; subst end;
    try (injection E as <-; reflexivity); try congruence.
  - apply obind_inv in E as (xa & Ea & E). cbn [ir_of]. rewrite (IH _ _ _ _ Ea ltac:(eassumption)). destruct xa; try discriminate.
    apply obind_inv in E as (xb & Eb & E). injection E as <-. rewrite (IH _ _ _ _ Eb ltac:(eassumption)). auto.
  - apply obind_inv in E as (xa & Ea & E). cbn [ir_of]. rewrite (IH _ _ _ _ Ea ltac:(eassumption)).
    apply obind_inv in E as (xb & Eb & E). injection E as <-. rewrite (IH _ _ _ _ Eb ltac:(eassumption)). auto.
  - apply obind_inv in E as (xa & Ea & E). cbn [ir_of]. rewrite (IH _ _ _ _ Ea ltac:(eassumption)).
    apply obind_inv in E as (xb & Eb & E). injection E as <-. rewrite (IH _ _ _ _ Eb ltac:(eassumption)). auto.
Qed.
Lemma data_snoc s ts b : TNode NApply (data s ts) b = data s (ts ++ [b]).
Proof. unfold data. rewrite fold_left_app. reflexivity. Qed.
Lemma ir_named t : forall s args, ir_of t = Some (IrNamed s args) -> exists ts, t = data s ts.
Proof.
  induction t as [v|l| |n a IHa b IHb]; intros s args E; cbn in E; try discriminate.
  - destruct l; try discriminate. injection E as -> <-. exists []. auto.
  - destruct n; cbn in E.
    + destruct (ir_of a) as [xa|]; try discriminate. destruct xa; try discriminate. destruct (ir_of b); try discriminate. injection E as -> <-.
      destruct (IHa _ _ eq_refl) as [ts ->]. exists (ts ++ [b]). apply data_snoc.
    + destruct (ir_of a), (ir_of b); discriminate.
    + destruct (ir_of a), (ir_of b); discriminate.
Qed.
Lemma ir_head t : forall x, ir_of t = Some x -> head_of t = match x with IrNamed s _ => Some s | _ => None end.
Proof.
  induction t as [v|l| |n a IHa b IHb]; intros x E; cbn in E; try (injection E as <-; auto).
  - destruct l; injection E as <-; auto.
  - destruct n; cbn [head_of].
    + destruct (ir_of a) as [xa|]; try discriminate. destruct xa; try discriminate. destruct (ir_of b); try discriminate. injection E as <-.
      rewrite (IHa _ eq_refl). auto.
    + destruct (ir_of a), (ir_of b); try discriminate. injection E as <-. auto.
    + destruct (ir_of a), (ir_of b); try discriminate. injection E as <-. auto.
Qed.
Lemma ir_names t : forall x v, ir_of t = Some x -> In v (term_names t) -> In v (tnames x).
Proof.
  induction t as [w|l| |n a IHa b IHb]; intros x v E H; cbn in H; try tauto.
  - destruct l; cbn in *; try tauto. injection E as <-. auto.
  - cbn in E. destruct n.
    + destruct (ir_of a) as [xa|]; try discriminate. destruct xa; try discriminate. destruct (ir_of b) as [xb|]; try discriminate. injection E as <-.
      cbn. apply in_app_or in H as [H|H].
      * apply (IHa _ v eq_refl) in H. cbn in H. destruct H; auto. right. rewrite flat_map_app. apply in_or_app. auto.
      * right. rewrite flat_map_app. apply in_or_app. right. cbn. rewrite app_nil_r. eauto.
    + destruct (ir_of a), (ir_of b); try discriminate. injection E as <-. cbn. apply in_or_app. apply in_app_or in H as [H|H]; eauto.
    + destruct (ir_of a), (ir_of b); try discriminate. injection E as <-. cbn. apply in_or_app. apply in_app_or in H as [H|H]; eauto.
Qed.
Lemma ir_error t : ir_of t = Some IrError -> t = TErr.
Proof.
  destruct t as [w|l| |n a b]; cbn; auto; try discriminate; [destruct l; discriminate|].
  destruct n; destruct (ir_of a) as [[]|]; try discriminate; destruct (ir_of b); discriminate.
Qed.
Lemma data_inj s s' ts ts' : data s ts = data s' ts' -> s = s' /\ ts = ts'.
Proof.
  revert ts'. induction ts as [|t ts IH] using rev_ind; intros ts'; destruct ts' as [|t' ts' _] using rev_ind.
  - intros E. injection E as ->. auto.
  - rewrite <- data_snoc. discriminate.
  - rewrite <- data_snoc. discriminate.
  - rewrite <- !data_snoc. intros E. injection E as E ->. apply IH in E as [-> ->]. auto.
Qed.

(** ** From the state of the checker to the typing rules *)
Section Annot.
  Variable D D' : defset.
  Variable l : list (sym * idx).
  Variable k : nat.
  Variable u : uni.
  Variable tl : list (sym * term).
  Variable C : sym -> option dctor.
  Variable T : sym -> bool.
  Notation S_ := (symbol_type D l).
  Hypothesis HD : forall y d, In (y, d) D' -> assoc y D = Some d.
  Hypothesis Hgood : good u.
  Hypothesis Htl : Forall2 (fun p q => fst p = fst q /\ resolves u (snd p) (snd q)) l tl.
  Hypothesis HC : forall c, ctor_def D c = C c.
  Hypothesis HT : forall s all, match_defs D s = Some (CtorList all) -> T s = true /\ forall c d, C c = Some d -> dc_type d = s -> In c all.

  Definition ctx (y : sym) : option sch :=
    match S_ y with
    | Some (NInfer _) => option_map Mono (assoc y tl)
    | Some (NInst ty vars) => Some (Poly vars ty)
    | None => None
    end.
  Lemma tl_assoc y i : assoc y l = Some i -> exists t, assoc y tl = Some t /\ resolves u i t.
  Proof.
    pose proof Htl as F. clear Htl. clear - F. induction F as [|[a b] [c d] l tl [E R] _ IH]; cbn in *; [discriminate|]. subst c. destruct (Nat.eqb a y); [|apply IH].
    intros H. injection H as <-. exists d. auto.
  Qed.
  Lemma infer_in y i : S_ y = Some (NInfer i) -> assoc y l = Some i.
  Proof.
    unfold symbol_type. destruct (assoc y D) as [[vars [ | | | | | | | ]|c fn|n cs]|]; try discriminate.
    destruct (assoc y l); [intros H; injection H as <-; auto|discriminate].
  Qed.
  Lemma mono_ctx x t : mono S_ u x t -> ctx x = Some (Mono t).
  Proof.
    intros (i & E & R). unfold ctx. rewrite E. destruct (tl_assoc _ (infer_in _ E)) as (t' & -> & R'). cbn. rewrite (resolves_fun R R'). auto.
  Qed.
  Lemma annot_has : forall e ie s t, ishape e ie -> incl (expr_defs e) D' -> expr_kinds_ok D e = true -> wt S_ (ctor_def D) u ie t ->
    annotate D S_ k u ie = Done s -> matches_ok D k u ie = Done true -> has ctx C T s t.
  Proof.
    induction e using rexpr_ind'; intros ie se T' I DI Q W E M; destruct ie; cbn [ishape] in I; try contradiction;
      cbn [annotate wt matches_ok expr_defs expr_kinds_ok] in *;
      repeat match type of Q with _ && _ = true => let Q1 := fresh "Q" in apply andb_true_iff in Q as [Q Q1] end.
    - obi. cbn [has]. unfold used in W. unfold ctx. destruct (S_ s0) as [[j|ty vars]|] eqn:Es; [| |contradiction].
      + destruct (tl_assoc _ (infer_in _ Es)) as (t' & -> & R'). cbn. eexists. split; [reflexivity|]. cbn. apply (resolves_fun W R').
      + destruct W as (ts & _ & L & ->). eexists. split; [reflexivity|]. cbn. eauto.
    - destruct I as [I1 I2]. destruct W as (ta & W1 & W2). obi. injection M as M. apply andb_true_iff in M as [-> ->].
      apply incl_app_inv in DI as [D1 D2]. cbn. exists ta. eauto.
    - destruct I as (-> & I1 & I2). destruct W as (W1 & W2 & ->). obi. injection M as M. apply andb_true_iff in M as [-> ->].
      apply incl_app_inv in DI as [D1 D2]. cbn. eauto.
    - destruct I as [I1 I2]. destruct W as (ta & W1 & W2). obi. injection M as M. apply andb_true_iff in M as [-> ->].
      apply incl_app_inv in DI as [D1 D2]. cbn. exists ta. eauto.
    - destruct I as (-> & I1 & I2). destruct W as (tx & Wb & W1 & W2). obi. injection M as M. apply andb_true_iff in M as [-> ->].
      apply incl_cons_inv in DI as [D0 D1]. apply incl_app_inv in D1 as [_ D2]. apply incl_app_inv in D2 as [D2 D3].
      assert (Ea := HD _ _ D0). cbn [has].
      assert (K : exists s, ctx s0 = Some s /\ own_vars s = def_vars D s0 /\ tx = generic s).
      { unfold bound in Wb. unfold ctx, def_vars. destruct (S_ s0) as [[j|ty vars]|] eqn:Es; [| |contradiction].
        - destruct (tl_assoc _ (infer_in _ Es)) as (t' & -> & R'). exists (Mono t'). split; auto. cbn. rewrite (resolves_fun Wb R'). split; auto.
          unfold symbol_type in Es. rewrite Ea in *. destruct n as [[vars ty]|]; cbn in *; auto. destruct ty; try discriminate.
        - exists (Poly vars ty). split; auto. split; auto. cbn. unfold symbol_type in Es. rewrite Ea in *. destruct n as [[vars' ty']|]; cbn in *.
          + destruct ty'; try (injection Es as <- <-; auto). destruct (assoc s0 l); discriminate.
          + destruct (assoc s0 l); discriminate. }
      destruct K as (s & Gs & Os & ->). exists s. split; [exact Gs|]. split; [auto|]. eauto.
    - destruct I as [I1 I2]. destruct W as (td & R & Wd & Wc). apply incl_app_inv in DI as [D1 D2].
      apply obind_inv in E as (d' & Ed & E). apply obind_inv in E as (t & Et & E). apply obind_inv in E as (f & Ef & E).
      apply obind_inv in E as (cs' & Ec & E). injection E as <-.
      apply obind_inv in M as (t2 & Et2 & M). rewrite Et in Et2. injection Et2 as <-. apply obind_inv in M as (m & Em & M).
      apply obind_inv in M as (m1 & Em1 & M). apply obind_inv in M as (m2 & Em2 & M). injection M as M.
      apply andb_true_iff in M as [M ->]. apply andb_true_iff in M as [-> ->].
      pose proof (@to_ir_inv k u _ _ _ Et R) as Ei.
      assert (Hm : check_match (match_defs D) (Some (mty_of t)) (map Some (map (fun c => fst (fst c)) cases)) = Some []).
      { rewrite map_map. destruct (check_match _ _ _) as [[|? ?]|]; try discriminate. auto. }
      assert (Nd : map (fun c : sym * list sym * iexpr => fst (fst c)) cases = map (fun c : sym * list sym * sexpr => fst (fst c)) cs').
      { clear - Ec. revert cs' Ec. induction cases as [|[p b] cases IH]; intros cs' Ec; [injection Ec as <-; auto|].
        apply obind_inv in Ec as (b' & _ & Ec). apply obind_inv in Ec as (bs & Eb & Ec). injection Ec as <-. cbn. f_equal. auto. }
      assert (K : exists s ts rec, td = (if f then TNode NFolded (data s ts) rec else data s ts) /\ (f = false -> rec = data s ts) /\
        matches_on (mty_of t) s).
      { destruct t as [| | |s args|? ?| | |xa xr]; try discriminate; injection Ef as <-.
        - destruct (ir_named _ Ei) as [ts ->]. exists s, ts, (data s ts). split; auto. split; auto. left. auto.
        - destruct td as [v|lf| |nd a r]; cbn in Ei; try discriminate; [destruct lf; discriminate|].
          destruct nd; cbn in Ei; destruct (ir_of a) as [ya|] eqn:Ea; try discriminate; try (destruct ya; try discriminate; destruct (ir_of r); discriminate);
            destruct (ir_of r) eqn:Er; try discriminate. injection Ei as -> ->.
          destruct xa as [| | |s args|? ?| | |? ?]; cbn in Hm; try discriminate.
          + destruct (ir_named _ Ea) as [ts ->]. exists s, ts, r. split; auto. split; [discriminate|]. right. auto.
          + apply ir_error in Ea. subst a. destruct Hgood as [_ EF]. destruct (EF _ _ R) as [[] _]. }
      destruct K as (s & ts & rec & -> & Hr & Hon).
      assert (Ds : exists all, match_defs D s = Some (CtorList all)).
      { unfold check_match in Hm. assert (Es : match_symbol (mty_of t) = inl s) by (destruct Hon as [-> | ->]; auto). rewrite Es in Hm.
        destruct (match_defs D s) as [[all|]|]; try discriminate. eauto. }
      destruct Ds as [all Ds]. destruct (HT _ Ds) as [Ts Hall]. cbn [has]. exists s, ts, rec. split; auto. split; [eauto|]. split; auto. split.
      + intros c d Hc Hd. rewrite <- Nd. pose proof (@check_match_clean _ _ _ _ _ Hon Ds Hm c (Hall _ _ Hc Hd)) as H1.
        apply (count_occ_In Nat.eq_dec). lia.
      + clear Nd Hm Em Em1 Ed I1 D1 Wd. revert cases cs' Ec Em2 Wc I2.
        match goal with K : Forall _ cs |- _ => induction K as [|[p b] cs Hb _ IHc] end; intros [|[p' b'] cases] cs' Ec Em2 Wc I2; try contradiction.
        * injection Ec as <-. auto.
        * apply obind_inv in Ec as (b2 & E1 & Ec). apply obind_inv in Ec as (bs & E2 & Ec). injection Ec as <-.
          apply obind_inv in Em2 as (x1 & M1 & Em2). apply obind_inv in Em2 as (x2 & M2 & Em2). injection Em2 as Em2.
          apply andb_true_iff in Em2 as [-> ->]. destruct I2 as [[<- I2] I3]. destruct Wc as [[Wp Wb] Wc]. cbn [snd fst flat_map forallb] in *.
          apply andb_true_iff in Q0 as [Q1 Q2]. apply incl_app_inv in D2 as [D2 D3]. apply incl_app_inv in D2 as [D4 D5].
          split; [split|].
          -- destruct Wp as (d & ts' & rec' & Ec' & Lt & O & Fp). rewrite HC in Ec'.
             assert (Z : dc_type d = s /\ ts' = ts /\ rec' = rec).
             { destruct O as [[O ->]|O]; destruct f.
               - symmetry in O. exfalso. clear - O. revert O. generalize (dc_type d). intros s'. destruct ts' as [|? ? _] using rev_ind; [discriminate|].
                 rewrite <- data_snoc. discriminate.
               - symmetry in O. apply data_inj in O as [-> ->]. rewrite Hr; auto.
               - injection O as O ->. symmetry in O. apply data_inj in O as [-> ->]. auto.
               - exfalso. clear - O. destruct ts as [|? ? _] using rev_ind; [discriminate|]. rewrite <- data_snoc in O. discriminate. }
             destruct Z as (Z & -> & ->). exists d. split; auto. split; auto. split; auto.
             clear - Fp Hgood Htl. induction Fp; constructor; auto. apply mono_ctx; auto.
          -- eapply Hb; eauto.
          -- eapply IHc; eauto.
    - destruct I as (I1 & I2 & I3). destruct W as (W1 & W2 & W3). obi. injection M as M. apply andb_true_iff in M as [M ->]. apply andb_true_iff in M as [-> ->].
      apply incl_app_inv in DI as [D1 D2]. apply incl_app_inv in D2 as [D2 D3]. cbn. repeat split; eauto.
    - obi. cbn. auto.
    - obi. cbn. auto.
    - obi. cbn. auto.
    - destruct I as (-> & -> & I). destruct W as (a & r & -> & R & Mx & W). obi. apply incl_cons_inv in DI as [D0 D1].
      cbn [has]. exists a, r. split; auto. split; [apply mono_ctx; auto|]. split; [|eauto].
      match goal with K : final k u _ = Done _ |- _ => pose proof (@to_ir_inv k u _ _ _ K R) as Ei end. cbn [ir_of] in Ei.
      destruct (ir_of a) as [xa|] eqn:Ea; try discriminate. destruct (ir_of r); try discriminate. injection Ei as <-. cbn [sty_of].
      rewrite (ir_head _ Ea). destruct xa; auto.
    - destruct I as (-> & -> & I). destruct W as (a & r & -> & Mx & W). obi. apply incl_cons_inv in DI as [D0 D1].
      cbn [has]. exists a, r. split; auto. split; [apply mono_ctx; auto|eauto].
    - obi. cbn. eauto.
    - obi. cbn. auto.
  Qed.
End Annot.
