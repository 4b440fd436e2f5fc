(** The resolver makes distinct symbols, refers only to names in scope, and records what is in its tree. *)
From Coq Require Import Permutation.
From Verif Require Import VerifyState.
From Verif Require Import TypeckSpec TypeckProg Resolve ResolveFacts Typeck.
Set Implicit Arguments.

Section Proofs.
  Variable sy : nat -> sym.
  Notation step := (step sy local).
  Ltac rdef := match goal with H : record_def _ _ = (_, _) |- _ => unfold record_def in H; injection H as <- <- end.

  Lemma resolve_ann_ok ann c s a c' s' : resolve_ann sy ann c s = (a, c', s') ->
    exists ds, step c s s' ds (ann_vars a) /\ ext c ds c' /\ sc_values c' = sc_values c /\ sc_ctors c' = sc_ctors c /\
      match a with Some (vars, t) => names_in (vars ++ map snd (sc_types c)) t /\ t <> IrInfer | None => True end.
  Proof.
    destruct ann as [t|]; cbn [resolve_ann]; intros E.
    - apply rbind_inv in E as ([[t' c1] vars] & s1 & Et & E). unfold rret in E. injection E as <- <- <-.
      apply resolve_type_vars_ok in Et as (ds & new & Ev & A & B & C & D & F & G & I). cbn in Ev. subst vars. exists ds. repeat (split; auto).
      intros x Hx. apply G in Hx. rewrite F in Hx. apply in_app_iff in Hx. apply in_app_iff. rewrite <- in_rev in Hx. auto.
    - unfold rret in E. injection E as <- <- <-. exists []. split; [apply step_nil|]. split; [apply ext_refl|]. auto.
  Qed.
  Lemma resolve_vars_ok : forall xs c s l c' s', resolve_vars sy xs c s = (l, c', s') ->
    exists ds, step c s s' ds (map (fun x => (x, DValue [] IrInfer)) l) /\ ext c ds c' /\ length l = length xs /\
      map snd (sc_values c') = rev l ++ map snd (sc_values c) /\ sc_ctors c' = sc_ctors c.
  Proof.
    induction xs as [|x xs IH]; intros c s l c' s' E; cbn [resolve_vars] in E.
    - unfold rret in E. injection E as <- <- <-. exists []. split; [apply step_nil|]. split; [apply ext_refl|]. auto.
    - apply rbind_inv in E as (y & s1 & Ef & E). apply rbind_inv in E as (u & s2 & Ed & E). rdef. apply rbind_inv in E as ([l' c1] & s3 & Er & E).
      unfold rret in E. injection E as <- <- <-. destruct (IH _ _ _ _ _ Er) as (ds & A & B & L & C & D).
      pose proof (@step_def sy local c s (DValue [] IrInfer) Local x _ _ Ef eq_refl) as S0. pose proof (@ext_value c (mkRdef y (DValue [] IrInfer) Local x)) as X0. cbn [d_name d_sym] in X0.
      eexists (_ :: _). split; [exact (step_trans S0 X0 A)|]. split; [exact (ext_trans X0 B)|]. split; [cbn; auto|]. split; auto.
      rewrite C. cbn. rewrite <- app_assoc. auto.
  Qed.

  Section XexprInd.
    Variable P : xexpr -> Prop.
    Hypotheses (H1 : forall n, P (XName n)) (H2 : forall a b, P a -> P b -> P (XApply a b)) (H3 : forall a o b, P a -> P b -> P (XBinary a o b))
      (H4 : forall a b, P a -> P b -> P (XPipe a b)) (H5 : forall n a v e, P v -> P e -> P (XLet n a v e))
      (H6 : forall d cs, P d -> Forall (fun c => P (snd c)) cs -> P (XMatch d cs)) (H7 : forall a b c, P a -> P b -> P c -> P (XIf a b c))
      (H8 : forall b, P (XBoolean b)) (H9 : forall n, P (XNumber n)) (H10 : forall tx, P (XStr tx)) (H11 : forall f n b, P b -> P (XLam f n b))
      (H12 : forall e, P e -> P (XParens e)) (H13 : forall tx, P (XHole tx)).
    Fixpoint xexpr_ind' (e : xexpr) : P e :=
      match e with
      | XName n => H1 n | XApply a b => H2 (xexpr_ind' a) (xexpr_ind' b) | XBinary a o b => H3 o (xexpr_ind' a) (xexpr_ind' b)
      | XPipe a b => H4 (xexpr_ind' a) (xexpr_ind' b) | XLet n a v e => H5 n a (xexpr_ind' v) (xexpr_ind' e)
      | XMatch d cs => H6 (xexpr_ind' d) ((fix go l : Forall (fun c => P (snd c)) l := match l with [] => Forall_nil _ | c :: r => Forall_cons c (xexpr_ind' (snd c)) (go r) end) cs)
      | XIf a b c => H7 (xexpr_ind' a) (xexpr_ind' b) (xexpr_ind' c)
      | XBoolean b => H8 b | XNumber n => H9 n | XStr s => H10 s | XLam f n b => H11 f n (xexpr_ind' b) | XParens e => H12 (xexpr_ind' e) | XHole t => H13 t
      end.
  End XexprInd.

  Lemma resolve_expr_ok : forall e c s r s', resolve_expr sy e c s = (r, s') -> exists ds, step c s s' ds (expr_defs r).
  Proof.
    induction e using xexpr_ind'; intros c s r s' E; cbn [resolve_expr] in E.
    - destruct (lookup_text _ _) as [x|] eqn:El; rb; exists []; [eapply step_ref; eauto; apply values_entry; auto|apply step_error].
    - rb. destruct (IHe1 _ _ _ _ H) as (d1 & A), (IHe2 _ _ _ _ H0) as (d2 & B). exists (d1 ++ d2). exact (step_trans A (ext_refl _ _) B).
    - rb. destruct (IHe1 _ _ _ _ H) as (d1 & A), (IHe2 _ _ _ _ H0) as (d2 & B). exists (d1 ++ d2). exact (step_trans A (ext_refl _ _) B).
    - rb. destruct (IHe1 _ _ _ _ H) as (d1 & A), (IHe2 _ _ _ _ H0) as (d2 & B). exists (d1 ++ d2). exact (step_trans A (ext_refl _ _) B).
    - apply rbind_inv in E as ([a' c1] & s1 & Ea & E). apply rbind_inv in E as (v' & s2 & Ev & E). apply rbind_inv in E as (x & s3 & Ef & E).
      apply rbind_inv in E as (u & s4 & Ed & E). rdef. apply rbind_inv in E as (e' & s5 & Ee & E). rb. cbn [fst snd] in *.
      apply resolve_ann_ok in Ea as (d1 & A & XA & _). destruct (IHe1 _ _ _ _ Ev) as (d2 & B).
      pose proof (@step_def sy local c _ (ann_def a') Local n _ _ Ef eq_refl) as S0. pose proof (@ext_value c (mkRdef x (ann_def a') Local n)) as X0. cbn [d_name d_sym] in X0.
      destruct (IHe2 _ _ _ _ Ee) as (d3 & C). eexists. cbn [expr_defs].
      eapply step_perm; [|exact (step_trans (step_trans A XA B) (ext_refl _ _) (step_trans S0 X0 C))].
      cbn. rewrite app_assoc. rewrite <- Permutation_middle. auto.
    - apply rbind_inv in E as (d' & s1 & Ed & E). apply rbind_inv in E as (cs' & s2 & Ec & E). rb. destruct (IHe _ _ _ _ Ed) as (d1 & A). cbn [expr_defs].
      cut (exists d2, step c s1 s2 d2 (flat_map (fun c => map (fun x => (x, DValue [] IrInfer)) (snd (fst c)) ++ expr_defs (snd c)) cs')).
      { intros (d2 & B). eexists. exact (step_trans A (ext_refl _ _) B). }
      clear - H Ec. revert s1 cs' s2 Ec. induction H as [|[[n xs] b] cs Hb _ IH]; intros s1 cs' s2 Ec.
      + rb. exists []. apply step_nil.
      + apply rbind_inv in Ec as (k & s3 & Ek & Ec). apply rbind_inv in Ec as ([vs c1] & s4 & Ev & Ec). apply rbind_inv in Ec as (b' & s5 & Eb & Ec).
        apply rbind_inv in Ec as (r' & s6 & Er & Ec). rb. cbn [fst snd] in *. apply resolve_vars_ok in Ev as (d1 & A & X & _).
        destruct (Hb _ _ _ _ Eb) as (d2 & B). destruct (IH _ _ _ Er) as (d3 & C). assert (K : step c s1 s3 [] []).
        { unfold resolve_ctor in Ek. destruct (lookup_text _ _) eqn:El; rb; [eapply step_ref; eauto; apply ctors_entry; auto|apply step_error]. }
        pose proof (step_trans K (ext_refl _ _) (step_trans (step_trans A X B) (ext_refl _ _) C)) as Q. eexists. destruct k as [x|]; [exact Q|].
        eapply step_drop; [exact Q| |].
        * apply not_true_is_false. intros O. apply (sp_ok C) in O as [O _]. apply (sp_ok B) in O as [O _]. apply (sp_ok A) in O as [O _].
          unfold resolve_ctor in Ek. destruct (lookup_text _ _) eqn:El; rb; [unfold rret in *; congruence|]. unfold rret in *. match goal with Q : (None, _) = (None, _) |- _ => injection Q as <- end. discriminate.
        * eapply made_wide; [| |exact (sp_tree C)]; auto. pose proof (sp_next K). pose proof (sp_next A). pose proof (sp_next B). lia.
    - rb. destruct (IHe1 _ _ _ _ H) as (d1 & A), (IHe2 _ _ _ _ H0) as (d2 & B), (IHe3 _ _ _ _ H1) as (d3 & C).
      exists (d1 ++ d2 ++ d3). exact (step_trans A (ext_refl _ _) (step_trans B (ext_refl _ _) C)).
    - rb. exists []. apply step_nil.
    - rb. exists []. apply step_nil.
    - rb. exists []. apply step_nil.
    - apply rbind_inv in E as (x & s3 & Ef & E). apply rbind_inv in E as (u & s4 & Ed & E). rdef. apply rbind_inv in E as (e' & s5 & Ee & E). rb.
      pose proof (@step_def sy local c s (DValue [] IrInfer) Local n _ _ Ef eq_refl) as S0. pose proof (@ext_value c (mkRdef x (DValue [] IrInfer) Local n)) as X0. cbn [d_name d_sym] in X0.
      destruct (IHe _ _ _ _ Ee) as (d3 & C). eexists. exact (step_trans S0 X0 C).
    - rb. destruct (IHe _ _ _ _ H) as (d1 & A). eauto.
    - rb. exists []. apply step_nil.
  Qed.

  (** ** Scoping *)
  Definition scope_in (K B : list sym) (c : scope) : Prop := incl (map snd (sc_values c)) B /\ incl (map snd (sc_ctors c)) K.
  Lemma lookup_snd l t x : lookup_text l t = Some x -> In x (map snd l).
  Proof. intros E. apply lookup_text_in in E. apply in_map_iff. exists (t, x). auto. Qed.
  Lemma scope_value K B c t x : scope_in K B c -> scope_in K (x :: B) (add_value t x c).
  Proof. intros [A C]. split; auto. cbn. intros y [<-|Hy]; [left; auto|right; auto]. Qed.
  Lemma resolve_expr_scoped : forall e c s r s' K B, resolve_expr sy e c s = (r, s') -> scope_in K B c -> rscoped K B r = true.
  Proof.
    induction e using xexpr_ind'; intros c s r s' K B E HS; cbn [resolve_expr] in E.
    - destruct (lookup_text _ _) as [x|] eqn:El; rb; auto. cbn. apply mem_In. apply HS. eapply lookup_snd; eauto.
    - rb. cbn. rewrite (IHe1 _ _ _ _ K B H), (IHe2 _ _ _ _ K B H0); auto.
    - rb. cbn. rewrite (IHe1 _ _ _ _ K B H), (IHe2 _ _ _ _ K B H0); auto.
    - rb. cbn. rewrite (IHe1 _ _ _ _ K B H), (IHe2 _ _ _ _ K B H0); auto.
    - apply rbind_inv in E as ([a' c1] & s1 & Ea & E). apply rbind_inv in E as (v' & s2 & Ev & E). apply rbind_inv in E as (x & s3 & Ef & E).
      apply rbind_inv in E as (u & s4 & Ed & E). rdef. apply rbind_inv in E as (e' & s5 & Ee & E). rb. cbn [fst snd] in *.
      apply resolve_ann_ok in Ea as (d1 & _ & _ & V & C & _). cbn. rewrite (IHe1 _ _ _ _ K B Ev).
      + cbn. eapply IHe2; eauto. apply scope_value. auto.
      + destruct HS. split; rewrite ?V, ?C; auto.
    - apply rbind_inv in E as (d' & s1 & Ed & E). apply rbind_inv in E as (cs' & s2 & Ec & E). rb. cbn. rewrite (IHe _ _ _ _ K B Ed); auto. cbn.
      clear - H Ec HS. revert s1 cs' s2 Ec. induction H as [|[[n xs] b] cs Hb _ IH]; intros s1 cs' s2 Ec.
      + rb. auto.
      + apply rbind_inv in Ec as (k & s3 & Ek & Ec). apply rbind_inv in Ec as ([vs c1] & s4 & Ev & Ec). apply rbind_inv in Ec as (b' & s5 & Eb & Ec).
        apply rbind_inv in Ec as (r' & s6 & Er & Ec). rb. cbn [fst snd] in *. apply resolve_vars_ok in Ev as (d1 & _ & _ & _ & V & C).
        destruct k as [x|]; [|eauto]. cbn [forallb fst snd]. rewrite (IH _ _ _ Er), andb_true_r. apply andb_true_iff. split.
        * apply mem_In. apply HS. unfold resolve_ctor in Ek. destruct (lookup_text _ _) eqn:El; rb; unfold rret in *; [|discriminate].
          match goal with Q : (Some _, _) = (Some _, _) |- _ => injection Q as <- _ | _ => idtac end. eapply lookup_snd; eauto.
        * eapply Hb; eauto. destruct HS. split; [rewrite V|rewrite C; auto]. intros y Hy. apply in_app_iff in Hy. rewrite <- in_rev in Hy. apply in_app_iff. destruct Hy; auto.
    - rb. cbn. rewrite (IHe1 _ _ _ _ K B H), (IHe2 _ _ _ _ K B H0), (IHe3 _ _ _ _ K B H1); auto.
    - rb. auto.
    - rb. auto.
    - rb. auto.
    - apply rbind_inv in E as (x & s3 & Ef & E). apply rbind_inv in E as (u & s4 & Ed & E). rdef. apply rbind_inv in E as (e' & s5 & Ee & E). rb.
      cbn. eapply IHe; eauto. apply scope_value. auto.
    - rb. cbn. eauto.
    - rb. auto.
  Qed.

  (** ** Items *)
  Lemma resolve_params_ok : forall ps c s l c' s', resolve_params sy ps c s = (l, c', s') ->
    exists ds, step c s s' ds (map (fun p => (p, type_var)) l) /\ ext c ds c' /\ length l = length ps /\
      map snd (sc_types c') = rev l ++ map snd (sc_types c).
  Proof.
    induction ps as [|x xs IH]; intros c s l c' s' E; cbn [resolve_params] in E.
    - unfold rret in E. injection E as <- <- <-. exists []. split; [apply step_nil|]. split; [apply ext_refl|]. auto.
    - apply rbind_inv in E as (y & s1 & Ef & E). apply rbind_inv in E as (u & s2 & Ed & E). rdef. apply rbind_inv in E as ([l' c1] & s3 & Er & E).
      unfold rret in E. injection E as <- <- <-. destruct (IH _ _ _ _ _ Er) as (ds & A & B & L & C).
      pose proof (@step_def sy local c s type_var Local x _ _ Ef eq_refl) as S0. pose proof (@ext_type c (mkRdef y type_var Local x)) as X0. cbn [d_name d_sym] in X0.
      eexists (_ :: _). split; [exact (step_trans S0 X0 A)|]. split; [exact (ext_trans X0 B)|]. split; [cbn; auto|].
      rewrite C. cbn. rewrite <- app_assoc. auto.
  Qed.
  Lemma resolve_fields_ok c : forall fs s l s', resolve_fields c fs s = (l, s') ->
    step c s s' [] [] /\ (forall t, In (Some t) l -> in_types c t).
  Proof.
    induction fs as [|[t|] fs IH]; intros s l s' E; cbn [resolve_fields] in E.
    - rb. split; [apply step_nil|intros t []].
    - rb. apply resolve_type_ok with (sy := sy) in H as (A & N & _). destruct (IH _ _ _ H0) as (B & M). split; [exact (step_trans A (ext_refl _ _) B)|].
      intros t' [Q|Q]; [injection Q as <-|]; auto.
    - rb. destruct (IH _ _ _ H) as (B & M). split; auto. intros t' [Q|Q]; [discriminate|auto].
  Qed.
  Notation step' P := (ResolveFacts.step sy P).
  Notation anyd := (fun _ : rdef => True).
  Lemma any_of c s s' ds T : step c s s' ds T -> step' anyd c s s' ds T. Proof. apply step_weak. auto. Qed.
  Definition case_def (v : vis) (l : list (sym * list (option irty))) (d : rdef) : Prop :=
    d_vis d = v /\ In (d_sym d) (map fst l) /\ match d_kind d with DCtor _ _ => True | _ => False end.
  Lemma resolve_cases_ok v ty ps c : forall cs seen s l s', resolve_cases sy v ty ps c seen cs s = (l, s') ->
    exists ds, step' anyd c s s' ds (map (fun p => (fst p, DCtor (mkDctor ty ps (snd p)) (ctor_fn_ty ty ps (snd p)))) l) /\
      (forall k fs t, In (k, fs) l -> In (Some t) fs -> in_types c t) /\ Forall (case_def v l) ds.
  Proof.
    induction cs as [|[n fs] cs IH]; intros seen s l s' E; cbn [resolve_cases] in E.
    - rb. exists []. split; [apply step_nil|]. split; [intros k fs t []|]. auto.
    - apply rbind_inv in E as (fs' & s1 & Ef & E). apply resolve_fields_ok in Ef as (A & N). apply any_of in A. destruct (existsb _ seen).
      + rb. destruct (IH _ _ _ _ E) as (ds & B & M & W). exists ds. split; [|auto]. exact (step_trans A (ext_refl _ _) (step_trans (step_error sy _ c s1) (ext_refl _ _) B)).
      + apply rbind_inv in E as (x & s3 & Ex & E). apply rbind_inv in E as (u & s4 & Ed & E). rdef. apply rbind_inv in E as (r' & s5 & Er & E). rb.
        destruct (IH _ _ _ _ Er) as (ds & B & M & W). pose proof (@step_def sy anyd c _ (DCtor (mkDctor ty ps fs') (ctor_fn_ty ty ps fs')) v n _ _ Ex Logic.I) as S0.
        eexists (_ :: _). split; [exact (step_trans A (ext_refl _ _) (step_trans S0 (ext_refl _ _) B))|]. split.
        * intros k f t [K|K]; [injection K as <- <-|]; eauto.
        * constructor; [split; [|split]; cbn; auto|]. eapply Forall_impl; [|exact W]. intros d (W1 & W2 & W3). split; [|split]; cbn; auto.
  Qed.
  (** What later items see of an item. *)
  Definition seen_as (r : ritem) (d : rdef) : Prop :=
    d_vis d = Local \/
    match d_kind d with
    | DValue _ _ => In (d_sym d) (rvalues r)
    | DCtor _ _ => In (d_sym d) (rctors [r]) /\ In (d_sym d) (rvalues r)
    | DType _ _ => In (d_sym d) (rtypes [r])
    end.
  Lemma resolve_item_ok i c s r s' : resolve_item sy i c s = (r, s') ->
    exists ds, step' (seen_as r) c s s' ds (item_defs r ++ inner_defs r) /\
      (forall K B, scope_in K B c -> match r with RVal _ _ _ (inr e) => rscoped K B e = true | _ => True end) /\
      match r with
      | RTy _ ps cases => forall k fs t, In (k, fs) cases -> In (Some t) fs -> names_in (ps ++ map snd (sc_types c)) t
      | RVal _ (Some (vars, t)) _ _ => names_in (vars ++ map snd (sc_types c)) t /\ t <> IrInfer
      | RVal _ None _ _ => True
      end.
  Proof.
    destruct i as [n export ec ps cs|n export ann body]; cbn [resolve_item]; intros E.
    - apply rbind_inv in E as (x & s1 & Ex & E). apply rbind_inv in E as ([ps' c1] & s2 & Ep & E). apply rbind_inv in E as (cs' & s3 & Ec & E).
      apply rbind_inv in E as (u & s4 & Ed & E). rdef. rb. cbn [fst snd] in *. apply resolve_params_ok in Ep as (d1 & A & X & L & TY).
      apply resolve_cases_ok in Ec as (d2 & B & N & W).
      set (r := RTy x ps' cs'). set (d := mkRdef x (DType (length ps') (CtorList (map fst cs'))) (if export then Export else Module) n).
      exists ((d1 ++ d2) ++ [d]). split; [|split; [intros; exact Logic.I|]].
      + assert (SA : step' (seen_as r) c s1 s2 d1 (map (fun p => (p, type_var)) ps')) by (eapply step_weak; [|exact A]; intros q Hq; left; exact Hq).
        assert (SB : step' (seen_as r) c1 s2 s3 d2 (map (fun p => (fst p, DCtor (mkDctor x ps' (snd p)) (ctor_fn_ty x ps' (snd p)))) cs')).
        { destruct B as [B1 B2 B3 B4 B5 _ B7]. constructor; auto. eapply Forall_impl; [|exact W]. intros q (W1 & W2 & W3). right.
          destruct (d_kind q); try contradiction. cbn. rewrite app_nil_r. auto. }
        cbn [inner_defs]. rewrite app_nil_r. refine (@step_around sy (seen_as r) c s (d_kind d) (d_vis d) n s1 x s3 _ _ Ex _ (step_trans SA X SB)).
        right. cbn. auto.
      + cbn. intros k fs t Hk Ht z Hz. pose proof (N _ _ _ Hk Ht _ Hz) as Z. rewrite TY in Z. apply in_app_iff in Z. rewrite <- in_rev in Z. apply in_app_iff. auto.
    - apply rbind_inv in E as ([a c1] & s1 & Ea & E). apply rbind_inv in E as (x & s2 & Ex & E). apply rbind_inv in E as (u & s3 & Ed & E). rdef.
      apply rbind_inv in E as (b & s4 & Eb & E). rb. cbn [fst snd] in *. apply resolve_ann_ok in Ea as (d1 & A & X & V & C & NT).
      set (v := if export then Export else Module) in *. set (r := RVal x a (if export then Some (id_text n) else None) b).
      assert (SA : step' (seen_as r) c s s1 d1 (ann_vars a)) by (eapply step_weak; [|exact A]; intros q Hq; left; exact Hq).
      assert (S0 : step' (seen_as r) c s1 (mkRstate (st_next s2) (st_defs s2 ++ [mkRdef x (ann_def a) v n]) (st_refs s2) (st_ok s2)) [mkRdef x (ann_def a) v n] [(x, ann_def a)]).
      { apply step_def; auto. right. cbn. destruct a as [[vs t]|]; cbn; auto. }
      destruct body as [bi|e].
      + rb. eexists. split; [|split; [intros; exact Logic.I|]].
        * eapply step_perm; [|exact (step_trans SA (ext_refl _ _) S0)]. cbn. rewrite app_nil_r. symmetry. apply Permutation_cons_append.
        * cbn. destruct a as [[vs t]|]; auto.
      + apply rbind_inv in Eb as (e' & s5 & Ee & Eb). rb. pose proof Ee as Ee'. apply resolve_expr_ok in Ee as (d3 & B).
        assert (SB : step' (seen_as r) c1 (mkRstate (st_next s2) (st_defs s2 ++ [mkRdef x (ann_def a) v n]) (st_refs s2) (st_ok s2)) s5 d3 (expr_defs e'))
          by (eapply step_weak; [|exact B]; intros q Hq; left; exact Hq).
        exists ((d1 ++ [mkRdef x (ann_def a) v n]) ++ d3). split; [|split].
        * eapply step_perm; [|refine (step_trans (step_trans SA (ext_refl _ _) S0) _ SB)].
          -- cbn. rewrite <- app_assoc. cbn. symmetry. apply Permutation_middle.
          -- eapply ext_more; [exact X|]. apply incl_appl, incl_refl.
        * intros K B' HS. cbn. eapply resolve_expr_scoped; eauto. destruct HS. split; rewrite ?V, ?C; auto.
        * cbn. destruct a as [[vs t]|]; auto.
  Qed.

  (** ** Units *)
  Definition types_in (T : list sym) (c : scope) : Prop := incl (map snd (sc_types c)) T.
  Lemma add_defs_in r ds : Forall (seen_as r) ds -> forall c K B T, scope_in K B c -> types_in T c ->
    scope_in (rctors [r] ++ K) (rvalues r ++ B) (add_defs c ds) /\ types_in (rtypes [r] ++ T) (add_defs c ds).
  Proof.
    unfold add_defs. intros F c K B T [A1 A2] A3.
    assert (H0 : scope_in (rctors [r] ++ K) (rvalues r ++ B) c /\ types_in (rtypes [r] ++ T) c).
    { split; [split|]; intros y Hy; apply in_app_iff; auto. }
    clear A1 A2 A3. revert c H0. induction F as [|d ds H _ IH]; intros c H0; cbn [fold_left]; auto. apply IH. clear IH.
    unfold add_def. destruct H as [->|H]; auto. destruct (d_vis d); auto; destruct H0 as [[A1 A2] A3]; destruct (d_kind d).
    all: try destruct H as [Hc Hv]; (split; [split|]); intros y Hy; cbn in Hy; try (destruct Hy as [<-|Hy]); auto; apply in_app_iff; auto.
  Qed.
  Lemma resolve_items_ok : forall xs n c K B T, scope_in K B c -> types_in T c ->
    let rs := map ui_tree (resolve_items sy n c xs) in
    ritems_scoped K B rs = true /\
    (exists m, made sy n m (all_defs rs)) /\
    Forall (fun r => match r with
      | RTy _ ps cases => forall k fs t, In (k, fs) cases -> In (Some t) fs -> names_in (ps ++ rtypes rs ++ T) t
      | RVal _ (Some (vars, t)) _ _ => names_in (vars ++ rtypes rs ++ T) t /\ t <> IrInfer
      | RVal _ None _ _ => True
      end) rs.
  Proof.
    induction xs as [|x xs IH]; intros n c K B T HS HT; cbn [resolve_items map].
    - split; auto. split; [exists n; apply made_nil|constructor].
    - destruct (resolve_item sy x c _) as [r s'] eqn:E. cbn [map ui_tree]. apply resolve_item_ok in E as (ds & S0 & Sc & Ty).
      pose proof (sp_defs S0) as Ed. cbn in Ed. rewrite Ed. destruct (add_defs_in (sp_vis S0) HS HT) as [HS' HT'].
      destruct (IH (st_next s') (add_defs c ds) _ _ _ HS' HT') as (I1 & (m & I2) & I3). cbn zeta in *.
      set (rs := map ui_tree (resolve_items sy (st_next s') (add_defs c ds) xs)) in *.
      assert (RT : forall y, In y (rtypes rs ++ rtypes [r] ++ T) -> In y (rtypes (r :: rs) ++ T)).
      { intros y Hy. unfold rtypes in *. cbn [flat_map] in *. rewrite !in_app_iff in *. cbn in Hy. tauto. }
      split; [|split].
      + cbn [ritems_scoped]. rewrite I1, andb_true_r. specialize (Sc K B HS). destruct r as [|? ? ? []]; auto.
      + exists (Nat.max m (st_next s')). cbn [all_defs flat_map]. eapply made_app; [| |exact (sp_tree S0)|].
        * exact (sp_next S0).
        * lia.
        * eapply made_wide; [| |exact I2]; lia.
      + constructor.
        * assert (W : forall l t, names_in (l ++ map snd (sc_types c)) t -> names_in (l ++ rtypes (r :: rs) ++ T) t).
          { intros l t H y Hy. apply H in Hy. rewrite !in_app_iff in *. destruct Hy as [Hy|Hy]; auto. }
          destruct r as [y ps cs|y [[vs t]|] ex b]; [intros k fs t Hk Ht; apply W; eauto|destruct Ty; split; auto|auto].
        * eapply Forall_impl; [|exact I3]. cbn. intros q Hq.
          assert (W : forall l t, names_in (l ++ rtypes rs ++ rtypes [r] ++ T) t -> names_in (l ++ rtypes (r :: rs) ++ T) t).
          { intros l t H y Hy. apply H in Hy. rewrite in_app_iff in *. destruct Hy as [Hy|Hy]; auto. }
          destruct q as [y ps cs|y [[vs t]|] ex b]; [intros k fs t Hk Ht; apply W; eauto|destruct Hq; split; auto|auto].
  Qed.
End Proofs.
