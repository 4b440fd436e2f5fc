(** The types the resolver records are those of the source: proofs for C57. *)
From Verif Require Import TypeckProg ResolveFacts ResolveProofs ResolveLex NavSpec NavProofs NavUnits HoverSpec Hover.
Set Implicit Arguments.

Definition prec_of (p : place) : nat := match p with Alone => 0 | LeftOfArrow => 1 | Argument => 2 end.
Section Declared.
  Variable sy : nat -> sym.
  Variable nm : sym -> list N.
  Let D : rel := fun s d => nm s = id_text d.
  Definition stars (n : nat) : list N := fold_left (fun k _ => k ++ [32;45;62;32;42]%N) (seq 0 n) [42%N].
  Definition decl (d : rdef) : declaration :=
    (d_name d, match d_kind d with DValue _ IrInfer => None | DValue _ t | DCtor _ t => Some (hover_type nm 0 t) | DType n _ => Some (stars n) end).
  Definition G (s : rstate) : Prop := all_in D (st_defs s).
  Lemma G_m P s s' ds o : m P s s' ds o -> G s' -> G s /\ all_in D ds.
  Proof. intros M H. unfold G in *. rewrite (m_defs M) in H. apply Forall_app in H. auto. Qed.
  Lemma sim_lookup c a n x : keys c a -> sim c a D -> lookup_text (sc_types c) (id_text n) = Some x -> nm x = id_text n /\ exists d, closest (ar_types a) n = Some d.
  Proof.
    intros (_ & K & _) (_ & S & _) E. destruct (look_some _ _ _ K E) as (d & C & H). specialize (H D S). unfold D in H. split; eauto. rewrite H.
    apply find_some in C as [_ C]. unfold text_eqb in C. destruct (list_eq_dec _ _ _); congruence.
  Qed.
  Lemma stars_more n : forall b k, fold_left (fun k _ => k ++ [32;45;62;32;42]%N) (seq b n) k = k ++ concat (repeat (arrow_text ++ [42%N]) n).
  Proof. induction n as [|n IH]; intros b k; cbn [seq fold_left repeat concat]; [rewrite app_nil_r; auto|]. rewrite IH, <- app_assoc. reflexivity. Qed.
  Lemma stars_text n : stars n = star_text n.
  Proof. apply stars_more. Qed.
  Lemma print_named p s args : hover_type nm (prec_of p) (IrNamed s args) =
    in_parens (app_parens p args) (nm s ++ (fix go (l : list irty) : list N := match l with [] => [] | t :: r => 32%N :: hover_type nm 2 t ++ go r end) args).
  Proof.
    cbn [hover_type]. match goal with |- context [in_parens _ (_ ++ ?f)] => generalize f end. intros F.
    destruct p, args; cbn [prec_of app_parens in_parens Nat.leb andb length Nat.ltb app]; rewrite ?app_nil_r, <- ?app_assoc; auto.
  Qed.
  Lemma print_fn p x y : hover_type nm (prec_of p) (IrFn x y) = in_parens (fn_parens p) (hover_type nm 1 x ++ arrow_text ++ hover_type nm 0 y).
  Proof. cbn [hover_type]. destruct p; cbn; rewrite ?app_nil_r; unfold arrow_text; cbn; rewrite <- ?app_assoc; auto. Qed.

  Definition kinds (k : dkind) (s s' : rstate) : Prop := exists ds, st_defs s' = st_defs s ++ ds /\ Forall (fun d => d_kind d = k) ds.
  Lemma kinds_same k s s' : st_defs s' = st_defs s -> kinds k s s'.
  Proof. intros E. exists []. rewrite app_nil_r. auto. Qed.
  Lemma kinds_trans k s s1 s2 : kinds k s s1 -> kinds k s1 s2 -> kinds k s s2.
  Proof. intros (d1 & E1 & A) (d2 & E2 & B). exists (d1 ++ d2). rewrite E2, E1, app_assoc. split; auto. apply Forall_app. auto. Qed.
  Lemma kinds_def s s1 x k v n u s2 : fresh sy s = (x, s1) -> record_def (def_new x k v n) s1 = (u, s2) -> kinds k s s2.
  Proof. unfold fresh, record_def. intros E F. injection E as <- <-. injection F as <- <-. eexists. cbn. split; [reflexivity|]. constructor; auto. Qed.
  Lemma kinds_vars : forall t c vars s r c' vars' s', resolve_type_vars sy t c vars s = (r, c', vars', s') -> kinds type_var s s'.
  Proof.
    induction t using xty_ind'; intros c vars s r c' vars' s' E; cbn [resolve_type_vars] in *.
    1-3: unfold rret in E; injection E as <- <- <- <-; apply kinds_same; auto.
    - apply rbind_inv in E as ([[a' c1] v1] & s1 & Ea & E). apply rbind_inv in E as ([[b' c2] v2] & s2 & Eb & E). unfold rret in E. injection E as <- <- <- <-.
      eapply kinds_trans; eauto.
    - apply rbind_inv in E as ([[o c1] v1] & s1 & Eo & E). apply rbind_inv in E as ([[args' c2] v2] & s2 & Ea & E). unfold rret in E. injection E as <- <- <- <-.
      eapply kinds_trans with (s1 := s1).
      + destruct (lookup_text (sc_types c) (id_text n)) as [x|]; [rb; apply kinds_same; auto|]. destruct (lower _ && _); [|rb; apply kinds_same; auto].
        apply rbind_inv in Eo as (y0 & s0 & Ef & Eo). apply rbind_inv in Eo as (u & s3 & Ed & Eo). unfold rret in Eo. injection Eo as <- <- <- <-. eapply kinds_def; eauto.
      + clear Eo. revert c1 v1 s1 args' Ea. induction H as [|t args Ht _ IH]; intros c1 v1 s1 args' Ea.
        * unfold rret in Ea. injection Ea as <- <- <- <-. apply kinds_same; auto.
        * apply rbind_inv in Ea as ([[t' c3] v3] & s3 & Et & Ea). apply rbind_inv in Ea as ([[r' c4] v4] & s4 & Er & Ea). unfold rret in Ea. injection Ea as <- -> -> ->.
          eapply kinds_trans; eauto.
    - eauto.
  Qed.
  Lemma pre_vars t c vars s r c' vars' s' : resolve_type_vars sy t c vars s = (r, c', vars', s') -> exists ds, st_defs s' = st_defs s ++ ds.
  Proof. intros E. destruct (kinds_vars _ _ _ _ E) as (ds & A & _). eauto. Qed.
  Lemma kinds_pattern : forall xs c s l c' s', resolve_vars sy xs c s = (l, c', s') -> kinds (DValue [] IrInfer) s s'.
  Proof.
    induction xs as [|x xs IH]; intros c s l c' s' E; cbn [resolve_vars] in *; [unfold rret in E; injection E as <- <- <-; apply kinds_same; auto|].
    apply rbind_inv in E as (y & s1 & Ef & E). apply rbind_inv in E as (u & s2 & Ed & E). apply rbind_inv in E as ([l' c1] & s3 & Er & E). unfold rret in E. injection E as <- <- <-.
    eapply kinds_trans; [eapply kinds_def; eauto|eauto].
  Qed.
  Lemma kinds_params : forall xs c s l c' s', resolve_params sy xs c s = (l, c', s') -> kinds type_var s s'.
  Proof.
    induction xs as [|x xs IH]; intros c s l c' s' E; cbn [resolve_params] in *; [unfold rret in E; injection E as <- <- <-; apply kinds_same; auto|].
    apply rbind_inv in E as (y & s1 & Ef & E). apply rbind_inv in E as (u & s2 & Ed & E). apply rbind_inv in E as ([l' c1] & s3 & Er & E). unfold rret in E. injection E as <- <- <-.
    eapply kinds_trans; [eapply kinds_def; eauto|eauto].
  Qed.
  Lemma type_written c a (K : keys c a) (S : sim c a D) : forall t s r s', resolve_type c t s = (r, s') ->
    forall p, hover_type nm (prec_of p) r = ty_written a p t.
  Proof.
    induction t using xty_ind'; intros s r s' E p; cbn [resolve_type ty_written] in *.
    1-3: rb; reflexivity.
    - rb. rewrite print_fn. pose proof (IHt1 _ _ _ H LeftOfArrow) as A. pose proof (IHt2 _ _ _ H0 Alone) as B. cbn [prec_of] in A, B. rewrite A, B. auto.
    - apply rbind_inv in E as (o & s1 & Eo & E). apply rbind_inv in E as (args' & s2 & Ea & E). unfold rret in E. injection E as <- <-.
      destruct (lookup_text _ _) as [x|] eqn:El; rb.
      + destruct (sim_lookup _ K S El) as (Q & d & Ed). rewrite Ed, print_named, Q.
        assert (A : app_parens p args' = app_parens p args /\ (fix go (l : list irty) : list N := match l with [] => [] | t :: r => 32%N :: hover_type nm 2 t ++ go r end) args' =
          (fix go (l : list xty) : list N := match l with [] => [] | t :: r => [32%N] ++ ty_written a Argument t ++ go r end) args); [|destruct A as [-> ->]; auto].
        clear - H Ea S K. split.
        * destruct args; rb; destruct p; auto.
        * match type of Ea with _ ?st = _ => generalize dependent st end. revert args'. induction H as [|t args Ht _ IH]; intros args' st Ea; rb; auto.
          pose proof (Ht _ _ _ H Argument) as A. cbn [prec_of] in A. rewrite A, (IH _ _ H0). auto.
      + rewrite (look_none _ _ _ (proj1 (proj2 K)) El). reflexivity.
    - eauto.
  Qed.

  Notation go_written := (fix go (l : list xty) (a : around) : list N := match l with [] => [] | t :: r => [32%N] ++ ann_written Argument t a ++ go r (snd (ann_names_of t a)) end).
  Notation go_print := (fix go (l : list irty) : list N := match l with [] => [] | t :: r => 32%N :: hover_type nm 2 t ++ go r end).
  Lemma ann_named_known n args a d : closest (ar_types a) n = Some d -> forall p, ann_written p (XNamed n args) a = in_parens (app_parens p args) (id_text n ++ go_written args a).
  Proof. intros E p. cbn [ann_written]. rewrite E. auto. Qed.
  Lemma vars_written : forall t c a (K : keys c a) (S : sim c a D) vars s r c' vars' s', resolve_type_vars sy t c vars s = (r, c', vars', s') -> G s' ->
    forall p, hover_type nm (prec_of p) r = ann_written p t a.
  Proof.
    induction t using xty_ind'; intros c a K S vars s r c' vars' s' E Gs p; cbn [resolve_type_vars] in *.
    1-3: unfold rret in E; injection E as <- <- <- <-; reflexivity.
    - apply rbind_inv in E as ([[a' c1] v1] & s1 & Ea & E). apply rbind_inv in E as ([[b' c2] v2] & s2 & Eb & E). unfold rret in E. injection E as <- <- <- <-.
      destruct (nav_type_vars sy _ K _ _ Ea) as (d1 & A & L). destruct (nav_type_vars sy _ (proj1 L) _ _ Eb) as (d2 & B & L2).
      destruct (G_m B Gs) as [G1 _]. destruct (G_m A G1) as [_ Q1]. cbn [ann_written]. rewrite print_fn.
      pose proof (IHt1 _ _ K S _ _ _ _ _ _ Ea G1 LeftOfArrow) as W1. pose proof (IHt2 _ _ (proj1 L) (proj2 L _ S Q1) _ _ _ _ _ _ Eb Gs Alone) as W2. cbn [prec_of] in W1, W2.
      rewrite W1, W2. auto.
    - apply rbind_inv in E as ([[o c1] v1] & s1 & Eo & E). apply rbind_inv in E as ([[args' c2] v2] & s2 & Ea & E). unfold rret in E. injection E as <- <- <- <-.
      assert (PRE : exists ds, st_defs s2 = st_defs s1 ++ ds).
      { clear - Ea. revert c1 v1 s1 args' Ea. induction args as [|t args IH]; intros c1 v1 s1 args' Ea.
        - unfold rret in Ea. injection Ea as <- <- <- <-. exists []. rewrite app_nil_r. auto.
        - apply rbind_inv in Ea as ([[t' c3] v3] & s3 & Et & Ea). apply rbind_inv in Ea as ([[r' c4] v4] & s4 & Er & Ea). unfold rret in Ea. injection Ea as <- -> -> ->.
          destruct (pre_vars _ _ _ _ Et) as (x1 & X1). destruct (IH _ _ _ _ Er) as (x2 & X2). exists (x1 ++ x2). rewrite X2, X1, app_assoc. auto. }
      assert (ARGS : forall a1, keys c1 a1 -> sim c1 a1 D -> go_print args' = go_written args a1).
      { clear - H Ea Gs. revert c1 v1 s1 args' Ea. induction H as [|t args Ht _ IH]; intros c1 v1 s1 args' Ea a1 K1 S1.
        - unfold rret in Ea. injection Ea as <- <- <- <-. auto.
        - apply rbind_inv in Ea as ([[t' c3] v3] & s3 & Et & Ea). apply rbind_inv in Ea as ([[r' c4] v4] & s4 & Er & Ea). unfold rret in Ea. injection Ea as <- -> -> ->.
          destruct (nav_type_vars sy _ K1 _ _ Et) as (d1 & A & L).
          assert (G1 : G s3).
          { clear - Er Gs. revert c3 v3 s3 r' Er. induction args as [|t args IH]; intros c1 v1 s1 args' Ea.
            - unfold rret in Ea. injection Ea as <- <- <- <-. auto.
            - apply rbind_inv in Ea as ([[t' c3] v3] & s3 & Et & Ea). apply rbind_inv in Ea as ([[r' c4] v4] & s4 & Er & Ea). unfold rret in Ea. injection Ea as <- -> -> ->.
              destruct (pre_vars _ _ _ _ Et) as (x1 & X1). specialize (IH _ _ _ _ Er). unfold G in *. rewrite X1 in IH. apply Forall_app in IH. tauto. }
          destruct (G_m A G1) as [_ Q1]. pose proof (Ht _ _ K1 S1 _ _ _ _ _ _ Et G1 Argument) as W. cbn [prec_of] in W. rewrite W.
          rewrite (IH _ _ _ _ Er (snd (ann_names_of t a1)) (proj1 L) (proj2 L _ S1 Q1)). auto. }
      assert (LEN : app_parens p args' = app_parens p args).
      { destruct args; [|apply rbind_inv in Ea as ([[? ?] ?] & ? & _ & Ea); apply rbind_inv in Ea as ([[? ?] ?] & ? & _ & Ea)]; unfold rret in Ea; injection Ea as <- _ _ _; destruct p; auto. }
      destruct (lookup_text _ _) as [x|] eqn:El.
      + rb. destruct (sim_lookup _ K S El) as (Q & d & Ed). rewrite (ann_named_known _ _ _ Ed), print_named, Q, LEN, (ARGS _ K S). auto.
      + pose proof (look_none _ _ _ (proj1 (proj2 K)) El) as Ed. cbn [ann_written]. rewrite Ed. rewrite <- small_lower in Eo. destruct args as [|t0 args]; [|rewrite andb_false_r in Eo; rb; reflexivity].
        rewrite andb_true_r in Eo. unfold rret in Ea. injection Ea as <- <- <- <-. destruct (small_letter (id_text n)); [|rb; reflexivity].
        apply rbind_inv in Eo as (y0 & s0 & Ef & Eo). apply rbind_inv in Eo as (u & s3 & Ed' & Eo). unfold record_def in Ed'. injection Ed' as <- <-. unfold rret in Eo. injection Eo as <- <- <- <-.
        unfold G in Gs. cbn in Gs. apply Forall_app in Gs as [_ Gs]. inversion_clear Gs as [|? ? Q _]. cbn in Q. rewrite print_named, Q. cbn. destruct p; cbn; rewrite app_nil_r; auto.
    - cbn [ann_written]. eauto.
  Qed.
  Definition dc (s s' : rstate) (l : list declaration) : Prop := exists ds, st_defs s' = st_defs s ++ ds /\ map decl ds = l.
  Lemma dc_same s s' : st_defs s' = st_defs s -> dc s s' [].
  Proof. intros E. exists []. rewrite app_nil_r. auto. Qed.
  Lemma dc_trans s s1 s2 a b : dc s s1 a -> dc s1 s2 b -> dc s s2 (a ++ b).
  Proof. intros (d1 & E1 & A) (d2 & E2 & B). exists (d1 ++ d2). rewrite E2, E1, app_assoc, map_app, A, B. auto. Qed.
  Lemma dc_def s s1 x k v n u s2 : fresh sy s = (x, s1) -> record_def (def_new x k v n) s1 = (u, s2) -> dc s s2 [decl (mkRdef x k v n)].
  Proof. unfold fresh, record_def. intros E F. injection E as <- <-. injection F as <- <-. eexists. cbn. split; [reflexivity|]. auto. Qed.
  Lemma dc_kinds k l P s s' ds o : (exists ds', st_defs s' = st_defs s ++ ds' /\ Forall (fun d => d_kind d = k) ds') ->
    m P s s' ds o -> l = map (fun n => decl (mkRdef 0 k Local n)) (snd o) -> dc s s' l.
  Proof.
    intros (ds' & E & F) M ->. exists ds. split; [apply (m_defs M)|]. rewrite <- (m_names M), map_map. apply map_ext_in. intros d Hd.
    rewrite (m_defs M) in E. apply app_inv_head in E. subst ds'. rewrite Forall_forall in F. unfold decl. cbn. rewrite (F _ Hd). auto.
  Qed.

  Lemma dc_ann ann c a (K : keys c a) s x c' s' : resolve_ann sy ann c s = (x, c', s') -> dc s s' (opt_declared ann a).
  Proof.
    intros E. destruct (nav_ann sy ann K _ E) as (ds & M & _). eapply dc_kinds with (k := type_var); [|exact M|reflexivity]. destruct ann as [t|]; cbn [resolve_ann] in E.
    - apply rbind_inv in E as ([[t' c1] vars] & s1 & Et & E). unfold rret in E. injection E as <- <- <-. eapply kinds_vars; eauto.
    - unfold rret in E. injection E as <- <- <-. apply kinds_same; auto.
  Qed.
  Lemma not_infer t : forall c vars s r c' vars' s', resolve_type_vars sy t c vars s = (r, c', vars', s') -> r <> IrInfer.
  Proof.
    induction t using xty_ind'; intros c vars s r c' vars' s' E; cbn [resolve_type_vars] in *.
    1-3: unfold rret in E; injection E as <- <- <- <-; discriminate.
    - apply rbind_inv in E as ([[a' c1] v1] & s1 & Ea & E). apply rbind_inv in E as ([[b' c2] v2] & s2 & Eb & E). unfold rret in E. injection E as <- <- <- <-. discriminate.
    - apply rbind_inv in E as ([[o c1] v1] & s1 & Eo & E). apply rbind_inv in E as ([[args' c2] v2] & s2 & Ea & E). unfold rret in E. injection E as <- <- <- <-. destruct o; discriminate.
    - eauto.
  Qed.
  Lemma ann_decl ann c a (K : keys c a) (S : sim c a D) s an c1 s1 : resolve_ann sy ann c s = (an, c1, s1) -> G s1 ->
    forall x v n, decl (mkRdef x (ann_def an) v n) = (n, opt_written ann a).
  Proof.
    intros E Gs x v n. unfold decl. cbn. f_equal. destruct ann as [t|]; cbn [resolve_ann] in E.
    - apply rbind_inv in E as ([[t' c2] vars] & s2 & Et & E). unfold rret in E. injection E as <- <- <-. cbn. pose proof (not_infer _ _ _ _ Et) as N.
      pose proof (vars_written _ K S _ _ Et Gs Alone) as W. cbn [prec_of] in W. rewrite <- W. destruct t'; auto; congruence.
    - unfold rret in E. injection E as <- <- <-. auto.
  Qed.
  Lemma dc_expr : forall e c a (K : keys c a) (S : sim c a D) s r s', resolve_expr sy e c s = (r, s') -> G s' -> dc s s' (expr_declared e a).
  Proof.
    induction e using xexpr_ind'; intros c a' K S s r s' E Gs; cbn [resolve_expr expr_declared] in *.
    - destruct (lookup_text _ _) as [x|]; rb; apply dc_same; auto.
    - rb. destruct (nav_expr sy _ K _ H0) as (d2 & B). eapply dc_trans; [eapply IHe1; eauto; apply (G_m B Gs)|eauto].
    - rb. destruct (nav_expr sy _ K _ H0) as (d2 & B). eapply dc_trans; [eapply IHe1; eauto; apply (G_m B Gs)|eauto].
    - rb. destruct (nav_expr sy _ K _ H0) as (d2 & B). eapply dc_trans; [eapply IHe1; eauto; apply (G_m B Gs)|eauto].
    - apply rbind_inv in E as ([an c1] & s1 & Ea & E). apply rbind_inv in E as (v' & s2 & Ev & E). apply rbind_inv in E as (x & s3 & Ef & E).
      apply rbind_inv in E as (u & s4 & Ed & E). apply rbind_inv in E as (e' & s5 & Ee & E). rb. cbn [fst snd] in *.
      destruct (nav_ann sy _ K _ Ea) as (d1 & A & L1). destruct (nav_expr sy _ (proj1 L1) _ Ev) as (d2 & B).
      pose proof (@leaves_value c a' x (ann_def an) Local n K) as L. destruct (nav_expr sy _ (proj1 L) _ Ee) as (d3 & C).
      destruct (G_m C Gs) as [G4 _]. assert (G3 : G s2 /\ D x n).
      { unfold record_def in Ed. injection Ed as <- <-. unfold G in G4. cbn in G4. apply Forall_app in G4 as [G4 Q]. inversion Q. unfold fresh in Ef. injection Ef as <- <-. auto. }
      destruct G3 as [G3 Dx]. destruct (G_m B G3) as [G1 _]. destruct (G_m A G1) as [_ Q1].
      eapply dc_trans; [eapply dc_ann; eauto|]. eapply dc_trans; [eapply IHe1; eauto; [apply L1|apply (proj2 L1); auto]|].
      eapply dc_trans; [|eapply IHe2; [apply keys_value; exact K|apply sim_value; [exact S|exact Dx]|exact Ee|exact Gs]].
      pose proof (dc_def Ef Ed) as R. rewrite (ann_decl _ K S _ Ea G1) in R. exact R.
    - apply rbind_inv in E as (d' & s1 & Ed & E). apply rbind_inv in E as (cs' & s2 & Ec & E). rb.
      match goal with |- dc _ _ (_ ++ ?l) => set (tl := l) end.
      assert (Q : dc s1 s2 tl /\ G s1).
      { subst tl. clear - H Ec K S Gs. revert s1 cs' Ec. induction H as [|[[n xs] b] cs Hb _ IH]; intros s1 cs' Ec; [rb; split; auto; apply dc_same; auto|].
        apply rbind_inv in Ec as (k & s3 & Ek & Ec). apply rbind_inv in Ec as ([vs c1] & s4 & Ev & Ec). apply rbind_inv in Ec as (b' & s5 & Eb & Ec).
        apply rbind_inv in Ec as (r' & s6 & Er & Ec). rb. cbn [fst snd] in *. destruct (nav_vars sy _ K _ Ev) as (d2 & B & L).
        destruct (IH _ _ Er) as [R G5]. destruct (nav_expr sy _ (proj1 L) _ Eb) as (d3 & C). destruct (G_m C G5) as [G4 _]. destruct (G_m B G4) as [G3 Q2].
        assert (Q : st_defs s3 = st_defs s1) by (unfold resolve_ctor in Ek; destruct (lookup_text _ _); rb; auto).
        split; [|unfold G in *; rewrite <- Q; auto].
        eapply (dc_trans (dc_same _ _ Q)). eapply dc_trans; [eapply (dc_kinds (kinds_pattern _ _ _ Ev) B); reflexivity|]. eapply dc_trans; [eapply Hb; [| |exact Eb|exact G5]; apply L; auto|]. exact R. }
      destruct Q as [Q G1]. eapply dc_trans; [eauto|exact Q].
    - rb. destruct (nav_expr sy _ K _ H1) as (d3 & C). destruct (G_m C Gs) as [G2 _]. destruct (nav_expr sy _ K _ H0) as (d2 & B). destruct (G_m B G2) as [G1 _].
      eapply dc_trans; eauto. eapply dc_trans; eauto.
    - rb. apply dc_same; auto.
    - rb. apply dc_same; auto.
    - rb. apply dc_same; auto.
    - apply rbind_inv in E as (x & s3 & Ef & E). apply rbind_inv in E as (u & s4 & Ed & E). apply rbind_inv in E as (e' & s5 & Ee & E). rb.
      pose proof (@leaves_value c a' x (DValue [] IrInfer) Local n K) as L. destruct (nav_expr sy _ (proj1 L) _ Ee) as (d3 & C). destruct (G_m C Gs) as [G4 _].
      assert (Dx : D x n). { unfold record_def in Ed. injection Ed as <- <-. unfold G in G4. cbn in G4. apply Forall_app in G4 as [_ Q]. inversion Q. auto. }
      eapply dc_trans; [exact (dc_def Ef Ed)|]. eapply IHe; [apply keys_value; exact K|apply sim_value; [exact S|exact Dx]|exact Ee|exact Gs].
    - rb. eauto.
    - rb. apply dc_same; auto.
  Qed.
  Lemma params_named : forall xs c s l c' s', resolve_params sy xs c s = (l, c', s') -> G s' -> map nm l = map id_text xs.
  Proof.
    induction xs as [|x xs IH]; intros c s l c' s' E Gs; cbn [resolve_params] in *; [unfold rret in E; injection E as <- <- <-; auto|].
    apply rbind_inv in E as (y & s1 & Ef & E). apply rbind_inv in E as (u & s2 & Ed & E). apply rbind_inv in E as ([l' c1] & s3 & Er & E). unfold rret in E. injection E as <- <- <-.
    cbn. rewrite (IH _ _ _ _ _ Er Gs). f_equal. destruct (kinds_params _ _ _ Er) as (ds & Eds & _). unfold G in Gs. rewrite Eds in Gs. apply Forall_app in Gs as [Gs _].
    unfold record_def in Ed. injection Ed as <- <-. cbn in Gs. apply Forall_app in Gs as [_ Q]. inversion Q. auto.
  Qed.
  Lemma whole_ok p s n (l : list sym) (ps : list ident) : nm s = id_text n -> map nm l = map id_text ps ->
    hover_type nm (prec_of p) (IrNamed s (map (fun p => IrNamed p []) l)) = whole_written p n ps.
  Proof.
    intros Es El. rewrite print_named, Es. unfold whole_written. f_equal.
    - destruct l, ps; try discriminate; destruct p; auto.
    - f_equal. revert ps El. induction l as [|x l IH]; intros [|y ps] El; try discriminate; auto. cbn [map flat_map] in *. injection El as E0 El.
      rewrite (IH _ El). cbn. rewrite E0, app_nil_r. auto.
  Qed.
  Lemma fields_written c a (K : keys c a) (S : sim c a D) ty n (l : list sym) (ps : list ident) : nm ty = id_text n -> map nm l = map id_text ps ->
    forall fs s fs' s', resolve_fields c fs s = (fs', s') -> hover_type nm 0 (ctor_fn_ty ty l fs') = ctor_written a n ps fs.
  Proof.
    intros Es El. unfold ctor_fn_ty, ctor_written. induction fs as [|[t|] fs IH]; intros s fs' s' E; cbn [resolve_fields] in E.
    - rb. cbn [fold_right]. apply (whole_ok Alone); auto.
    - rb. cbn [fold_right]. pose proof (print_fn Alone) as F. cbn [prec_of fn_parens in_parens] in F. rewrite F. rewrite (IH _ _ _ H0). f_equal. exact (type_written K S _ _ H LeftOfArrow).
    - rb. cbn [fold_right]. pose proof (print_fn Alone) as F. cbn [prec_of fn_parens in_parens] in F. rewrite F. rewrite (IH _ _ _ H). f_equal. apply (whole_ok LeftOfArrow); auto.
  Qed.
  Lemma dc_cases v ty tn ps pn c a (K : keys c a) (S : sim c a D) (Et : nm ty = id_text tn) (Ep : map nm ps = map id_text pn) :
    forall cs seen sn s l s', seen = map id_text sn -> resolve_cases sy v ty ps c seen cs s = (l, s') -> dc s s' (cases_declared a tn pn sn cs).
  Proof.
    induction cs as [|[n fs] cs IH]; intros seen sn s l s' Es E; cbn [resolve_cases cases_declared] in *.
    - rb. apply dc_same. auto.
    - apply rbind_inv in E as (fs' & s1 & Ef & E). pose proof (m_defs (nav_fields K _ _ Ef)) as A. rewrite app_nil_r in A.
      assert (Q : existsb (text_eqb (id_text n)) seen = match closest sn n with Some _ => true | None => false end).
      { subst seen. clear. unfold closest. induction sn as [|d sn IH]; cbn; auto. unfold text_eqb at 1 3. destruct (list_eq_dec _ (id_text n) (id_text d)), (list_eq_dec _ (id_text d) (id_text n)); try congruence; auto. }
      rewrite Q in E. destruct (closest sn n).
      + rb. destruct (IH _ _ _ _ _ Es E) as (ds & B & V). exists ds. cbn in B. rewrite B, A. auto.
      + apply rbind_inv in E as (x & s3 & Ex & E). apply rbind_inv in E as (u & s4 & Ed & E). apply rbind_inv in E as (r' & s5 & Er & E). rb.
        pose proof (IH _ (n :: sn) _ _ _ (f_equal (cons (id_text n)) Es) Er) as R. eapply (dc_trans (dc_same _ _ A)). eapply (@dc_trans _ _ _ [_]); [|exact R].
        pose proof (dc_def Ex Ed) as R0. unfold decl in R0. cbn in R0. rewrite (@fields_written c a K S ty tn ps pn Et Ep _ _ _ _ Ef) in R0. exact R0.
  Qed.
  Lemma dc_item i c a (K : keys c a) (S : sim c a D) s r s' : resolve_item sy i c s = (r, s') -> G s' -> dc s s' (item_declared i a).
  Proof.
    destruct i as [n export ec ps cs|n export ann body]; cbn [resolve_item item_declared]; intros E Gs.
    - apply rbind_inv in E as (x & s1 & Ex & E). apply rbind_inv in E as ([ps' c1] & s2 & Ep & E). apply rbind_inv in E as (cs' & s3 & Ec & E).
      apply rbind_inv in E as (u & s4 & Ed & E). rb. cbn [fst snd] in *. unfold fresh in Ex. injection Ex as <- <-.
      destruct (nav_params sy _ K _ Ep) as (d1 & A & L).
      destruct (@nav_cases sy (if ec then Export else Module) (sy (st_next s)) ps' c1 _ (proj1 L) _ [] [] _ _ _ eq_refl Ec) as (d2 & B & _).
      unfold record_def in Ed. injection Ed as <- <-. unfold G in Gs. cbn in Gs. apply Forall_app in Gs as [G3 Q]. inversion_clear Q as [|? ? Dt _]. cbn in Dt. change (G s3) in G3.
      destruct (G_m B G3) as [G2 _]. destruct (G_m A G2) as [_ Q1]. pose proof (params_named _ _ _ Ep G2) as PN.
      pose proof (dc_kinds (kinds_params _ _ _ Ep) A eq_refl) as R1.
      eapply (@dc_trans _ s2); [destruct R1 as (ds & X1 & X2); exists ds; split; [exact X1|exact X2]|].
      eapply (@dc_trans _ s3); [eapply (@dc_cases _ _ n _ ps _ _ (proj1 L) (proj2 L _ S Q1) Dt PN _ [] [] _ _ _ eq_refl Ec)|].
      eexists. cbn. split; [reflexivity|]. cbn. unfold decl. cbn. rewrite stars_text. replace (length ps') with (length ps); auto.
      apply (f_equal (@length _)) in PN. rewrite !map_length in PN. auto.
    - apply rbind_inv in E as ([an c1] & s1 & Ea & E). apply rbind_inv in E as (x & s2 & Ex & E). apply rbind_inv in E as (u & s3 & Ed & E).
      apply rbind_inv in E as (b & s4 & Eb & E). rb. cbn [fst snd] in *. destruct (nav_ann sy _ K _ Ea) as (d1 & A & L).
      assert (G3 : G s3 /\ dc s3 s4 match body with inl _ => [] | inr e => expr_declared e (snd (opt_names_of ann a)) end).
      { destruct body as [bi|e]; [rb; split; auto; apply dc_same; auto|]. apply rbind_inv in Eb as (e' & s5 & Ee & Eb). rb.
        destruct (nav_expr sy _ (proj1 L) _ Ee) as (d3 & C). destruct (G_m C Gs) as [G3 _]. split; auto.
        assert (G1 : G s1). { unfold record_def in Ed. injection Ed as <- <-. unfold G in G3. cbn in G3. apply Forall_app in G3 as [G3 _]. unfold fresh in Ex. injection Ex as <- <-. auto. }
        destruct (G_m A G1) as [_ Q1]. eapply dc_expr; [apply L| |exact Ee|exact Gs]. apply (proj2 L); auto. }
      destruct G3 as [G3 R]. eapply dc_trans; [eapply dc_ann; eauto|]. eapply dc_trans; [|exact R].
      assert (G1 : G s1). { unfold record_def in Ed. injection Ed as <- <-. unfold G in G3. cbn in G3. apply Forall_app in G3 as [G3 _]. unfold fresh in Ex. injection Ex as <- <-. auto. }
      pose proof (dc_def Ex Ed) as R0. rewrite (ann_decl _ K S _ Ea G1) in R0. exact R0.
  Qed.
  Lemma run_declared : forall ps at_ c a n, keys c a -> sim c a D -> (forall d, In d (flat_map idefs (nv_items (run sy at_ ps c n))) -> D (d_sym d) (d_name d)) ->
    map decl (flat_map idefs (nv_items (run sy at_ ps c n))) = declared_of_items (map pl_item ps) a.
  Proof.
    induction ps as [|p ps IH]; intros at_ c a n K S H; cbn [run map declared_of_items] in *; [reflexivity|].
    destruct (resolve_item sy (pl_item p) c _) as [t s] eqn:E. cbn [nv_items flat_map] in *. rewrite map_app.
    assert (Gs : G s). { apply Forall_forall. intros d Hd. apply H. apply in_app_iff. left. exact Hd. }
    pose proof (dc_item _ K S _ E Gs) as (ds & Ed & R). cbn in Ed. f_equal.
    - unfold idefs. cbn. rewrite Ed. exact R.
    - apply (@nav_item sy _ _ _ K) in E as (ds' & M & L). pose proof (m_defs M) as Ed'. cbn in Ed'. destruct (G_m M Gs) as [_ Q].
      apply IH.
      + rewrite Ed'. apply L.
      + rewrite Ed'. apply (proj2 L); auto.
      + intros d Hd. apply H. apply in_app_iff. auto.
  Qed.
End Declared.
