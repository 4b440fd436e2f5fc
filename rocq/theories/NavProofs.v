(** The resolver records the uses and definitions of the specification. *)
From Verif Require Import ResolveFacts ResolveProofs ResolveLex NavSpec.
Set Implicit Arguments.

Definition rel := sym -> ident -> Prop.
Definition all_in (D : rel) (ds : list rdef) : Prop := Forall (fun d => D (d_sym d) (d_name d)) ds.
Definition keys (c : scope) (a : around) : Prop :=
  map fst (sc_values c) = map id_text (ar_values a) /\ map fst (sc_types c) = map id_text (ar_types a) /\ map fst (sc_ctors c) = map id_text (ar_ctors a).
Definition sim (c : scope) (a : around) (D : rel) : Prop :=
  Forall2 D (map snd (sc_values c)) (ar_values a) /\ Forall2 D (map snd (sc_types c)) (ar_types a) /\ Forall2 D (map snd (sc_ctors c)) (ar_ctors a).
Definition use_ok (D : rel) (r : rref) (u : ident * ident) : Prop := r_name r = fst u /\ D (r_sym r) (snd u).

Lemma small_lower t : small_letter t = lower t.
Proof.
  destruct t as [|c t]; auto. unfold small_letter, lower. destruct (N.leb_spec 97 c), (N.leb_spec c 122); cbn [andb]; apply Bool.eq_true_iff_eq; rewrite existsb_exists; split; try discriminate; auto.
  - intros _. exists c. split; [|apply N.eqb_refl]. apply in_map_iff. exists (N.to_nat c). split; [apply N2Nat.id|]. apply in_seq. lia.
  - intros (x & Hx & E). apply N.eqb_eq in E. subst x. apply in_map_iff in Hx as (k & <- & Hk). apply in_seq in Hk. lia.
  - intros (x & Hx & E). apply N.eqb_eq in E. subst x. apply in_map_iff in Hx as (k & <- & Hk). apply in_seq in Hk. lia.
  - intros (x & Hx & E). apply N.eqb_eq in E. subst x. apply in_map_iff in Hx as (k & <- & Hk). apply in_seq in Hk. lia.
Qed.
Lemma nothing_both x : nothing +++ x = x. Proof. destruct x. reflexivity. Qed.
Record m (P : rel -> Prop) (s s' : rstate) (ds : list rdef) (o : found) : Prop := mkM {
  m_defs : st_defs s' = st_defs s ++ ds;
  m_names : map d_name ds = snd o;
  m_refs : exists rf, st_refs s' = st_refs s ++ rf /\ forall D, P D -> all_in D ds -> Forall2 (use_ok D) rf (fst o) }.

Lemma m_nothing P s : m P s s [] nothing.
Proof. constructor; auto; [rewrite app_nil_r; auto|]. exists []. rewrite app_nil_r. split; [auto|intros; constructor]. Qed.
Lemma m_error P s : m P s (mkRstate (st_next s) (st_defs s) (st_refs s) false) [] nothing.
Proof. constructor; auto; [cbn; rewrite app_nil_r; auto|]. exists []. cbn. rewrite app_nil_r. split; [auto|intros; constructor]. Qed.
Lemma m_weak (P P' : rel -> Prop) s s' ds o : (forall D, P' D -> P D) -> m P s s' ds o -> m P' s s' ds o.
Proof. intros W [A B (rf & C & E)]. constructor; auto. exists rf. split; auto. Qed.
Lemma m_trans (P : rel -> Prop) s s1 s2 ds1 ds2 o1 o2 : m P s s1 ds1 o1 -> m (fun D => P D /\ all_in D ds1) s1 s2 ds2 o2 -> m P s s2 (ds1 ++ ds2) (o1 +++ o2).
Proof.
  intros [A1 A2 (r1 & A3 & A4)] [B1 B2 (r2 & B3 & B4)]. constructor.
  - rewrite B1, A1, app_assoc. auto.
  - rewrite map_app. cbn. congruence.
  - exists (r1 ++ r2). split; [rewrite B3, A3, app_assoc; auto|]. intros D HP HD. apply Forall_app in HD as [H1 H2]. cbn. apply Forall2_app; auto.
Qed.
(** Without a dependency on the first part. *)
Lemma m_seq (P : rel -> Prop) s s1 s2 ds1 ds2 o1 o2 : m P s s1 ds1 o1 -> m P s1 s2 ds2 o2 -> m P s s2 (ds1 ++ ds2) (o1 +++ o2).
Proof. intros A B. eapply m_trans; eauto. eapply m_weak; [|exact B]. tauto. Qed.

Lemma look_some l env n s : map fst l = map id_text env -> lookup_text l (id_text n) = Some s -> exists d, closest env n = Some d /\ forall D : rel, Forall2 D (map snd l) env -> D s d.
Proof.
  revert env. induction l as [|[t x] l IH]; intros [|d env] K; try discriminate. cbn in *. injection K as Kt K. rewrite <- Kt. destruct (text_eqb t (id_text n)).
  - intros E. injection E as <-. exists d. split; auto. intros D H. inversion H. auto.
  - intros E. destruct (IH _ K E) as (d' & E' & H). exists d'. split; auto. intros D Q. apply H. inversion Q. auto.
Qed.
Lemma look_none l env n : map fst l = map id_text env -> lookup_text l (id_text n) = None -> closest env n = None.
Proof.
  revert env. induction l as [|[t x] l IH]; intros [|d env] K; try discriminate; auto. cbn in *. injection K as Kt K. rewrite <- Kt. destruct (text_eqb t (id_text n)); [discriminate|]. apply IH. auto.
Qed.
(** A reference to a name found. *)
Lemma m_use (P : rel -> Prop) s l env n x : map fst l = map id_text env -> (forall D, P D -> Forall2 D (map snd l) env) -> lookup_text l (id_text n) = Some x ->
  exists d, closest env n = Some d /\ m P s (mkRstate (st_next s) (st_defs s) (st_refs s ++ [mkRref x n]) (st_ok s)) [] (use n d).
Proof.
  intros K HP E. destruct (look_some _ _ _ K E) as (d & C & H). exists d. split; auto. constructor; auto; [cbn; rewrite app_nil_r; auto|]. eexists. split; [reflexivity|].
  intros D HD _. constructor; [split; [reflexivity|exact (H D (HP D HD))]|constructor].
Qed.
Lemma keys_value c a n x : keys c a -> keys (add_value (id_text n) x c) (with_value n a).
Proof. intros (A & B & C). repeat split; cbn; congruence. Qed.
Lemma keys_type c a n x : keys c a -> keys (add_type (id_text n) x c) (with_type n a).
Proof. intros (A & B & C). repeat split; cbn; congruence. Qed.
Lemma sim_value c a n x (D : rel) : sim c a D -> D x n -> sim (add_value (id_text n) x c) (with_value n a) D.
Proof. intros (A & B & C) H. repeat split; cbn; auto. Qed.
Lemma sim_type c a n x (D : rel) : sim c a D -> D x n -> sim (add_type (id_text n) x c) (with_type n a) D.
Proof. intros (A & B & C) H. repeat split; cbn; auto. Qed.

Section Sim.
  Variable sy : nat -> sym.
  Lemma m_def P s s1 x k v n : fresh sy s = (x, s1) ->
    m P s (mkRstate (st_next s1) (st_defs s1 ++ [mkRdef x k v n]) (st_refs s1) (st_ok s1)) [mkRdef x k v n] (define n).
  Proof. unfold fresh. intros E. injection E as <- <-. constructor; auto. exists []. cbn. rewrite app_nil_r. split; [auto|intros; constructor]. Qed.
  Ltac rdef' := match goal with H : record_def _ _ = (_, _) |- _ => unfold record_def in H; injection H as <- <- end.
  Lemma nav_type c a (K : keys c a) : forall t s r s', resolve_type c t s = (r, s') -> m (sim c a) s s' [] (ty_names_of a t).
  Proof.
    induction t using xty_ind'; intros s r s' E; cbn [resolve_type ty_names_of] in *.
    1-3: rb; apply m_nothing.
    - rb. exact (m_seq (IHt1 _ _ _ H) (IHt2 _ _ _ H0)).
    - apply rbind_inv in E as (o & s1 & Eo & E). apply rbind_inv in E as (args' & s2 & Ea & E). unfold rret in E. injection E as <- <-.
      refine (@m_seq _ s s1 s2 [] [] _ _ _ _).
      + unfold look. destruct (lookup_text _ _) as [x|] eqn:El; rb.
        * destruct (@m_use (sim c a) s _ _ _ _ (proj1 (proj2 K)) (fun D H => proj1 (proj2 H)) El) as (d & -> & M). exact M.
        * rewrite (look_none _ _ _ (proj1 (proj2 K)) El). apply m_error.
      + clear - H Ea. revert s1 args' Ea. induction H as [|t args Ht _ IH]; intros s1 args' Ea; rb; [apply m_nothing|].
        exact (@m_seq _ _ _ _ [] [] _ _ (Ht _ _ _ H) (IH _ _ H0)).
    - eauto.
  Qed.
  (** What is known after a part with definitions: the scope it leaves. *)
  Definition leaves (c : scope) (a : around) (ds : list rdef) (c' : scope) (a' : around) : Prop :=
    keys c' a' /\ forall D, sim c a D -> all_in D ds -> sim c' a' D.
  Lemma leaves_refl c a : keys c a -> leaves c a [] c a. Proof. split; auto. Qed.
  Lemma leaves_trans c a d1 c1 a1 d2 c2 a2 : leaves c a d1 c1 a1 -> leaves c1 a1 d2 c2 a2 -> leaves c a (d1 ++ d2) c2 a2.
  Proof. intros [A1 A2] [B1 B2]. split; auto. intros D H Q. apply Forall_app in Q as [Q1 Q2]. auto. Qed.
  Lemma m_then c a s s1 s2 d1 d2 o1 o2 c1 a1 : m (sim c a) s s1 d1 o1 -> leaves c a d1 c1 a1 -> m (sim c1 a1) s1 s2 d2 o2 -> m (sim c a) s s2 (d1 ++ d2) (o1 +++ o2).
  Proof. intros A [_ L] B. eapply m_trans; [exact A|]. eapply m_weak; [|exact B]. intros D [H1 H2]. auto. Qed.
  Lemma leaves_value c a x k v n : keys c a -> leaves c a [mkRdef x k v n] (add_value (id_text n) x c) (with_value n a).
  Proof. intros K. split; [apply keys_value; auto|]. intros D H Q. inversion Q. apply sim_value; auto. Qed.
  Lemma leaves_type c a x k v n : keys c a -> leaves c a [mkRdef x k v n] (add_type (id_text n) x c) (with_type n a).
  Proof. intros K. split; [apply keys_type; auto|]. intros D H Q. inversion Q. apply sim_type; auto. Qed.

  Lemma nav_type_vars : forall t c a (K : keys c a) vars s r c' vars' s', resolve_type_vars sy t c vars s = (r, c', vars', s') ->
    exists ds, m (sim c a) s s' ds (fst (ann_names_of t a)) /\ leaves c a ds c' (snd (ann_names_of t a)).
  Proof.
    induction t using xty_ind'; intros c a K vars s r c' vars' s' E; cbn [resolve_type_vars ann_names_of] in *.
    1-3: unfold rret in E; injection E as <- <- <- <-; exists []; split; [apply m_nothing|apply leaves_refl; auto].
    - apply rbind_inv in E as ([[a' c1] v1] & s1 & Ea & E). apply rbind_inv in E as ([[b' c2] v2] & s2 & Eb & E). unfold rret in E. injection E as <- <- <- <-.
      destruct (IHt1 _ _ K _ _ _ _ _ _ Ea) as (d1 & A & L). destruct (ann_names_of t1 a) as [f a1]. cbn [fst snd] in *.
      destruct (IHt2 _ _ (proj1 L) _ _ _ _ _ _ Eb) as (d2 & B & L'). destruct (ann_names_of t2 a1) as [g a2]. cbn [fst snd] in *.
      exists (d1 ++ d2). split; [eapply m_then; eauto|eapply leaves_trans; eauto].
    - apply rbind_inv in E as ([[o c1] v1] & s1 & Eo & E). apply rbind_inv in E as ([[args' c2] v2] & s2 & Ea & E). unfold rret in E. injection E as <- <- <- <-.
      match goal with |- context [let '(f, a1) := ?p in _] => set (hd := p) end.
      assert (Q : exists ds, m (sim c a) s s1 ds (fst hd) /\ leaves c a ds c1 (snd hd)).
      { subst hd. destruct (lookup_text (sc_types c) (id_text n)) as [x|] eqn:El.
        - destruct (@m_use (sim c a) s _ _ _ _ (proj1 (proj2 K)) (fun D H => proj1 (proj2 H)) El) as (d & -> & M). rb. exists []. split; [exact M|apply leaves_refl; auto].
        - rewrite (look_none _ _ _ (proj1 (proj2 K)) El), small_lower. destruct (lower _ && _).
          + apply rbind_inv in Eo as (y0 & s0 & Ef & Eo). apply rbind_inv in Eo as (u & s3 & Ed & Eo). rdef'. unfold rret in Eo. injection Eo as <- <- <- <-.
            eexists. split; [apply m_def; eauto|apply leaves_type; auto].
          + rb. exists []. split; [apply m_error|apply leaves_refl; auto]. }
      destruct Q as (d1 & A & L). destruct hd as [f a1]. cbn [fst snd] in *.
      match goal with |- context [let '(g, a2) := ?p in _] => set (tl := p) end.
      assert (Q : exists ds, m (sim c1 a1) s1 s2 ds (fst tl) /\ leaves c1 a1 ds c2 (snd tl)).
      { subst tl. clear Eo A. pose proof (proj1 L) as K1. clear L. revert c1 a1 K1 v1 s1 args' Ea. induction H as [|t args Ht _ IH]; intros c1 a1 K1 v1 s1 args' Ea.
        - unfold rret in Ea. injection Ea as <- <- <- <-. exists []. split; [apply m_nothing|apply leaves_refl; auto].
        - apply rbind_inv in Ea as ([[t' c3] v3] & s3 & Et & Ea). apply rbind_inv in Ea as ([[r' c4] v4] & s4 & Er & Ea). unfold rret in Ea. injection Ea as <- -> -> ->.
          destruct (Ht _ _ K1 _ _ _ _ _ _ Et) as (d2 & A & L). destruct (ann_names_of t a1) as [g a3]. cbn [fst snd] in *.
          destruct (IH _ _ (proj1 L) _ _ _ Er) as (d3 & B & L'). match goal with |- context [let '(g, a2) := ?p in _] => destruct p as [h a4] end. cbn [fst snd] in *.
          exists (d2 ++ d3). split; [eapply m_then; eauto|eapply leaves_trans; eauto]. }
      destruct Q as (d2 & B & L'). destruct tl as [g a2]. cbn [fst snd] in *. exists (d1 ++ d2). split; [eapply m_then; eauto|eapply leaves_trans; eauto].
    - eauto.
  Qed.
  Lemma nav_ann ann c a (K : keys c a) s x c' s' : resolve_ann sy ann c s = (x, c', s') ->
    exists ds, m (sim c a) s s' ds (fst (opt_names_of ann a)) /\ leaves c a ds c' (snd (opt_names_of ann a)).
  Proof.
    destruct ann as [t|]; cbn [resolve_ann opt_names_of]; intros E.
    - apply rbind_inv in E as ([[t' c1] vars] & s1 & Et & E). unfold rret in E. injection E as <- <- <-. eapply nav_type_vars; eauto.
    - unfold rret in E. injection E as <- <- <-. exists []. split; [apply m_nothing|apply leaves_refl; auto].
  Qed.
  Lemma nav_vars : forall xs c a (K : keys c a) s l c' s', resolve_vars sy xs c s = (l, c', s') ->
    exists ds, m (sim c a) s s' ds ([], xs) /\ leaves c a ds c' (fold_left (fun a x => with_value x a) xs a).
  Proof.
    induction xs as [|x xs IH]; intros c a K s l c' s' E; cbn [resolve_vars fold_left] in *.
    - unfold rret in E. injection E as <- <- <-. exists []. split; [apply m_nothing|apply leaves_refl; auto].
    - apply rbind_inv in E as (y & s1 & Ef & E). apply rbind_inv in E as (u & s2 & Ed & E). rdef'.
      apply rbind_inv in E as ([l' c1] & s3 & Er & E). unfold rret in E. injection E as <- <- <-.
      pose proof (@leaves_value c a y (DValue [] IrInfer) Local x K) as L. destruct (IH _ _ (proj1 L) _ _ _ _ Er) as (ds & B & L').
      eexists ([_] ++ ds). split; [exact (m_then (@m_def (sim c a) s s1 y (DValue [] IrInfer) Local x Ef) L B)|eapply leaves_trans; eauto].
  Qed.
  Lemma nav_params : forall xs c a (K : keys c a) s l c' s', resolve_params sy xs c s = (l, c', s') ->
    exists ds, m (sim c a) s s' ds ([], xs) /\ leaves c a ds c' (fold_left (fun a x => with_type x a) xs a).
  Proof.
    induction xs as [|x xs IH]; intros c a K s l c' s' E; cbn [resolve_params fold_left] in *.
    - unfold rret in E. injection E as <- <- <-. exists []. split; [apply m_nothing|apply leaves_refl; auto].
    - apply rbind_inv in E as (y & s1 & Ef & E). apply rbind_inv in E as (u & s2 & Ed & E). rdef'.
      apply rbind_inv in E as ([l' c1] & s3 & Er & E). unfold rret in E. injection E as <- <- <-.
      pose proof (@leaves_type c a y type_var Local x K) as L. destruct (IH _ _ (proj1 L) _ _ _ _ Er) as (ds & B & L').
      eexists ([_] ++ ds). split; [exact (m_then (@m_def (sim c a) s s1 y type_var Local x Ef) L B)|eapply leaves_trans; eauto].
  Qed.
  Lemma nav_expr : forall e c a (K : keys c a) s r s', resolve_expr sy e c s = (r, s') -> exists ds, m (sim c a) s s' ds (expr_names_of e a).
  Proof.
    induction e using xexpr_ind'; intros c a' K s r s' E; cbn [resolve_expr expr_names_of] in *.
    - unfold look. destruct (lookup_text _ _) as [x|] eqn:El; rb; exists [].
      + destruct (@m_use (sim c a') s _ _ _ _ (proj1 K) (fun D H => proj1 H) El) as (d & -> & M). exact M.
      + rewrite (look_none _ _ _ (proj1 K) El). apply m_error.
    - rb. destruct (IHe1 _ _ K _ _ _ H) as (d1 & A), (IHe2 _ _ K _ _ _ H0) as (d2 & B). exists (d1 ++ d2). exact (m_seq A B).
    - rb. destruct (IHe1 _ _ K _ _ _ H) as (d1 & A), (IHe2 _ _ K _ _ _ H0) as (d2 & B). exists (d1 ++ d2). exact (m_seq A B).
    - rb. destruct (IHe1 _ _ K _ _ _ H) as (d1 & A), (IHe2 _ _ K _ _ _ H0) as (d2 & B). exists (d1 ++ d2). exact (m_seq A B).
    - apply rbind_inv in E as ([an c1] & s1 & Ea & E). apply rbind_inv in E as (v' & s2 & Ev & E). apply rbind_inv in E as (x & s3 & Ef & E).
      apply rbind_inv in E as (u & s4 & Ed & E). rdef'. apply rbind_inv in E as (e' & s5 & Ee & E). rb. cbn [fst snd] in *.
      destruct (nav_ann _ K _ Ea) as (d1 & A & L1). destruct (IHe1 _ _ (proj1 L1) _ _ _ Ev) as (d2 & B).
      pose proof (@leaves_value c a' x (ann_def an) Local n K) as L. destruct (IHe2 _ _ (proj1 L) _ _ _ Ee) as (d3 & C).
      eexists (d1 ++ d2 ++ _ ++ d3). eapply m_trans; [exact A|]. eapply m_seq; [eapply m_weak; [|exact B]; intros D [H1 H2]; apply L1; auto|].
      eapply m_weak; [intros D [H _]; exact H|]. exact (m_then (@m_def (sim c a') s2 s3 x (ann_def an) Local n Ef) L C).
    - apply rbind_inv in E as (d' & s1 & Ed & E). apply rbind_inv in E as (cs' & s2 & Ec & E). rb. destruct (IHe _ _ K _ _ _ Ed) as (d1 & A).
      match goal with |- context [_ +++ ?p] => set (tl := p) end.
      assert (Q : exists ds, m (sim c a') s1 s2 ds tl).
      { subst tl. clear - H Ec K. revert s1 cs' Ec. induction H as [|[[n xs] b] cs Hb _ IH]; intros s1 cs' Ec; [rb; exists []; apply m_nothing|].
        apply rbind_inv in Ec as (k & s3 & Ek & Ec). apply rbind_inv in Ec as ([vs c1] & s4 & Ev & Ec). apply rbind_inv in Ec as (b' & s5 & Eb & Ec).
        apply rbind_inv in Ec as (r' & s6 & Er & Ec). rb. cbn [fst snd] in *. destruct (IH _ _ Er) as (d4 & D4).
        destruct (nav_vars _ K _ Ev) as (d2 & B & L). destruct (Hb _ _ (proj1 L) _ _ _ Eb) as (d3 & C).
        exists ([] ++ d2 ++ d3 ++ d4). eapply m_seq.
        - unfold resolve_ctor in Ek. unfold look. destruct (lookup_text _ _) as [x|] eqn:El; rb.
          + destruct (@m_use (sim c a') s1 _ _ _ _ (proj2 (proj2 K)) (fun D H => proj2 (proj2 H)) El) as (d & -> & M). exact M.
          + rewrite (look_none _ _ _ (proj2 (proj2 K)) El). apply m_error.
        - eapply m_trans; [exact B|]. eapply m_seq; [eapply m_weak; [|exact C]; intros D [H1 H2]; apply L; auto|]. eapply m_weak; [intros D [H _]; exact H|exact D4]. }
      destruct Q as (d2 & B). exists (d1 ++ d2). exact (m_seq A B).
    - rb. destruct (IHe1 _ _ K _ _ _ H) as (d1 & A), (IHe2 _ _ K _ _ _ H0) as (d2 & B), (IHe3 _ _ K _ _ _ H1) as (d3 & C).
      exists (d1 ++ d2 ++ d3). exact (m_seq A (m_seq B C)).
    - rb. exists []. apply m_nothing.
    - rb. exists []. apply m_nothing.
    - rb. exists []. apply m_nothing.
    - apply rbind_inv in E as (x & s3 & Ef & E). apply rbind_inv in E as (u & s4 & Ed & E). rdef'. apply rbind_inv in E as (e' & s5 & Ee & E). rb.
      pose proof (@leaves_value c a' x (DValue [] IrInfer) Local n K) as L. destruct (IHe _ _ (proj1 L) _ _ _ Ee) as (d3 & C). eexists (_ ++ d3).
      exact (m_then (@m_def (sim c a') s s3 x (DValue [] IrInfer) Local n Ef) L C).
    - rb. eauto.
    - rb. exists []. apply m_nothing.
  Qed.
  Lemma nav_fields c a (K : keys c a) : forall fs s l s', resolve_fields c fs s = (l, s') -> m (sim c a) s s' [] (fields_names_of a fs).
  Proof.
    induction fs as [|[t|] fs IH]; intros s l s' E; cbn [resolve_fields fields_names_of] in *.
    - rb. apply m_nothing.
    - apply rbind_inv in E as (t' & s1 & Et & E). apply rbind_inv in E as (l' & s2 & El & E). rb. exact (@m_seq _ _ _ _ [] [] _ _ (nav_type K _ _ Et) (IH _ _ _ El)).
    - apply rbind_inv in E as (l' & s2 & El & E). rb. eauto.
  Qed.
  Lemma nav_cases v ty ps c a (K : keys c a) : forall cs seen sn s l s', seen = map id_text sn -> resolve_cases sy v ty ps c seen cs s = (l, s') ->
    exists ds, m (sim c a) s s' ds (cases_names_of a sn cs) /\ Forall (fun d => d_vis d = v /\ exists k f, d_kind d = DCtor k f) ds.
  Proof.
    induction cs as [|[n fs] cs IH]; intros seen sn s l s' Es E; cbn [resolve_cases cases_names_of] in *.
    - rb. exists []. split; [apply m_nothing|constructor].
    - apply rbind_inv in E as (fs' & s1 & Ef & E). pose proof (nav_fields K _ _ Ef) as A.
      assert (Q : existsb (text_eqb (id_text n)) seen = match closest sn n with Some _ => true | None => false end).
      { subst seen. clear. unfold closest. induction sn as [|d sn IH]; cbn; auto. unfold text_eqb at 1 3. destruct (list_eq_dec _ (id_text n) (id_text d)), (list_eq_dec _ (id_text d) (id_text n)); try congruence; auto. }
      rewrite Q in E. destruct (closest sn n).
      + rb. destruct (IH _ _ _ _ _ Es E) as (ds & B & V). exists ([] ++ ds). split; [|auto]. eapply m_seq; [exact A|].
        pose proof (@m_seq _ _ _ _ [] ds nothing _ (m_error _ s1) B) as Z. rewrite nothing_both in Z. exact Z.
      + apply rbind_inv in E as (x & s3 & Ex & E). apply rbind_inv in E as (u & s4 & Ed & E). rdef'. apply rbind_inv in E as (r' & s5 & Er & E). rb.
        destruct (IH _ (n :: sn) _ _ _ (f_equal (cons (id_text n)) Es) Er) as (ds & B & V). eexists ([] ++ [_] ++ ds). split.
        * eapply m_seq; [exact A|]. eapply m_seq; [|exact B]. apply m_def. eauto.
        * constructor; auto. cbn. split; eauto.
  Qed.

  (** ** Items *)
  Lemma snd_both x y : snd (x +++ y) = snd x ++ snd y. Proof. auto. Qed.
  Lemma snd_look l n : snd (look l n) = []. Proof. unfold look. destruct (closest l n); auto. Qed.
  Lemma ty_no_binders a : forall t, snd (ty_names_of a t) = [].
  Proof.
    induction t using xty_ind'; cbn [ty_names_of]; auto.
    - cbn. rewrite IHt1, IHt2. auto.
    - rewrite snd_both, snd_look. cbn [app].
      induction args as [|t args IH]; auto. inversion_clear H as [|? ? Ht H0]. rewrite snd_both, Ht. exact (IH H0).
  Qed.
  Lemma fields_no_binders a : forall fs, snd (fields_names_of a fs) = [].
  Proof. induction fs as [|[t|] fs IH]; cbn; auto. rewrite ty_no_binders, IH. auto. Qed.
  Lemma case_binders a : forall cs seen, snd (cases_names_of a seen cs) = snd (cases_names_of (mkAround [] [] []) seen cs).
  Proof.
    induction cs as [|[n fs] cs IH]; intros seen; cbn [cases_names_of]; auto. cbn. rewrite !fields_no_binders. cbn. destruct (closest seen n); cbn; rewrite IH; auto.
  Qed.
  Lemma leaves_ctors v (Hv : v <> Local) : forall ds c a, keys c a -> Forall (fun d => d_vis d = v /\ exists k f, d_kind d = DCtor k f) ds ->
    leaves c a ds (add_defs c ds) (fold_left (fun a k => with_ctor k a) (map d_name ds) a).
  Proof.
    induction ds as [|d ds IH]; intros c a K F; [apply leaves_refl; auto|]. pose proof (Forall_inv F) as (V & k & f & Ek). pose proof (Forall_inv_tail F) as F'.
    cbn [map fold_left]. change (add_defs c (d :: ds)) with (add_defs (add_def c d) ds). change (d :: ds) with ([d] ++ ds).
    assert (E : add_def c d = add_ctor (id_text (d_name d)) (d_sym d) c) by (unfold add_def; rewrite V, Ek; destruct v; congruence). rewrite E.
    assert (L : leaves c a [d] (add_ctor (id_text (d_name d)) (d_sym d) c) (with_ctor (d_name d) a)).
    { destruct K as (K1 & K2 & K3). split; [repeat split; cbn; congruence|]. intros D (S1 & S2 & S3) Q. inversion Q. repeat split; cbn; auto. }
    eapply leaves_trans; [exact L|]. apply IH; auto. apply L.
  Qed.
  Lemma leaves_more c a d1 d2 c' a' : leaves c a d2 c' a' -> leaves c a (d1 ++ d2) c' a'.
  Proof. intros [A B]. split; auto. intros D S Q. apply Forall_app in Q as [_ Q]. auto. Qed.
  Lemma leaves_less c a d1 d2 c' a' : leaves c a d1 c' a' -> leaves c a (d1 ++ d2) c' a'.
  Proof. intros [A B]. split; auto. intros D S Q. apply Forall_app in Q as [Q _]. auto. Qed.
  Lemma nav_item i c a (K : keys c a) s r s' : resolve_item sy i c s = (r, s') ->
    exists ds, m (sim c a) s s' ds (item_names_of i a) /\ leaves c a ds (add_defs c ds) (after_item i a).
  Proof.
    destruct i as [n export ec ps cs|n export ann body]; cbn [resolve_item item_names_of after_item]; intros E.
    - apply rbind_inv in E as (x & s1 & Ex & E). apply rbind_inv in E as ([ps' c1] & s2 & Ep & E). apply rbind_inv in E as (cs' & s3 & Ec & E).
      apply rbind_inv in E as (u & s4 & Ed & E). rdef'. unfold fresh in Ex. injection Ex as <- <-. rb. cbn [fst snd] in *.
      destruct (nav_params _ K _ Ep) as (d1 & A & L). apply resolve_params_ok in Ep as (d1' & S1 & _).
      assert (d1' = d1) by (pose proof (sp_defs S1) as Q; rewrite (m_defs A) in Q; apply app_inv_head in Q; auto). subst d1'.
      destruct (@nav_cases (if ec then Export else Module) (sy (st_next s)) ps' c1 _ (proj1 L) _ [] [] _ _ _ eq_refl Ec) as (d2 & B & V).
      set (d := mkRdef (sy (st_next s)) (DType (length ps') (CtorList (map fst cs'))) (if export then Export else Module) n).
      exists (d1 ++ d2 ++ [d]). split.
      + assert (A' : m (sim c a) s s2 d1 ([], ps)) by (destruct A as [A1 A2 A3]; constructor; auto).
        eapply m_trans; [exact A'|]. eapply m_seq; [eapply m_weak; [|exact B]; intros D [H1 H2]; apply L; auto|].
        constructor; auto. exists []. cbn. rewrite app_nil_r. split; [auto|intros; constructor].
      + rewrite !add_defs_app, (add_defs_local _ (sp_vis S1)). apply leaves_more.
        assert (Hv : (if ec then Export else Module) <> Local) by (destruct ec; discriminate).
        pose proof (@leaves_ctors _ Hv d2 c a K V) as L2. rewrite (m_names B), case_binders in L2. eapply leaves_trans; [exact L2|].
        pose proof (@leaves_type _ _ (d_sym d) (d_kind d) (d_vis d) n (proj1 L2)) as L3. unfold add_defs at 1, add_def at 1. cbn in *. destruct export; exact L3.
    - apply rbind_inv in E as ([an c1] & s1 & Ea & E). apply rbind_inv in E as (x & s2 & Ex & E). apply rbind_inv in E as (u & s3 & Ed & E). rdef'.
      apply rbind_inv in E as (b & s4 & Eb & E). rb. cbn [fst snd] in *. destruct (nav_ann _ K _ Ea) as (d1 & A & L). apply resolve_ann_ok in Ea as (d1' & S1 & _).
      assert (d1' = d1) by (pose proof (sp_defs S1) as Q; rewrite (m_defs A) in Q; apply app_inv_head in Q; auto). subst d1'.
      set (d := mkRdef x (ann_def an) (if export then Export else Module) n) in *.
      assert (Q : exists d3, m (sim c1 (snd (opt_names_of ann a))) (mkRstate (st_next s2) (st_defs s2 ++ [d]) (st_refs s2) (st_ok s2)) s4 d3
                    (match body with inl _ => nothing | inr e => expr_names_of e (snd (opt_names_of ann a)) end) /\ Forall local d3).
      { destruct body as [bi|e]; [rb; exists []; split; [apply m_nothing|constructor]|]. apply rbind_inv in Eb as (e' & s5 & Ee & Eb). rb.
        destruct (nav_expr _ (proj1 L) _ Ee) as (d3 & C). apply resolve_expr_ok in Ee as (d3' & S3). exists d3. split; auto.
        assert (d3' = d3) by (pose proof (sp_defs S3) as Q; rewrite (m_defs C) in Q; apply app_inv_head in Q; auto). subst d3'. apply (sp_vis S3). }
      destruct Q as (d3 & C & V3). exists (d1 ++ [d] ++ d3). split.
      + eapply m_trans; [exact A|]. eapply m_seq; [exact (@m_def _ _ _ x (ann_def an) (if export then Export else Module) n Ex)|]. eapply m_weak; [|exact C]. intros D [H1 H2]. apply L; auto.
      + rewrite !add_defs_app, (add_defs_local _ (sp_vis S1)), (add_defs_local _ V3). apply leaves_more, leaves_less.
        pose proof (@leaves_value c a (d_sym d) (d_kind d) (d_vis d) n K) as L3. unfold add_defs, add_def, ann_def in *. cbn in *. destruct an as [[vs t]|]; destruct export; exact L3.
  Qed.
End Sim.
