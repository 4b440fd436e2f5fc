(** Correctness of the unifier. *)
From Verif Require Import Unify UnifySpec.
Set Implicit Arguments.

Fixpoint vars (t : term) : list nat :=
  match t with TUnknown v => [v] | TNode _ a b => vars a ++ vars b | _ => [] end.
Fixpoint tsize (t : term) : nat := match t with TNode _ a b => S (tsize a + tsize b) | _ => 1 end.

Lemma obind_done A B (o : out A) (f : A -> out B) b : obind o f = Done b -> exists a, o = Done a /\ f a = Done b.
Proof. destruct o; cbn; intros; try discriminate. eauto. Qed.

(** *** Resolution *)
Lemma resolves_fun u i t : resolves u i t -> forall t', resolves u i t' -> t = t'.
Proof.
  induction 1; intros t' H'; inversion H'; subst; try congruence; auto.
  - rewrite H in H1. injection H1 as ->. auto.
  - rewrite H in H2. injection H2 as -> ->. f_equal; auto.
  - rewrite H in H2. injection H2 as -> ->. f_equal; auto.
  - rewrite H in H2. injection H2 as -> ->. f_equal; auto.
Qed.

Record inv (u : uni) : Prop := {
  inv_nodup : NoDup (map fst (pending u));
  inv_pend : forall k s, In (k, s) (pending u) -> nth_error (slots u) k = Some Infer /\ exists j, s = Next j;
  inv_acyc : forall i, i < length (slots u) -> exists t, resolves u i t }.

Lemma assoc_in A k (l : list (nat * A)) v : assoc k l = Some v -> In (k, v) l.
Proof.
  induction l as [|[k' v'] l IH]; cbn; [discriminate|]. destruct (Nat.eqb_spec k' k) as [->|]; intros E.
  - injection E as ->. auto.
  - auto.
Qed.
Lemma assoc_none A k (l : list (nat * A)) : assoc k l = None <-> ~ In k (map fst l).
Proof.
  induction l as [|[k' v'] l IH]; cbn; [tauto|]. destruct (Nat.eqb_spec k' k) as [->|Hne].
  - split; [discriminate|]. intros H. exfalso; auto.
  - rewrite IH. tauto.
Qed.

Lemma get_lt u i s : inv u -> get u i = Some s -> i < length (slots u).
Proof.
  intros Hi E. unfold get in E. destruct (assoc i (pending u)) eqn:Ea.
  - apply assoc_in in Ea. destruct (inv_pend Hi _ _ Ea) as [H _]. apply nth_error_Some. congruence.
  - apply nth_error_Some. congruence.
Qed.
Lemma get_some u i : i < length (slots u) -> exists s, get u i = Some s.
Proof.
  intros H. unfold get. destruct (assoc i (pending u)); eauto.
  destruct (nth_error (slots u) i) eqn:E; eauto. apply nth_error_None in E. lia.
Qed.
Lemma resolves_lt u i t : inv u -> resolves u i t -> i < length (slots u).
Proof. intros Hi H. inversion H; subst; eapply get_lt; eauto. Qed.

Lemma final_spec k : forall u i j, final_idx k u i = Done j ->
  (get u j = Some Infer \/ exists t, get u j = Some (STy t)) /\ (forall t, resolves u i t <-> resolves u j t).
Proof.
  induction k as [|k IH]; intros u i j E; cbn in E; [discriminate|].
  destruct (get u i) as [[|n|t]|] eqn:Eg; try discriminate.
  - injection E as <-. split; [auto|tauto].
  - destruct (IH _ _ _ E) as [H1 H2]. split; auto. intros t. rewrite <- H2. split; intros H.
    + inversion H; subst; congruence.
    + eapply res_next; eauto.
  - injection E as <-. split; [eauto|tauto].
Qed.
Lemma final_self k u i : get u i = Some Infer \/ (exists t, get u i = Some (STy t)) -> final_idx (S k) u i = Done i.
Proof. cbn. intros [->|[t ->]]; auto. Qed.
Lemma norm_spec k u i n : normalize k u i = Done n -> exists j, final_idx k u i = Done j /\
  match n with Some t => get u j = Some (STy t) | None => get u j = Some Infer end.
Proof.
  intros E. apply obind_done in E as (j & Ej & E). exists j. split; auto.
  destruct (get u j) as [[|m|t]|]; try discriminate; injection E as <-; auto.
Qed.
(** On an index that is already final. *)
Lemma norm_final k u i n : normalize k u i = Done n -> get u i = Some Infer \/ (exists t, get u i = Some (STy t)) ->
  match n with Some t => get u i = Some (STy t) | None => get u i = Some Infer end.
Proof.
  intros E Hf. apply norm_spec in E as (j & Ej & E). destruct k as [|k]; [discriminate|].
  rewrite (final_self k _ _ Hf) in Ej. injection Ej as <-. auto.
Qed.

Lemma res_infer_inv u i t : resolves u i t -> get u i = Some Infer -> t = TUnknown i.
Proof. intros H E. inversion H; subst; congruence. Qed.

Lemma occurs_spec k : forall u v i t b, occurs k u v i = Done b -> get u v = Some Infer -> resolves u i t ->
  (b = true <-> In v (vars t)).
Proof.
  induction k as [|k IH]; intros u v i t b E Hv Ht; [discriminate|]. cbn [occurs] in E.
  apply obind_done in E as (j & Ej & E). destruct (final_spec _ _ _ Ej) as [Hj Hres]. apply Hres in Ht.
  destruct (Nat.eqb_spec v j) as [<-|Hne].
  - injection E as <-. rewrite (res_infer_inv Ht Hv). cbn. tauto.
  - apply obind_done in E as (n & En & E). pose proof (norm_final _ _ _ En Hj) as Hn.
    destruct n as [n|].
    + assert (Hnode : forall a c nd, t = nd -> forall ta tc, resolves u a ta -> resolves u c tc -> vars nd = vars ta ++ vars tc ->
         (r <~ occurs k u v a;; (if r then Done true else occurs k u v c)) = Done b -> b = true <-> In v (vars t)).
      { intros a c nd -> ta tc Ha Hc Hvs E'. rewrite Hvs, in_app_iff. apply obind_done in E' as (r & Er & E').
        pose proof (IH _ _ _ _ _ Er Hv Ha) as H1. destruct r.
        - injection E' as <-. tauto.
        - pose proof (IH _ _ _ _ _ E' Hv Hc) as H2. rewrite H2. split; [auto|]. intros [H|H]; auto. apply H1 in H. discriminate. }
      inversion Ht; subst; rewrite Hn in *; try discriminate;
        match goal with H : Some _ = Some _ |- _ => injection H as H; subst end; cbn [vars];
        try (injection E as <-; split; [discriminate|intros []]); refine (Hnode _ _ _ eq_refl _ _ _ _ _ E); try eassumption; try reflexivity.
    + injection E as <-. rewrite (res_infer_inv Ht Hn). cbn. split; [discriminate|]. intros [H|[]]. congruence.
Qed.

(** *** Substitutions *)
Definition single (v : nat) (s : term) : nat -> term := fun x => if Nat.eqb x v then s else TUnknown x.
Lemma subst_id t : subst TUnknown t = t.
Proof. induction t; cbn; congruence. Qed.
Lemma subst_ext f g t : (forall v, In v (vars t) -> f v = g v) -> subst f t = subst g t.
Proof. induction t; cbn; intros H; auto. rewrite IHt1, IHt2; auto; intros; apply H, in_or_app; auto. Qed.
Lemma subst_comp f g t : subst f (subst g t) = subst (fun v => subst f (g v)) t.
Proof. induction t; cbn; congruence. Qed.
Lemma subst_single_notin v s t : ~ In v (vars t) -> subst (single v s) t = t.
Proof.
  intros H. rewrite <- (subst_id t) at 2. apply subst_ext. intros x Hx. unfold single.
  destruct (Nat.eqb_spec x v); auto. congruence.
Qed.
Lemma agree_refl t : agree t t.
Proof. induction t; constructor; auto. Qed.
Lemma agree_sym t t' : agree t t' -> agree t' t.
Proof. induction 1; constructor; auto. Qed.
Lemma agree_subst f t t' : agree t t' -> agree (subst f t) (subst f t').
Proof. induction 1; cbn; try constructor; auto. apply agree_refl. Qed.
Lemma agree_eq t t' : agree t t' -> error_free t -> error_free t' -> t = t'.
Proof. induction 1; cbn; intros; try tauto. f_equal; tauto. Qed.
Lemma ef_subst f t : error_free t -> (forall v, In v (vars t) -> error_free (f v)) -> error_free (subst f t).
Proof. induction t; cbn; intros H Hf; auto. split; [apply IHt1|apply IHt2]; try tauto; intros; apply Hf, in_or_app; auto. Qed.
Lemma tsize_pos t : 0 < tsize t.
Proof. destruct t; cbn; lia. Qed.
Lemma occurs_size f v t : In v (vars t) -> tsize (f v) <= tsize (subst f t).
Proof.
  induction t; cbn; intros H; try tauto.
  - destruct H as [->|[]]; auto.
  - apply in_app_or in H as [H|H]; [apply IHt1 in H|apply IHt2 in H]; lia.
Qed.
(** The occurs check rejects only impossible equations. *)
Lemma occurs_no_unifier f v t : In v (vars t) -> t <> TUnknown v -> f v <> subst f t.
Proof.
  intros H Hne E. destruct t as [w| | |n a b]; cbn in H; try tauto.
  - destruct H as [->|[]]. auto.
  - cbn in E. assert (Hs : tsize (f v) = S (tsize (subst f a) + tsize (subst f b))) by (rewrite E; auto).
    apply in_app_or in H as [H|H]; apply (occurs_size f) in H; lia.
Qed.

(** *** Binding a variable *)
Lemma get_bind u v j i : get (bind u v j) i = if Nat.eqb v i then Some (Next j) else get u i.
Proof. unfold get, bind. cbn. destruct (Nat.eqb_spec v i); auto. Qed.

Lemma resolves_bind_same u v j i t : resolves u i t -> get u v = Some Infer -> ~ In v (vars t) -> resolves (bind u v j) i t.
Proof.
  intros H Hv. induction H; intros Hn; cbn in Hn;
  try (match goal with H : get u ?i = _ |- _ => assert (Hx : get (bind u v j) i = get u i) by
    (rewrite get_bind; destruct (Nat.eqb_spec v i); auto; subst; try tauto; congruence) end).
  - apply res_infer. congruence.
  - eapply res_next; [rewrite Hx; eauto|]. auto.
  - apply res_bool; congruence.
  - apply res_int; congruence.
  - apply res_string; congruence.
  - apply res_named; congruence.
  - apply res_error; congruence.
  - rewrite in_app_iff in Hn. eapply res_apply; [rewrite Hx; eauto| |]; auto.
  - rewrite in_app_iff in Hn. eapply res_fn; [rewrite Hx; eauto| |]; auto.
  - rewrite in_app_iff in Hn. eapply res_folded; [rewrite Hx; eauto| |]; auto.
Qed.

Lemma resolves_bind u v j s : get u v = Some Infer -> resolves u j s -> ~ In v (vars s) ->
  forall i t, resolves u i t -> resolves (bind u v j) i (subst (single v s) t).
Proof.
  intros Hv Hs Hn i t H. pose proof (resolves_bind_same v j Hs Hv Hn) as Hs'.
  induction H; cbn [subst];
  try (match goal with H : get u ?i = _ |- _ => assert (Hx : v <> i -> get (bind u v j) i = get u i) by
    (intros; rewrite get_bind; destruct (Nat.eqb_spec v i); congruence) end);
  try (match type of Hx with v <> ?i -> _ => assert (Hvi : v <> i) by congruence; specialize (Hx Hvi) end).
  - unfold single. destruct (Nat.eqb_spec i v) as [->|Hne].
    + eapply res_next; [|eauto]. rewrite get_bind, Nat.eqb_refl. auto.
    + apply res_infer. rewrite Hx; auto.
  - eapply res_next; [rewrite Hx; eauto|]. auto.
  - apply res_bool; congruence.
  - apply res_int; congruence.
  - apply res_string; congruence.
  - apply res_named; congruence.
  - apply res_error; congruence.
  - eapply res_apply; [rewrite Hx; eauto| |]; auto.
  - eapply res_fn; [rewrite Hx; eauto| |]; auto.
  - eapply res_folded; [rewrite Hx; eauto| |]; auto.
Qed.

Lemma inv_bind u v j s : inv u -> get u v = Some Infer -> resolves u j s -> ~ In v (vars s) -> inv (bind u v j).
Proof.
  intros Hi Hv Hs Hn. constructor.
  - cbn. constructor; [|apply Hi]. intros Hin. unfold get in Hv.
    destruct (assoc v (pending u)) eqn:Ea; [|apply assoc_none in Ea; auto].
    apply assoc_in in Ea. destruct (inv_pend Hi _ _ Ea) as (_ & j' & ->). discriminate.
  - cbn. intros k x [E|Hin]; [|apply Hi; auto]. injection E as <- <-. split; [|eauto].
    unfold get in Hv. destruct (assoc v (pending u)) eqn:Ea; [|auto].
    apply assoc_in in Ea. destruct (inv_pend Hi _ _ Ea) as (_ & j' & ->). discriminate.
  - cbn [bind slots]. intros i Hl. destruct (inv_acyc Hi Hl) as [t Ht]. eexists. eapply resolves_bind; eauto.
Qed.

(** *** Unification *)
Definition infers (u : uni) : nat :=
  length (filter (fun i => match get u i with Some Infer => true | _ => false end) (List.seq 0 (length (slots u)))).

Lemma filter_less {A} (p q : A -> bool) l : (forall x, In x l -> q x = true -> p x = true) ->
  length (filter q l) <= length (filter p l) /\
  forall y, In y l -> p y = true -> q y = false -> length (filter q l) < length (filter p l).
Proof.
  induction l as [|x l IH]; intros H; [split; [auto|intros y []]|]. destruct IH as [I1 I2]; [intros; apply H; auto; right; auto|].
  cbn. pose proof (H x (or_introl eq_refl)) as Hx. split.
  - destruct (q x) eqn:Eq, (p x) eqn:Ep; cbn; try lia; try (discriminate Hx; auto).
  - intros y [<-|Hy] Hp Hq.
    + rewrite Hp, Hq. cbn. lia.
    + specialize (I2 y Hy Hp Hq). destruct (q x) eqn:Eq, (p x) eqn:Ep; cbn; try lia; try (discriminate Hx; auto).
Qed.
Lemma infers_bind u v j : inv u -> get u v = Some Infer -> infers (bind u v j) < infers u.
Proof.
  intros Hi Hv. unfold infers. cbn [bind slots].
  apply filter_less with (y := v).
  - intros x _. fold (bind u v j). rewrite get_bind. destruct (Nat.eqb v x); auto. discriminate.
  - apply in_seq. split; [lia|]. cbn. eapply get_lt; eauto.
  - rewrite Hv. auto.
  - fold (bind u v j). rewrite get_bind, Nat.eqb_refl. auto.
Qed.

(** What one call of [unify] guarantees. *)
Record unified (u : uni) (t1 t2 : term) (u' : uni) (b : bool) (f : nat -> term) : Prop := {
  uf_slots : slots u' = slots u;
  uf_inv : inv u';
  uf_res : forall i t, resolves u i t -> resolves u' i (subst f t);
  uf_fewer : u' = u \/ infers u' < infers u;
  uf_agree : b = true -> agree (subst f t1) (subst f t2);
  uf_ef : error_free t1 -> error_free t2 -> forall t, error_free t -> error_free (subst f t);
  uf_mgu : error_free t1 -> error_free t2 -> forall s, subst s t1 = subst s t2 ->
           b = true /\ forall t, subst s (subst f t) = subst s t }.

Lemma unified_same u t1 t2 b : inv u -> (b = true -> agree t1 t2) ->
  (error_free t1 -> error_free t2 -> forall s, subst s t1 = subst s t2 -> b = true) ->
  unified u t1 t2 u b TUnknown.
Proof.
  intros Hi Hb Hm. constructor; auto; try (intros; rewrite ?subst_id; auto).
  split; [eapply Hm; eauto|]. intros; rewrite subst_id; auto.
Qed.

Lemma unified_bind u v j s t1 t2 : inv u -> get u v = Some Infer -> resolves u j s -> ~ In v (vars s) ->
  t1 = TUnknown v /\ t2 = s \/ t1 = s /\ t2 = TUnknown v ->
  unified u t1 t2 (bind u v j) true (single v s).
Proof.
  intros Hi Hv Hs Hn Ht.
  assert (E1 : subst (single v s) (TUnknown v) = s) by (cbn; unfold single; rewrite Nat.eqb_refl; auto).
  assert (E2 : subst (single v s) s = s) by (apply subst_single_notin; auto).
  constructor; auto.
  - eapply inv_bind; eauto.
  - eapply resolves_bind; eauto.
  - right. eapply infers_bind; eauto.
  - intros _. destruct Ht as [[-> ->]|[-> ->]]; rewrite E1, E2; apply agree_refl.
  - intros H1 H2 t Ht'. apply ef_subst; auto. intros x Hx. unfold single. destruct (Nat.eqb x v); [|cbn; auto].
    destruct Ht as [[-> ->]|[-> ->]]; auto.
  - intros H1 H2 sg E. split; auto. intros t. rewrite subst_comp. apply subst_ext. intros x _. unfold single.
    destruct (Nat.eqb_spec x v) as [->|]; [|reflexivity].
    destruct Ht as [[-> ->]|[-> ->]]; cbn in E; auto.
Qed.

Lemma unified_node u n a1 a2 b1 b2 u1 r1 f1 u2 r2 f2 :
  unified u a1 b1 u1 r1 f1 -> r1 = true ->
  unified u1 (subst f1 a2) (subst f1 b2) u2 r2 f2 ->
  unified u (TNode n a1 a2) (TNode n b1 b2) u2 r2 (fun v => subst f2 (f1 v)).
Proof.
  intros [S1 I1 R1 F1 A1 E1 M1] -> [S2 I2 R2 F2 A2 E2 M2]. constructor; auto.
  - congruence.
  - intros i t H. rewrite <- subst_comp. auto.
  - destruct F1 as [->|F1]; destruct F2 as [->|F2]; auto; try (right; lia).
  - intros ->. rewrite <- !subst_comp. cbn [subst]. constructor; auto. apply agree_subst. auto.
  - cbn. intros [H1 H2] [H3 H4] t Ht. rewrite <- subst_comp. auto.
  - cbn. intros [H1 H2] [H3 H4] s E. injection E as E1' E2'.
    destruct (M1 H1 H3 s E1') as [_ M1']. destruct (M2 (E1 H1 H3 _ H2) (E1 H1 H3 _ H4) s) as [Hr M2'].
    { rewrite !M1'. auto. }
    split; auto. intros t. rewrite <- subst_comp, M2', M1'. auto.
Qed.
Lemma unified_node_fail u n a1 a2 b1 b2 u1 f1 :
  unified u a1 b1 u1 false f1 ->
  unified u (TNode n a1 a2) (TNode n b1 b2) u1 false f1.
Proof.
  intros [S1 I1 R1 F1 A1 E1 M1]. constructor; auto; try discriminate.
  - cbn. intros [H1 H2] [H3 H4]. auto.
  - cbn. intros [H1 H2] [H3 H4] s E. injection E as E1' E2'. destruct (M1 H1 H3 s E1'). discriminate.
Qed.

Lemma unify_spec k : forall u i1 i2 u' b t1 t2, inv u -> resolves u i1 t1 -> resolves u i2 t2 ->
  unify k u i1 i2 = Done (u', b) -> exists f, unified u t1 t2 u' b f.
Proof.
  induction k as [|k IH]; intros u i1 i2 u' b t1 t2 Hi H1 H2 E; [discriminate|]. cbn [unify] in E.
  apply obind_done in E as (f1 & E1 & E). apply obind_done in E as (f2 & E2 & E).
  destruct (final_spec _ _ _ E1) as [F1 R1]. destruct (final_spec _ _ _ E2) as [F2 R2].
  apply R1 in H1. apply R2 in H2. clear R1 R2 E1 E2.
  destruct (Nat.eqb_spec f1 f2) as [<-|Hne].
  { injection E as <- <-. rewrite (resolves_fun H1 H2). exists TUnknown. apply unified_same; auto. intros; apply agree_refl. }
  apply obind_done in E as (n1 & En1 & E). apply obind_done in E as (n2 & En2 & E).
  pose proof (norm_final _ _ _ En1 F1) as N1. pose proof (norm_final _ _ _ En2 F2) as N2. clear En1 En2 F1 F2.
  assert (Hboth : forall n a1 a2 b1 b2 ta1 ta2 tb1 tb2, t1 = TNode n ta1 ta2 -> t2 = TNode n tb1 tb2 ->
     resolves u a1 ta1 -> resolves u a2 ta2 -> resolves u b1 tb1 -> resolves u b2 tb2 ->
     (r <~ unify k u a1 b1;; (if snd r then unify k (fst r) a2 b2 else Done r)) = Done (u', b) ->
     exists f, unified u t1 t2 u' b f).
  { intros n a1 a2 b1 b2 ta1 ta2 tb1 tb2 -> -> Ha1 Ha2 Hb1 Hb2 E'.
    apply obind_done in E' as ([u1 r1] & Eu1 & E'). cbn [fst snd] in E'.
    destruct (IH _ _ _ _ _ _ _ Hi Ha1 Hb1 Eu1) as [g1 G1]. destruct r1.
    - destruct (IH _ _ _ _ _ _ _ (uf_inv G1) (uf_res G1 Ha2) (uf_res G1 Hb2) E') as [g2 G2].
      eexists. eapply unified_node; eauto.
    - injection E' as <- <-. eexists. eapply unified_node_fail; eauto. }
  assert (Hright : n2 = None -> (n1 = None -> False) ->
     (o <~ occurs k u f2 f1;; (if o then Done (u, false) else Done (bind u f2 f1, true))) = Done (u', b) ->
     exists f, unified u t1 t2 u' b f).
  { intros -> Hn1 E'. apply obind_done in E' as (o & Eo & E'). pose proof (occurs_spec _ _ Eo N2 H1) as Ho.
    rewrite (res_infer_inv H2 N2) in *. destruct o.
    - injection E' as <- <-. exists TUnknown. apply unified_same; auto; [discriminate|].
      intros _ _ s E'. exfalso. apply (@occurs_no_unifier s f2 t1); auto; [apply Ho; auto|].
      intros ->. inversion H1; subst; destruct n1; congruence.
    - injection E' as <- <-. exists (single f2 t1). apply unified_bind; auto. rewrite <- Ho. discriminate. }
  destruct n1 as [n1|].
  - destruct n2 as [n2|].
    + destruct n1; destruct n2; inversion H1; subst; rewrite N1 in *; try discriminate;
      repeat match goal with H : Some _ = Some _ |- _ => injection H as H; subst end;
      inversion H2; subst; rewrite N2 in *; try discriminate;
      repeat match goal with H : Some _ = Some _ |- _ => injection H as H; subst end;
      try (eapply Hboth; eauto; fail);
      injection E as <- <-; exists TUnknown; apply unified_same; auto;
      try discriminate; try (intros; constructor);
      try (intros _ _ sg Es; discriminate Es);
      try (intros []; fail); try (intros ? []; fail).
      * intros Hs. apply Nat.eqb_eq in Hs. subst. constructor.
      * intros _ _ sg Es. injection Es as ->. apply Nat.eqb_refl.
    + apply Hright; auto; [discriminate|]. destruct n1; exact E.
  - apply obind_done in E as (o & Eo & E). pose proof (occurs_spec _ _ Eo N1 H2) as Ho.
    rewrite (res_infer_inv H1 N1) in *. destruct o.
    + assert (E' : (u', b) = (u, false) /\ (n2 = None -> False)).
      { destruct n2 as [n2|]; [injection E as <- <-; split; [auto|discriminate]|].
        rewrite (res_infer_inv H2 N2) in Ho. cbn in Ho. destruct (proj1 Ho eq_refl) as [->|[]]. congruence. }
      destruct E' as [E' Hn2]. injection E' as -> ->. exists TUnknown. apply unified_same; auto; [discriminate|].
      intros _ _ s E'. exfalso. apply (@occurs_no_unifier s f1 t2); auto; [apply Ho; auto|].
      intros ->. inversion H2; subst; destruct n2; congruence.
    + injection E as <- <-. exists (single f1 t2). apply unified_bind; auto. rewrite <- Ho. discriminate.
Qed.

(** *** Termination *)
Lemma final_mono k : forall u i j, final_idx k u i = Done j -> forall k', k <= k' -> final_idx k' u i = Done j.
Proof.
  induction k as [|k IH]; intros u i j E k' Hk; [discriminate|]. destruct k' as [|k']; [lia|]. cbn in *.
  destruct (get u i) as [[|n|t]|]; auto. apply IH; auto. lia.
Qed.
Lemma norm_mono k u i n : normalize k u i = Done n -> forall k', k <= k' -> normalize k' u i = Done n.
Proof.
  intros E k' Hk. unfold normalize in *. apply obind_done in E as (j & Ej & E). rewrite (final_mono _ _ Ej Hk). auto.
Qed.
Lemma occurs_mono k : forall u v i b, occurs k u v i = Done b -> forall k', k <= k' -> occurs k' u v i = Done b.
Proof.
  induction k as [|k IH]; intros u v i b E k' Hk; [discriminate|]. destruct k' as [|k']; [lia|]. cbn [occurs] in *.
  apply obind_done in E as (j & Ej & E). rewrite (final_mono _ _ Ej (k' := k')) by lia. cbn [obind].
  destruct (Nat.eqb v j); auto. apply obind_done in E as (n & En & E). rewrite (norm_mono _ _ En (k' := k')) by lia. cbn [obind].
  destruct n as [[]|]; auto; apply obind_done in E as (r & Er & E); rewrite (IH _ _ _ _ Er k') by lia; cbn [obind];
    destruct r; auto; apply IH; auto; lia.
Qed.
Lemma unify_mono k : forall u a b r, unify k u a b = Done r -> forall k', k <= k' -> unify k' u a b = Done r.
Proof.
  induction k as [|k IH]; intros u a b r E k' Hk; [discriminate|]. destruct k' as [|k']; [lia|]. cbn [unify] in *.
  apply obind_done in E as (f1 & E1 & E). rewrite (final_mono _ _ E1 (k' := k')) by lia. cbn [obind].
  apply obind_done in E as (f2 & E2 & E). rewrite (final_mono _ _ E2 (k' := k')) by lia. cbn [obind].
  destruct (Nat.eqb f1 f2); auto.
  apply obind_done in E as (n1 & En1 & E). rewrite (norm_mono _ _ En1 (k' := k')) by lia. cbn [obind].
  apply obind_done in E as (n2 & En2 & E). rewrite (norm_mono _ _ En2 (k' := k')) by lia. cbn [obind].
  assert (Hboth : forall a1 a2 b1 b2, (r <~ unify k u a1 b1;; (if snd r then unify k (fst r) a2 b2 else Done r)) = Done r ->
     (r <~ unify k' u a1 b1;; (if snd r then unify k' (fst r) a2 b2 else Done r)) = Done r).
  { intros a1 a2 b1 b2 E'. apply obind_done in E' as (r1 & Er & E'). rewrite (IH _ _ _ _ Er k') by lia. cbn [obind].
    destruct (snd r1); auto. apply IH; auto; lia. }
  assert (Hright : (match n2 with
        | Some _ => Done (u, false)
        | None => o <~ occurs k u f2 f1;; (if o then Done (u, false) else Done (bind u f2 f1, true))
        end = Done r ->
      match n2 with
        | Some _ => Done (u, false)
        | None => o <~ occurs k' u f2 f1;; (if o then Done (u, false) else Done (bind u f2 f1, true))
        end = Done r)).
  { destruct n2; auto. intros E'. apply obind_done in E' as (o & Eo & E'). rewrite (occurs_mono _ _ _ Eo (k' := k')) by lia. auto. }
  destruct n1 as [n1|].
  - destruct n1, n2 as [[]|]; auto.
  - assert (E' : (o <~ occurs k u f1 f2;; (if o then match n2 with
        | Some _ => Done (u, false)
        | None => o0 <~ occurs k u f2 f1;; (if o0 then Done (u, false) else Done (bind u f2 f1, true))
        end else Done (bind u f1 f2, true))) = Done r) by (destruct n2; exact E). clear E.
    apply obind_done in E' as (o & Eo & E'). rewrite (occurs_mono _ _ _ Eo (k' := k')) by lia. cbn [obind].
    destruct o; auto.
Qed.

Lemma final_term u i t : resolves u i t -> exists k j, final_idx k u i = Done j.
Proof.
  induction 1; try (exists 1; cbn; rewrite H; eauto; fail).
  destruct IHresolves as (k & n & E). exists (S k), n. cbn. rewrite H. auto.
Qed.
Lemma norm_term u i t : resolves u i t -> exists k n, normalize k u i = Done n.
Proof.
  intros H. destruct (final_term H) as (k & j & E). exists k. unfold normalize. rewrite E. cbn.
  destruct (final_spec _ _ _ E) as [[->|[t' ->]] _]; eauto.
Qed.
Lemma node_inv u i t : resolves u i t -> match get u i with
  | Some (STy (TyApply a b)) => exists ta tb, t = TNode NApply ta tb /\ resolves u a ta /\ resolves u b tb
  | Some (STy (TyFn a b)) => exists ta tb, t = TNode NFn ta tb /\ resolves u a ta /\ resolves u b tb
  | Some (STy (TyFolded a b)) => exists ta tb, t = TNode NFolded ta tb /\ resolves u a ta /\ resolves u b tb
  | _ => True end.
Proof. inversion 1; subst; match goal with H : get u i = _ |- _ => rewrite H end; eauto. Qed.

Lemma occurs_term : forall n u v i t, tsize t <= n -> resolves u i t -> exists k b, occurs k u v i = Done b.
Proof.
  induction n as [|n IH]; intros u v i t Hn H; [pose proof (tsize_pos t); lia|].
  destruct (final_term H) as (k1 & j & E1). destruct (final_spec _ _ _ E1) as [F R]. apply R in H.
  destruct (norm_term H) as (k2 & nt & E2). pose proof (norm_final _ _ _ E2 F) as N.
  assert (Hk : exists k3 b, forall k, k3 <= k ->
    match nt with
      | Some (TyApply a c) | Some (TyFn a c) | Some (TyFolded a c) =>
        r <~ occurs k u v a ;; if r then Done true else occurs k u v c
      | Some _ => Done false
      | None => Done false
      end = Done b).
  { pose proof (node_inv H) as Hnode. destruct nt as [nt|]; [|exists 0; eauto]. rewrite N in Hnode.
    destruct nt; try (exists 0; eauto; fail); destruct Hnode as (ta & tb & -> & Ha & Hb); cbn in Hn;
    (destruct (IH u v a ta ltac:(lia) Ha) as (ka & ra & Ea); destruct (IH u v b tb ltac:(lia) Hb) as (kb & rb & Eb);
     exists (Nat.max ka kb); destruct ra; [exists true|exists rb]; intros k Hk; rewrite (occurs_mono _ _ _ Ea (k' := k)) by lia; cbn;
     auto; apply (occurs_mono _ _ _ Eb (k' := k)); lia). }
  destruct Hk as (k3 & b & Hk).
  exists (S (Nat.max k1 (Nat.max k2 k3))). cbn [occurs]. rewrite (final_mono _ _ E1) by lia. cbn [obind].
  destruct (Nat.eqb v j); [eauto|]. rewrite (norm_mono _ _ E2) by lia. cbn [obind]. exists b. apply Hk. lia.
Qed.

Lemma unify_term : forall m n u i1 i2 t1 t2, infers u <= m -> tsize t1 <= n -> inv u ->
  resolves u i1 t1 -> resolves u i2 t2 -> exists k r, unify k u i1 i2 = Done r.
Proof.
  induction m as [m IHm] using lt_wf_ind. induction n as [n IHn] using lt_wf_ind.
  intros u i1 i2 t1 t2 Hm Hn Hi H1 H2.
  destruct (final_term H1) as (k1 & f1 & E1). destruct (final_spec _ _ _ E1) as [F1 R1]. apply R1 in H1.
  destruct (final_term H2) as (k2 & f2 & E2). destruct (final_spec _ _ _ E2) as [F2 R2]. apply R2 in H2.
  destruct (norm_term H1) as (k3 & n1 & E3). pose proof (norm_final _ _ _ E3 F1) as N1.
  destruct (norm_term H2) as (k4 & n2 & E4). pose proof (norm_final _ _ _ E4 F2) as N2.
  destruct (@occurs_term (tsize t1) u f2 f1 t1 ltac:(lia) H1) as (k5 & o1 & E5).
  destruct (@occurs_term (tsize t2) u f1 f2 t2 ltac:(lia) H2) as (k6 & o2 & E6).
  assert (Hboth : forall a1 a2 b1 b2 nd1 nd2 ta1 ta2 tb1 tb2, t1 = TNode nd1 ta1 ta2 -> t2 = TNode nd2 tb1 tb2 ->
     resolves u a1 ta1 -> resolves u a2 ta2 -> resolves u b1 tb1 -> resolves u b2 tb2 ->
     exists k0 r, forall k, k0 <= k -> (r <~ unify k u a1 b1;; (if snd r then unify k (fst r) a2 b2 else Done r)) = Done r).
  { intros a1 a2 b1 b2 nd1 nd2 ta1 ta2 tb1 tb2 -> -> Ha1 Ha2 Hb1 Hb2. cbn in Hn.
    destruct (IHn (tsize ta1) ltac:(lia) u a1 b1 ta1 tb1 Hm ltac:(lia) Hi Ha1 Hb1) as (ka & [u1 r1] & Ea).
    destruct (unify_spec _ Hi Ha1 Hb1 Ea) as [g G]. destruct r1.
    - assert (Hb : exists kb r, unify kb u1 a2 b2 = Done r).
      { destruct (uf_fewer G) as [->|Hf].
        - eapply (IHn (tsize ta2)); eauto. lia.
        - eapply (IHm (infers u1)); eauto; [lia|apply G|eapply (uf_res G); eauto|eapply (uf_res G); eauto]. }
      destruct Hb as (kb & r & Eb). exists (Nat.max ka kb), r. intros k Hk.
      rewrite (unify_mono _ _ _ Ea (k' := k)) by lia. cbn. apply (unify_mono _ _ _ Eb). lia.
    - exists ka, (u1, false). intros k Hk. rewrite (unify_mono _ _ _ Ea (k' := k)) by lia. auto. }
  assert (Hrest : exists k0 r, forall k, k0 <= k ->
     (let both a1 a2 b1 b2 :=
        r <~ unify k u a1 b1 ;;
        if snd r then unify k (fst r) a2 b2 else Done r in
      let right_var :=
        match n2 with
        | None =>
          o <~ occurs k u f2 f1 ;;
          if o then Done (u, false) else Done (bind u f2 f1, true)
        | Some _ => Done (u, false)
        end in
      match n1, n2 with
      | Some TyError, Some _ => Done (u, true)
      | Some _, Some TyError => Done (u, true)
      | Some TyInt, Some TyInt => Done (u, true)
      | Some TyBool, Some TyBool => Done (u, true)
      | Some TyString, Some TyString => Done (u, true)
      | Some (TyNamed a), Some (TyNamed b) => Done (u, Nat.eqb a b)
      | Some (TyApply a1 a2), Some (TyApply b1 b2) => both a1 a2 b1 b2
      | Some (TyFn a1 a2), Some (TyFn b1 b2) => both a1 a2 b1 b2
      | Some (TyFolded a1 a2), Some (TyFolded b1 b2) => both a1 a2 b1 b2
      | Some _, Some _ => Done (u, false)
      | None, _ =>
        o <~ occurs k u f1 f2 ;;
        if o then right_var else Done (bind u f1 f2, true)
      | Some _, None => right_var
      end) = Done r).
  { cbv zeta.
    assert (Hright : exists r, forall k, Nat.max k5 k6 <= k -> (match n2 with
        | None =>
          o <~ occurs k u f2 f1 ;;
          if o then Done (u, false) else Done (bind u f2 f1, true)
        | Some _ => Done (u, false)
        end) = Done r).
    { destruct n2; [eauto|]. destruct o1; eexists; intros k Hk; rewrite (occurs_mono _ _ _ E5 (k' := k)) by lia; cbn; eauto. }
    destruct Hright as [rr Hright].
    pose proof (node_inv H1) as D1. pose proof (node_inv H2) as D2.
    destruct n1 as [n1|].
    - rewrite N1 in D1. destruct n2 as [n2|].
      + rewrite N2 in D2. destruct n1, n2; try (exists 0; eauto; fail);
        destruct D1 as (? & ? & ? & ? & ?); destruct D2 as (? & ? & ? & ? & ?); eapply Hboth; eauto.
      + exists (Nat.max k5 k6), rr. intros k Hk. specialize (Hright k Hk). destruct n1; auto.
    - exists (Nat.max k5 k6). destruct o2.
      + exists rr. intros k Hk. rewrite (occurs_mono _ _ _ E6 (k' := k)) by lia. cbn. specialize (Hright k Hk). destruct n2; auto.
      + eexists. intros k Hk. rewrite (occurs_mono _ _ _ E6 (k' := k)) by lia. cbn. destruct n2; eauto. }
  destruct Hrest as (k7 & r & Hrest).
  exists (S (Nat.max (Nat.max k1 k2) (Nat.max (Nat.max k3 k4) k7))). cbn [unify].
  rewrite (final_mono _ _ E1) by lia. cbn [obind]. rewrite (final_mono _ _ E2) by lia. cbn [obind].
  destruct (Nat.eqb f1 f2); [eauto|].
  rewrite (norm_mono _ _ E3) by lia. cbn [obind]. rewrite (norm_mono _ _ E4) by lia. cbn [obind].
  exists r. apply Hrest. lia.
Qed.
