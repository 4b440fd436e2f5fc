(** The pass saturate: what it does to one expression. *)
From Verif Require Import EvalFacts Orders Compile CompileStatic Wf Vm OptEv OptRel OptWalk OptGood OptPasses OptLaws OptProg OptInline OptCopy OptRelD OptInlineOk OptSaturate OptSatRel.
Set Implicit Arguments.

(** ** The first walk without its state *)
Definition colrec (e : expr) : expr * list (name * rewrite) :=
  match e with
  | ELetRec n t a b =>
    match check_for_rewrite t a with
    | Some (t', a', rw) => (ELetRec n t' a' b, [(n, rw)])
    | None => (e, [])
    end
  | _ => (e, [])
  end.
Fixpoint col (n : nat) (e : expr) : option (expr * list (name * rewrite)) :=
  match n with
  | O => None
  | S n =>
    let (e1, w) := colrec e in
    do l <- omap (col n) (map snd (kids e1)) ; Some (rebuild e1 (map fst l), concat (rev (map snd l)) ++ w)
  end.
Definition addrw (w : list (name * rewrite)) (s : sst) : sst := mkSst (s_nn s) (s_nt s) (w ++ s_rw s).
Lemma collapse_col n : forall s e, collapse_walk n s e = do (e1, w) <- col n e ; Some (e1, addrw w s).
Proof.
  induction n as [|n IH]; intros s e; auto. cbn [collapse_walk col].
  assert (HS : forall l s, omapS (collapse_walk n) s l = do l' <- omap (col n) l ; Some (map fst l', addrw (concat (rev (map snd l'))) s)).
  { induction l as [|a l IHl]; intros s0; cbn [omapS omap].
    - simpl. destruct s0. auto.
    - rewrite IH. destruct (col n a) as [[a1 w1]|]; cbn [obind]; auto. rewrite IHl.
      destruct (omap (col n) l) as [l'|]; cbn [obind]; auto. cbn [map fst snd rev]. rewrite concat_app. simpl.
      unfold addrw; simpl. rewrite app_nil_r, app_assoc. auto. }
  assert (HR : collapse_rec s e = (fst (colrec e), addrw (snd (colrec e)) s)).
  { destruct e; simpl; try (destruct s; reflexivity). destruct (check_for_rewrite t e1) as [[[t' a'] rw]|]; simpl; auto. destruct s; auto. }
  rewrite HR. destruct (colrec e) as [e1 w]. cbn [fst snd]. rewrite HS. destruct (omap (col n) (map snd (kids e1))) as [l|]; cbn [obind]; auto.
  unfold addrw; simpl. rewrite app_assoc. auto.
Qed.

(** ** Groups of parameters *)
Lemma sizes_eqb_eq a : forall b, sizes_eqb a b = true -> a = b.
Proof. induction a as [|x a IH]; intros [|y b] H; simpl in *; try discriminate; auto. apply andb_true_iff in H as [H1 H2]. apply Nat.eqb_eq in H1. f_equal; auto. Qed.
Lemma lams_groups e : e = lams (lam_groups e) (lam_body e).
Proof. induction e; try reflexivity. cbn [lam_groups lam_body lams fold_right]. f_equal. auto. Qed.
Lemma under_pis_strip f e : strip_pis (f (strip_pis e)) = f (strip_pis e) -> strip_pis (under_pis f e) = f (strip_pis e).
Proof. induction e; simpl; auto. Qed.
Lemma check_some t a t' a' rw : check_for_rewrite t a = Some (t', a', rw) ->
  exists g gs f, strip_pis a = lams (g :: gs) f /\ strip_pis a' = ELam (concat (g :: gs)) f /\ sizes (rw_groups rw) = sizes (g :: gs) /\
    a' = under_pis collapse_lambdas a /\ t' = under_abs collapse_arg_groups t.
Proof.
  unfold check_for_rewrite. destruct (Nat.ltb_spec (length (ty_groups (ty_body t))) 2) as [H|H]; [discriminate|].
  destruct (length (ty_vars t) =? length (lam_vars a)); [|discriminate]. cbn [negb].
  destruct (sizes_eqb _ _) eqn:E; [|discriminate]. cbn [negb]. intros E'. injection E' as <- <- <-.
  apply sizes_eqb_eq in E. pose proof (lams_groups (strip_pis a)) as HL. destruct (lam_groups (strip_pis a)) as [|g gs] eqn:Eg.
  { destruct (ty_groups (ty_body t)); [simpl in H; lia|discriminate]. }
  exists g, gs, (lam_body (strip_pis a)). repeat split; auto. rewrite under_pis_strip; unfold collapse_lambdas; rewrite ?Eg; auto.
Qed.
Lemma binders_lams hs e : binders (lams hs e) = names_of hs ++ binders e.
Proof. induction hs as [|h hs IH]; auto. cbn [lams fold_right binders]. fold (lams hs e). rewrite IH, names_cons, app_assoc. auto. Qed.
Lemma binders_strip e : binders (strip_pis e) = binders e.
Proof. induction e; simpl; auto. Qed.
Lemma recs_strip m e : recs m (strip_pis e) = recs m e.
Proof. induction e; simpl; auto. Qed.
Lemma recs_lams m hs e : recs m (lams hs e) = recs m e.
Proof. induction hs; simpl; auto. Qed.
Lemma recs_pis m vs e : recs m (pis vs e) = recs m e.
Proof. induction vs; simpl; auto. Qed.
Lemma binders_pis vs e : binders (pis vs e) = binders e.
Proof. induction vs; simpl; auto. Qed.
Lemma binders_piapps vs : forall e, binders (piapps e vs) = binders e.
Proof. induction vs; simpl; intros; auto. rewrite IHvs. auto. Qed.
Lemma recs_piapps m vs : forall e, recs m (piapps e vs) = recs m e.
Proof. induction vs; simpl; intros; auto. rewrite IHvs. auto. Qed.

(** What is the same about two expressions. *)
Record alike (e e' : expr) : Prop := {
  k_bd : binders e' = binders e;
  k_fv : fv e' = fv e;
  k_rec : forall m, recs m e' = recs m e;
  k_lam : forall ps f, strip_pis e = ELam ps f -> exists ps' f', strip_pis e' = ELam ps' f';
  k_lam' : forall ps f, strip_pis e' = ELam ps f -> exists ps' f', strip_pis e = ELam ps' f'
}.
Lemma alike_refl e : alike e e. Proof. split; eauto. Qed.
Lemma alike_trans a b c : alike a b -> alike b c -> alike a c.
Proof.
  intros [A1 A2 A3 A4 A5] [B1 B2 B3 B4 B5]. split; intros; try congruence.
  - destruct (A4 _ _ H) as (? & ? & H'). eauto.
  - destruct (B5 _ _ H) as (? & ? & H'). eauto.
Qed.
Lemma lam_test e e' : alike e e' -> match strip_pis e' with ELam _ _ => true | _ => false end = match strip_pis e with ELam _ _ => true | _ => false end.
Proof.
  intros [_ _ _ H1 H2]. destruct (strip_pis e) eqn:E; try (destruct (H1 _ _ eq_refl) as (? & ? & ->); auto; fail);
    destruct (strip_pis e') eqn:E'; auto; destruct (H2 _ _ eq_refl) as (? & ? & ?); discriminate.
Qed.
Lemma alike_letrec n t t' a a' b b' : alike a a' -> alike b b' -> alike (ELetRec n t a b) (ELetRec n t' a' b').
Proof.
  intros A B. pose proof (lam_test A) as HL. destruct A as [A1 A2 A3 A4 A5], B as [B1 B2 B3 B4 B5].
  split; cbn [binders fv recs strip_pis]; try discriminate; intros; rewrite ?HL, ?A3, ?B3; congruence.
Qed.
Lemma alike_list l l' : Forall2 alike l l' -> flat_map binders l' = flat_map binders l /\ flat_map fv l' = flat_map fv l /\ forall m, forallb (recs m) l' = forallb (recs m) l.
Proof.
  induction 1 as [|a a' l l' [A1 A2 A3 _ _] _ (I1 & I2 & I3)]; simpl; auto. split; [congruence|split; [congruence|]]. intros m. rewrite A3, I3; auto.
Qed.
Lemma alike_nil es : forall l, Forall2 (fun k e' => alike (snd k) e') (map (fun x => (@nil name, x)) es) l -> Forall2 alike es l.
Proof. induction es; simpl; intros l H; inversion H; subst; constructor; auto. Qed.
Lemma alike_rebuild e l : Forall2 (fun k e' => alike (snd k) e') (kids e) l -> alike e (rebuild e l).
Proof.
  intros H. destruct e; cbn [kids] in H;
    repeat match goal with H : Forall2 _ (_ :: _) _ |- _ => inversion H; clear H; subst end;
    try match goal with H : Forall2 _ [] _ |- _ => inversion H; clear H; subst end;
    cbn [rebuild snd] in *; try apply alike_refl; try (apply alike_letrec; auto; fail);
    repeat match goal with H : alike _ _ |- _ => destruct H end;
    try match goal with H : Forall2 _ (map (fun x => ([], x)) _) _ |- _ => apply alike_nil in H; destruct (alike_list H) as (? & ? & Hr) end;
    try (split; cbn [binders fv recs strip_pis]; intros; try discriminate; eauto; try congruence;
      repeat match goal with H : forall m, recs m _ = recs m _ |- _ => rewrite H; clear H end; rewrite ?Hr; auto; fail).
  match goal with H : Forall2 _ (map _ _) _ |- _ => rename H into HF end.
  assert (HB : flat_map (fun br => snd (fst br) ++ binders (snd br)) (map (fun p : name * list name * expr * expr => (fst (fst p), snd p)) (combine brs l')) =
               flat_map (fun br => snd (fst br) ++ binders (snd br)) brs /\
     flat_map (fun br => minus (fv (snd br)) (snd (fst br))) (map (fun p : name * list name * expr * expr => (fst (fst p), snd p)) (combine brs l')) =
               flat_map (fun br => minus (fv (snd br)) (snd (fst br))) brs /\
     map (fun br => fst (fst br)) (map (fun p : name * list name * expr * expr => (fst (fst p), snd p)) (combine brs l')) = map (fun br => fst (fst br)) brs /\
     forall m, forallb (fun br => recs m (snd br)) (map (fun p : name * list name * expr * expr => (fst (fst p), snd p)) (combine brs l')) = forallb (fun br => recs m (snd br)) brs).
  { clear - HF. revert l' HF. induction brs as [|br brs IH]; intros l' HF; inversion HF; subst; auto.
    destruct (IH _ H3) as (I1 & I2 & I3 & I4). simpl in *. destruct H1 as [Q1 Q2 Q3 _ _].
    split; [rewrite Q1, I1; auto|]. split; [rewrite Q2, I2; auto|]. split; [rewrite I3; auto|]. intros m. rewrite Q3, I4. auto. }
  destruct HB as (I1 & I2 & I3 & I4).
  split; cbn [binders fv recs strip_pis]; intros; try discriminate; try congruence.
  rewrite I3, I4. congruence.
Qed.

Lemma colrec_alike e : alike e (fst (colrec e)).
Proof.
  destruct e; try apply alike_refl. simpl. destruct (check_for_rewrite t e1) as [[[t' a'] rw]|] eqn:E; [|apply alike_refl].
  simpl. destruct (check_some _ _ E) as (g & gs & f & E1 & E2 & _). apply alike_letrec; [|apply alike_refl].
  assert (Hs : alike (strip_pis e1) (strip_pis a')).
  { rewrite E1, E2. split.
    - rewrite binders_lams. reflexivity.
    - rewrite fv_lams. reflexivity.
    - intros m. rewrite recs_lams. reflexivity.
    - simpl. eauto.
    - simpl. eauto. }
  destruct Hs as [H1 H2 H3 _ _]. split.
  - rewrite !binders_strip in H1. auto.
  - rewrite !fv_strip in H2. auto.
  - intros m. specialize (H3 m). rewrite !recs_strip in H3. auto.
  - intros. rewrite E2. eauto.
  - intros. rewrite E1. simpl. eauto.
Qed.

Lemma omap_len {A B} (f : A -> option B) l : forall l', omap f l = Some l' -> Forall2 (fun a b => f a = Some b) l l'.
Proof.
  induction l as [|a l IH]; simpl; intros l' H; [injection H as <-; constructor|].
  destruct (f a) eqn:E; simpl in H; [|discriminate]. destruct (omap f l) eqn:E2; simpl in H; [|discriminate]. injection H as <-. constructor; auto.
Qed.
Lemma cnt_concat_rev x (ls : list (list name)) : cnt x (concat (rev ls)) = list_sum (map (cnt x) ls).
Proof. induction ls as [|l ls IH]; simpl rev; auto. rewrite concat_app, cnt_app, IH. simpl. rewrite app_nil_r. lia. Qed.
Lemma keys_concat {A B} (ls : list (list (A * B))) : map fst (concat ls) = concat (map (map fst) ls).
Proof. induction ls; simpl; auto. rewrite map_app, IHls. auto. Qed.
Definition keys (w : list (name * rewrite)) : list name := map fst w.

Lemma colrec_own e : own (fst (colrec e)) = own e.
Proof. destruct e; auto. simpl. destruct (check_for_rewrite t e1) as [[[? ?] ?]|]; auto. Qed.

Lemma col_alike n : forall e e1 w, col n e = Some (e1, w) -> alike e e1 /\ forall x, cnt x (keys w) <= cnt x (binders e).
Proof.
  induction n as [|n IH]; intros e e1 w H; [discriminate|]. cbn [col] in H.
  pose proof (colrec_alike e) as HA. destruct (colrec e) as [e' w0] eqn:Ec. simpl in HA.
  destruct (omap (col n) (map snd (kids e'))) as [l|] eqn:E; cbn [obind] in H; [|discriminate]. injection H as <- <-.
  apply omap_len in E.
  assert (HK : Forall2 (fun k e' => alike (snd k) e') (kids e') (map fst l) /\
    forall x, list_sum (map (cnt x) (map keys (map snd l))) <= cnt x (flat_map binders (map snd (kids e')))).
  { clear - E IH. remember (kids e') as ks eqn:Ek. clear Ek. revert l E. induction ks as [|k ks IHk]; intros l E; inversion E; subst; [split; [constructor|intros; simpl; lia]|].
    destruct (IHk _ H3) as [I1 I2]. destruct y as [e1 w1]. destruct (IH _ _ _ H1) as [A1 A2]. split; [simpl; constructor; auto|].
    intros x. cbn [map snd flat_map]. rewrite cnt_app. specialize (I2 x). specialize (A2 x). unfold list_sum in *. cbn [fold_right]. lia. }
  destruct HK as [HK1 HK2]. split; [eapply alike_trans; [exact HA|]; apply alike_rebuild; auto|].
  intros x. unfold keys. rewrite map_app, cnt_app, keys_concat, map_rev, cnt_concat_rev. specialize (HK2 x). change (map (map fst) (map snd l)) with (map keys (map snd l)).
  rewrite <- (k_bd HA), kids_cnt. assert (cnt x (map fst w0) <= cnt x (own e')); [|lia].
  clear - Ec. destruct e; simpl in Ec; try (injection Ec as <- <-; simpl; lia).
  destruct (check_for_rewrite t e1) as [[[? ?] ?]|]; injection Ec as <- <-; simpl; lia.
Qed.

(** The walks through the lambdas of a recursive function. *)
Lemma col_lam n : forall a a1 w ps f, col n a = Some (a1, w) -> strip_pis a = ELam ps f ->
  exists m f1, m < n /\ col m f = Some (f1, w) /\ strip_pis a1 = ELam ps f1.
Proof.
  induction n as [|n IH]; intros a a1 w ps f H E; [discriminate|]. destruct a; simpl in E; try discriminate.
  - injection E as -> ->. cbn [col colrec kids map snd omap] in H. destruct (col n f) as [[f1 w1]|] eqn:Ef; simpl in H; [|discriminate].
    injection H as <- <-. rewrite !app_nil_r. exists n, f1. simpl. repeat split; auto.
  - cbn [col colrec kids map snd omap] in H. destruct (col n a) as [[f1 w1]|] eqn:Ef; simpl in H; [|discriminate].
    injection H as <- <-. rewrite !app_nil_r. destruct (IH _ _ _ _ _ Ef E) as (m & f2 & Hm & E1 & E2). exists m, f2. repeat split; auto.
Qed.
Lemma rewrite_lam n : forall st a a1 st' ps f, rewrite_walk n st a = Some (a1, st') -> strip_pis a = ELam ps f ->
  exists m f1, rewrite_walk m st f = Some (f1, st') /\ strip_pis a1 = ELam ps f1.
Proof.
  induction n as [|n IH]; intros st a a1 st' ps f H E; [discriminate|]. destruct a; simpl in E; try discriminate.
  - injection E as -> ->. cbn [rewrite_walk kids map snd omapS] in H. destruct (rewrite_walk n st f) as [[f1 w1]|] eqn:Ef; simpl in H; [|discriminate].
    injection H as <- <-. exists n, f1. simpl. repeat split; auto.
  - cbn [rewrite_walk kids map snd omapS] in H. destruct (rewrite_walk n st a) as [[f1 w1]|] eqn:Ef; simpl in H; [|discriminate].
    injection H as <- <-. destruct (IH _ _ _ _ _ _ Ef E) as (m & f2 & E1 & E2). exists m, f2. repeat split; auto.
Qed.

(** ** The second walk *)
Definition below (nn : nat) (e : expr) : Prop := forall x, In x (fv e) \/ In x (binders e) -> x < nn.
Lemma below_kids nn e k : below nn e -> In k (kids e) -> below nn (snd k).
Proof.
  intros H Hk x [Hx|Hx].
  - apply (@fv_kids e (fv e ++ binders e)) with (k := k) in Hx; [|intros; apply in_or_app; auto|auto].
    apply in_app_iff in Hx as [Hx|Hx].
    + apply H. right. apply cnt_in. rewrite kids_cnt. apply (kids_own _ _ _ Hk) in Hx. apply cnt_in in Hx. lia.
    + apply H. apply in_app_iff in Hx. auto.
  - apply H. right. apply cnt_in. rewrite kids_cnt. apply cnt_in in Hx.
    assert (cnt x (binders (snd k)) <= cnt x (flat_map binders (map snd (kids e)))); [|lia]. apply cnt_flat. apply in_map; auto.
Qed.
Lemma below_le nn nn' e : nn <= nn' -> below nn e -> below nn' e.
Proof. intros H Hb x Hx. specialize (Hb x Hx). lia. Qed.

Lemma use_params_ok rw inst g : forall nn h nn', mapS (use_param rw inst) nn g = (h, nn') ->
  length h = length g /\ nn' = nn + length g /\ map fst h = seq nn (length g).
Proof.
  induction g as [|t g IH]; intros nn h nn' H; cbn [mapS] in H; [injection H as <- <-; simpl; auto|].
  unfold use_param in H at 1. destruct (mapS (use_param rw inst) (S nn) g) as [h1 n1] eqn:E. injection H as <- <-.
  destruct (IH _ _ _ E) as (I1 & I2 & I3). simpl. repeat split; [congruence|lia|f_equal; auto].
Qed.
Lemma use_groups_ok rw inst gs : forall nn hs nn', use_groups rw inst gs nn = (hs, nn') ->
  sizes hs = sizes gs /\ nn <= nn' /\ forall x, cnt x (names_of hs) = rng nn nn' x.
Proof.
  induction gs as [|g gs IH]; intros nn hs nn' H; cbn [use_groups] in H.
  - injection H as <- <-. repeat split; auto. intros x. rewrite rng_nil. auto.
  - destruct (use_groups rw inst gs nn) as [hs1 n1] eqn:E1. destruct (mapS (use_param rw inst) n1 g) as [h n2] eqn:E2. injection H as <- <-.
    destruct (IH _ _ _ E1) as (I1 & I2 & I3). destruct (use_params_ok _ _ _ _ E2) as (J1 & J2 & J3). unfold sizes in *. simpl. repeat split; [congruence|lia|].
    intros x. rewrite names_cons, cnt_app, I3, J3, cnt_seq. rewrite <- (@rng_split nn n1 n2) by lia. unfold rng. rewrite J2. lia.
Qed.
Lemma rewrite_use_ok s n rw e s' : rewrite_use s n rw = (e, s') -> n < s_nn s ->
  eta n (sizes (rw_groups rw)) e /\ s_nn s <= s_nn s' /\ s_rw s' = s_rw s /\ (forall x, cnt x (binders e) = rng (s_nn s) (s_nn s') x) /\
  (forall m, recs m e = true).
Proof.
  unfold rewrite_use. intros H Hn. destruct (use_groups rw _ (rw_groups rw) (s_nn s)) as [hs nn] eqn:E. injection H as <- <-.
  destruct (use_groups_ok _ _ _ _ E) as (H1 & H2 & H3). simpl.
  assert (HX : fold_right EPi (fold_right ELam (ECall (fold_left (fun e v => EPiApp e (TVar v)) (seq (s_nt s) (length (rw_vars rw))) (EName n)) (map (fun h => EName (fst h)) (concat hs))) hs) (seq (s_nt s) (length (rw_vars rw)))
     = pis (seq (s_nt s) (length (rw_vars rw))) (lams hs (eta_call n (seq (s_nt s) (length (rw_vars rw))) (names_of hs)))).
  { unfold pis, lams, eta_call, piapps, names_of. rewrite map_map. auto. }
  rewrite HX. clear HX. split; [|split; [auto|split; [auto|split]]].
  - eexists _, _, hs. split; [reflexivity|]. split; [auto|]. split.
    + apply cnt_NoDup. intros x. rewrite H3. apply rng_le.
    + intros Hi. apply cnt_in in Hi. rewrite H3, rng_0 in Hi; lia.
  - intros x. rewrite binders_pis, binders_lams, cnt_app, H3. unfold eta_call. cbn [binders]. rewrite binders_piapps. cbn [binders app].
    assert (E0 : flat_map binders (map EName (names_of hs)) = []) by (clear; induction (names_of hs); auto). rewrite E0. rewrite cnt_nil. lia.
  - intros m. rewrite recs_pis, recs_lams. unfold eta_call. cbn [recs]. rewrite recs_piapps. cbn [recs andb].
    clear; induction (names_of hs); auto.
Qed.
Lemma rewrite_expr_node s e : (forall n, e <> EName n) -> rewrite_expr s e = (e, s).
Proof. intros H. destruct e; auto. exfalso. eapply H; eauto. Qed.

Record rew (e e' : expr) (s s' : sst) : Prop := {
  w_fv : fv e' = fv e;
  w_nn : s_nn s <= s_nn s';
  w_rw : s_rw s' = s_rw s;
  w_cnt : forall x, cnt x (binders e') = cnt x (binders e) + rng (s_nn s) (s_nn s') x;
  w_rec : forall m, recs m e = true -> recs m e' = true
}.
Lemma rebuild_name n l : rebuild (EName n) l = EName n. Proof. destruct l; auto. Qed.

Lemma fv_rebuild e l : Forall2 (fun k e' => fv e' = fv (snd k)) (kids e) l -> fv (rebuild e l) = fv e.
Proof.
  assert (HL : forall es l, Forall2 (fun k e' => fv e' = fv (snd k)) (map (fun x => (@nil name, x)) es) l -> flat_map fv l = flat_map fv es).
  { induction es; simpl; intros l0 H; inversion H; subst; simpl; auto. f_equal; auto. }
  intros H. destruct e; cbn [kids] in H;
    repeat match goal with H : Forall2 _ (_ :: _) _ |- _ => inversion H; clear H; subst end;
    try match goal with H : Forall2 _ [] _ |- _ => inversion H; clear H; subst end;
    cbn [rebuild fv snd] in *; auto; try congruence; try (rewrite HL with (es := args) by auto; congruence); try (f_equal; auto; fail).
  f_equal; auto. match goal with H : Forall2 _ (map _ _) _ |- _ => revert H end. clear. revert l'.
  induction brs as [|br brs IH]; intros l' H; inversion H; subst; simpl in *; auto. f_equal; auto. congruence.
Qed.

Lemma rewrite_ok n : forall s e e' s', rewrite_walk n s e = Some (e', s') -> below (s_nn s) e -> rew e e' s s'.
Proof.
  induction n as [|n IH]; intros s e e' s' H Hb; [discriminate|]. cbn [rewrite_walk] in H.
  destruct (omapS (rewrite_walk n) s (map snd (kids e))) as [[l s1]|] eqn:E; cbn [obind] in H; [|discriminate].
  assert (Hn : (exists x, e = EName x) \/ forall x, e <> EName x) by (destruct e; try (right; discriminate); left; eauto).
  destruct Hn as [[x ->]|Hn].
  - simpl in E. injection E as <- <-. rewrite rebuild_name in H. injection H as H. simpl in H.
    destruct (lookup x (s_rw s)) as [rw|] eqn:El.
    + destruct (@rewrite_use_ok _ _ _ _ _ H) as (R1 & R2 & R3 & R4 & R5); [apply Hb; simpl; auto|].
      split; auto. apply (eta_fv R1).
    + injection H as <- <-. split; auto. intros y. rewrite rng_nil; lia.
  - assert (HK : Forall2 (fun k e' => fv e' = fv (snd k)) (kids e) l /\ s_nn s <= s_nn s1 /\ s_rw s1 = s_rw s /\
      (forall x, cnt x (flat_map binders l) = cnt x (flat_map binders (map snd (kids e))) + rng (s_nn s) (s_nn s1) x) /\
      (forall m, Forall (fun k => recs m (snd k) = true) (kids e) -> Forall (fun e => recs m e = true) l)).
    { assert (Hbk : forall k, In k (kids e) -> below (s_nn s) (snd k)) by (intros; eapply below_kids; eauto).
      clear - IH E Hbk. revert s l s1 E Hbk. induction (kids e) as [|k ks IHk]; intros s l s1 E Hb; simpl in E.
      - injection E as <- <-. split; auto. split; auto. split; auto. split; auto. intros x. rewrite rng_nil; auto.
      - destruct (rewrite_walk n s (snd k)) as [[e1 s2]|] eqn:E1; cbn [obind] in E; [|discriminate].
        destruct (omapS (rewrite_walk n) s2 (map snd ks)) as [[l1 s3]|] eqn:E2; cbn [obind] in E; [|discriminate]. injection E as <- <-.
        destruct (IH _ _ _ _ E1) as [W1 W2 W3 W4 W5]; [apply Hb; simpl; auto|].
        destruct (IHk _ _ _ E2) as (I1 & I2 & I3 & I4 & I5).
        { intros k' Hk'. eapply below_le; [exact W2|]. apply Hb; simpl; auto. }
        split; [constructor; auto|]. split; [lia|]. split; [congruence|]. split.
        + intros x. cbn [map flat_map]. rewrite !cnt_app, W4, I4. rewrite <- (@rng_split (s_nn s) (s_nn s2) (s_nn s3)) by auto. lia.
        + intros m Hm. inversion Hm; subst. constructor; auto. }
    destruct HK as (K1 & K2 & K3 & K4 & K5).
    assert (HL : length l = length (kids e)) by (symmetry; eapply Forall2_len; eauto).
    destruct (kids_rebuild e l HL) as (R1 & R2 & R3).
    rewrite rewrite_expr_node in H; [injection H as <- <-|intros x Hx; eapply R3; eauto].
    split; auto.
    + apply fv_rebuild; auto.
    + intros x. rewrite kids_cnt, R1, R2, map_snd_combine, K4, (kids_cnt x e) by (rewrite map_length; auto). lia.
    + intros m Hm. apply recs_rebuild; auto.
      * apply K5. apply Forall_forall. intros k Hk. eapply kids_recs; eauto.
      * intros x t a b -> ps f Es. cbn [kids map snd omapS] in E.
        destruct (rewrite_walk n s a) as [[a1 s2]|] eqn:E1; cbn [obind] in E; [|discriminate].
        destruct (rewrite_walk n s2 b) as [[b1 s3]|] eqn:E2; cbn [obind] in E; [|discriminate]. injection E as <- <-. simpl.
        destruct (rewrite_lam _ _ _ E1 Es) as (? & f1 & _ & Ef). eauto.
Qed.
