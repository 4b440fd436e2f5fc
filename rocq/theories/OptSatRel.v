(** A curried function and the same function with all its parameters at once, used through eta-expanded
    names, give the same results. *)
From Verif Require Import EvalFacts Orders Compile CompileStatic Wf Vm OptEv OptRel OptWalk OptGood OptLaws OptProg OptSaturate.
Set Implicit Arguments.

Definition lams (hs : list (list (name * ty))) (e : expr) : expr := fold_right ELam e hs.
Definition pis (vs : list tyvar) (e : expr) : expr := fold_right EPi e vs.
Definition piapps (e : expr) (vs : list tyvar) : expr := fold_left (fun e v => EPiApp e (TVar v)) vs e.
Definition names_of (hs : list (list (name * ty))) : list name := map fst (concat hs).
Definition eta_call (x : name) (vs : list tyvar) (xs : list name) : expr := ECall (piapps (EName x) vs) (map EName xs).
Definition sizes {A} (hs : list (list A)) : list nat := map (@length A) hs.
Definition eta (x : name) (sz : list nat) (e' : expr) : Prop :=
  exists vs us hs, e' = pis vs (lams hs (eta_call x us (names_of hs))) /\ sizes hs = sz /\ NoDup (names_of hs) /\ ~ In x (names_of hs).

Lemma names_cons g gs : names_of (g :: gs) = map fst g ++ names_of gs.
Proof. unfold names_of. cbn [concat]. apply map_app. Qed.
Lemma sizes_names {A} (hs : list (list A)) (gs : list (list (name * ty))) : sizes gs = sizes hs -> length (names_of gs) = length (concat hs).
Proof.
  revert hs. induction gs as [|g gs IH]; intros [|h hs] H; try discriminate; auto. injection H as H1 H2.
  rewrite names_cons. cbn [concat]. rewrite !app_length, map_length, (IH hs); auto.
Qed.
Lemma names_len (gs : list (list (name * ty))) : length (names_of gs) = length (concat gs).
Proof. unfold names_of. apply map_length. Qed.

Lemma fv_pis vs e : fv (pis vs e) = fv e.
Proof. induction vs; simpl; auto. Qed.
Lemma fv_piapps vs : forall e, fv (piapps e vs) = fv e.
Proof. induction vs; simpl; intros; auto. rewrite IHvs. auto. Qed.
Lemma mem_app x a b : mem x (a ++ b) = mem x a || mem x b.
Proof. unfold mem. apply existsb_app. Qed.
Lemma minus_app l a b : minus (minus l b) a = minus l (a ++ b).
Proof.
  unfold minus. induction l as [|x l IH]; simpl; auto. rewrite mem_app.
  destruct (mem x b) eqn:E; simpl; rewrite ?orb_true_r, ?orb_false_r; simpl; auto. rewrite IH. auto.
Qed.
Lemma minus_nil l : minus l [] = l.
Proof. unfold minus. induction l as [|a l IH]; simpl; auto. f_equal. exact IH. Qed.
Lemma fv_lams hs e : fv (lams hs e) = minus (fv e) (names_of hs).
Proof.
  induction hs as [|h hs IH]; [symmetry; apply minus_nil|]. cbn [lams fold_right fv] in *. fold (lams hs e). rewrite IH, minus_app, names_cons. auto.
Qed.
Lemma minus_all l : forall m, (forall x, In x l -> In x m) -> minus l m = [].
Proof.
  induction l as [|x l IH]; intros m H; simpl; auto. assert (E : mem x m = true) by (apply mem_In; apply H; simpl; auto).
  rewrite E. simpl. apply IH. intros; apply H; simpl; auto.
Qed.
Lemma fv_eta x us xs : ~ In x xs -> minus (fv (eta_call x us xs)) xs = [x].
Proof.
  intros H. unfold eta_call. cbn [fv]. rewrite fv_piapps. simpl. assert (E : mem x xs = false) by (apply mem_false; auto). rewrite E. simpl.
  f_equal. rewrite minus_all; auto. intros y Hy. apply in_flat_map in Hy as (z & Hz & Hy). apply in_map_iff in Hz as (w & <- & Hw). simpl in Hy. destruct Hy as [<-|[]]. auto.
Qed.
Lemma eta_fv x sz e' : eta x sz e' -> fv e' = [x].
Proof. intros (vs & us & hs & -> & _ & _ & H). rewrite fv_pis, fv_lams. apply fv_eta; auto. Qed.

Lemma ev_pis vs c r e v : ev c r e v -> ev c r (pis vs e) v.
Proof. induction vs; simpl; auto. constructor; auto. Qed.
Lemma ev_piapps vs : forall c r e v, ev c r e v -> ev c r (piapps e vs) v.
Proof. induction vs; simpl; auto. intros. apply IHvs. constructor; auto. Qed.

Lemma add_all_app a : forall r b va vb, length a = length va -> add_all r (a ++ b) (va ++ vb) = add_all (add_all r a va) b vb.
Proof. induction a as [|x a IH]; intros r b [|v va] vb H; simpl in *; try discriminate; auto. Qed.
Lemma evs_names r xs : forall vs, evs 0 r (map EName xs) vs <-> Forall2 (fun x v => lookup x r = Some v) xs vs.
Proof.
  induction xs as [|x xs IH]; intros vs; split; intros H.
  - apply evs_nil_inv in H as [_ ->]. constructor.
  - inversion H; subst. constructor.
  - apply evs_cons_inv in H as (i & j & w & ws & E & -> & H1 & H2). assert (i = 0 /\ j = 0) as [-> ->] by lia.
    apply ev_name_inv in H1 as [_ H1]. constructor; auto. apply IH; auto.
  - inversion H; subst. change 0 with (0 + 0). cbn [map]. constructor; [constructor; auto|]. apply IH; auto.
Qed.
Lemma lookup_added hs : forall r vs, NoDup hs -> length hs = length vs -> Forall2 (fun x v => lookup x (add_all r hs vs) = Some v) hs vs.
Proof.
  induction hs as [|h hs IH]; intros r [|v vs] Hn Hl; simpl in *; try discriminate; constructor.
  - inversion Hn; subst. rewrite add_all_in by auto. simpl. rewrite Nat.eqb_refl. auto.
  - apply IH; auto. inversion Hn; auto.
Qed.
Lemma evs_more r dn hs vs ws : NoDup (dn ++ hs) -> length hs = length ws -> evs 0 r (map EName dn) vs ->
  evs 0 (add_all r hs ws) (map EName (dn ++ hs)) (vs ++ ws).
Proof.
  intros Hn Hl H. apply evs_names. apply evs_names in H. apply Forall2_app.
  - assert (Hd : forall x, In x dn -> ~ In x hs).
    { clear - Hn. induction dn as [|d dn IH]; intros x Hx Hi; [destruct Hx|]. simpl in Hn. inversion Hn; subst.
      destruct Hx as [<-|Hx]; [apply H1; apply in_or_app; auto|]. eapply IH; eauto. }
    revert Hd. induction H; constructor; [rewrite add_all_in; auto; apply Hd; simpl; auto|].
    apply IHForall2; [inversion Hn; auto|]. intros; apply Hd; simpl; auto.
  - apply lookup_added; auto. clear - Hn. induction dn; simpl in *; auto. inversion Hn; auto.
Qed.

(** The lambdas of an eta expansion against the lambdas of the function, from any group on. *)
Lemma eta_lams x us cenv' rec' names' f f' : forall gs hs senv tenv dn args' k,
  sizes gs = sizes hs -> lookup x tenv = Some (VFn cenv' rec' names' f') -> evs 0 tenv (map EName dn) args' ->
  NoDup (dn ++ names_of hs) -> ~ In x (names_of hs) -> length names' = length dn + length (names_of gs) ->
  (forall j i args2 args2' w, j <= k -> i <= j -> Forall2 (V j) args2 args2' -> length (names_of gs) = length args2 ->
     ev i (add_all senv (names_of gs) args2) f w ->
     exists c w', ev c (call_env cenv' rec' names' f' (args' ++ args2')) f' w' /\ V (j - i) w w') ->
  forall i v, i <= k -> ev i senv (lams gs f) v -> exists c v', ev c tenv (lams hs (eta_call x us (dn ++ names_of hs))) v' /\ V (k - i) v v'.
Proof.
  induction gs as [|g gs IH]; intros [|h hs] senv tenv dn args' k Hs Hx Hd Hn Hxn Hl H i v Hi He; try discriminate.
  - simpl in *. destruct (H k i [] [] v) as (c & w' & E & HV); auto.
    rewrite !app_nil_r in *. exists (0 + 0 + S c), w'. split; auto. unfold eta_call. eapply ev_call; eauto.
    + apply ev_piapps. constructor; auto.
    + apply evs_length in Hd. rewrite map_length in Hd. lia.
  - cbn [lams fold_right] in *. fold (lams gs f) in *. apply ev_lam_inv in He as [-> ->].
    eexists. eexists. split; [constructor|]. injection Hs as Hs1 Hs2. rewrite Nat.sub_0_r.
    apply V_fn; [rewrite !map_length; auto|]. intros j i args2 args2' w Hj Hij HA HL He. simpl in He |- *.
    rewrite !names_cons in *. assert (HL' : length (map fst h) = length args2') by (rewrite map_length in *; apply Forall2_len in HA; congruence).
    rewrite app_assoc in Hn |- *. rewrite in_app_iff in Hxn.
    eapply (IH hs (add_all senv (map fst g) args2) (add_all tenv (map fst h) args2') (dn ++ map fst h) (args' ++ args2') j); eauto.
    + rewrite add_all_in; auto.
    + apply evs_more; auto. eapply NoDup_app_l; eauto.
    + rewrite Hl, !app_length, !map_length. lia.
    + intros j2 i2 a a' w2 Hj2 Hi2 Ha Hla He2. destruct (H j2 i2 (args2 ++ a) (args2' ++ a') w2) as (c & w' & E & HV); auto; [lia| | | |].
      * apply Forall2_app; auto. eapply Vs_mono; [|exact HA]. lia.
      * rewrite !app_length. congruence.
      * rewrite add_all_app; auto.
      * exists c, w'. split; auto. rewrite <- app_assoc. auto.
Qed.

Lemma eta_V x k cenv rec g gs f cenv' rec' f' :
  (forall j i a1 a1' a2 a2' w, j < k -> i <= j -> Forall2 (V j) a1 a1' -> Forall2 (V j) a2 a2' ->
     length (map fst g) = length a1 -> length (names_of gs) = length a2 ->
     ev i (add_all (call_env cenv rec (map fst g) (lams gs f) a1) (names_of gs) a2) f w ->
     exists c w', ev c (call_env cenv' rec' (names_of (g :: gs)) f' (a1' ++ a2')) f' w' /\ V (j - i) w w') ->
  forall e' r, eta x (sizes (g :: gs)) e' -> lookup x r = Some (VFn cenv' rec' (names_of (g :: gs)) f') ->
  exists c v', ev c r e' v' /\ V k (VFn cenv rec (map fst g) (lams gs f)) v'.
Proof.
  intros H e' r (vs & us & [|h hs] & -> & Hs & Hn & Hx) Hl; [discriminate|]. injection Hs as Hs1 Hs2.
  eexists. eexists. split; [apply ev_pis; cbn [lams fold_right]; constructor|].
  apply V_fn; [rewrite !map_length; auto|]. intros j i a1 a1' w Hj Hi Ha Hla He. rewrite names_cons in *. simpl call_env at 1.
  assert (Hla' : length (map fst h) = length a1') by (rewrite map_length in *; apply Forall2_len in Ha; congruence).
  rewrite in_app_iff in Hx.
  eapply (@eta_lams x us cenv' rec' _ f f' gs hs _ (add_all r (map fst h) a1') (map fst h) a1' j); eauto.
  - rewrite add_all_in; eauto.
  - apply (@evs_more r [] (map fst h) [] a1'); auto; [eapply NoDup_app_l; exact Hn|constructor].
  - rewrite app_length, !map_length. lia.
  - intros j2 i2 a2 a2' w2 Hj2 Hi2 Ha2 Hla2 He2. eapply H; eauto; [lia|]. eapply Vs_mono; [|exact Ha]; lia.
Qed.

(** ** The map from names to what stands for them in the target program *)
Definition PR (R : name -> option (list nat)) : pmap :=
  fun x e' => match R x with None => e' = EName x | Some sz => eta x sz e' end.
Lemma PR_fv R x e' : PR R x e' -> fv e' = [x].
Proof. unfold PR. destruct (R x); [apply eta_fv|intros ->; auto]. Qed.
Lemma PR_ext R x : R x = None -> forall a e, PR R a e -> ext (PR R) x x a e.
Proof.
  intros H a e Ha. destruct (Nat.eq_dec a x) as [->|Hn].
  - left. unfold PR in Ha. rewrite H in Ha. auto.
  - right. repeat split; auto. rewrite (@PR_fv R a _ Ha). simpl. intuition congruence.
Qed.
Lemma PR_exts R xs : (forall x, In x xs -> R x = None) -> forall a e, PR R a e -> exts (PR R) xs xs a e.
Proof.
  induction xs as [|x xs IH]; intros H a e Ha; simpl; auto. eapply exts_sub; [apply PR_ext; apply H; simpl; auto|]. apply IH; auto. intros; apply H; simpl; auto.
Qed.
Lemma G_same P k r1 r1' r2 r2' : (forall x, lookup x r1 = lookup x r2) -> (forall x, lookup x r1' = lookup x r2') -> G P k r1 r1' -> G P k r2 r2'.
Proof.
  intros H H' HG x e' HP v Hv r'' Ha. rewrite <- H in Hv. apply (HG _ _ HP _ Hv). intros y Hy. rewrite H'. auto.
Qed.
Lemma G_params R k r r' xs vs vs' : (forall x, In x xs -> R x = None) -> length xs = length vs -> G (PR R) k r r' -> Forall2 (V k) vs vs' ->
  G (PR R) k (add_all r xs vs) (add_all r' xs vs').
Proof. intros H Hl HG HV. eapply G_sub; [apply PR_exts; exact H|]. apply G_exts; auto. Qed.
Lemma G_bind R k r r' x v v' : R x = None -> G (PR R) k r r' -> V k v v' -> G (PR R) k ((x, v) :: r) ((x, v') :: r').
Proof. intros H HG HV. eapply G_sub; [apply PR_ext; exact H|]. apply G_ext; auto. Qed.
(** A name whose uses are eta expanded. *)
Lemma G_eta R k r r' x v v' : G (PR R) k r r' ->
  (forall e' r2, PR R x e' -> lookup x r2 = Some v' -> exists c w, ev c r2 e' w /\ V k v w) ->
  G (PR R) k ((x, v) :: r) ((x, v') :: r').
Proof.
  intros HG H y e' HP w Hw r'' Ha. rewrite (@PR_fv R y _ HP) in Ha. simpl in Hw. destruct (Nat.eqb_spec y x) as [->|Hn].
  - injection Hw as <-. apply H; auto. rewrite <- Ha by (simpl; auto). simpl. rewrite Nat.eqb_refl. auto.
  - apply (HG _ _ HP _ Hw). rewrite (@PR_fv R y _ HP). intros z [<-|[]]. rewrite <- Ha by (simpl; auto). simpl. destruct (Nat.eqb_spec y x); tauto.
Qed.

(** A function of a definition. *)
Lemma sat_def R k r r' g gs f f' x : (forall y, In y (names_of (g :: gs)) -> R y = None) -> R x = Some (sizes (g :: gs)) ->
  rel (PR R) f f' -> G (PR R) k r r' ->
  forall e' r2, PR R x e' -> lookup x r2 = Some (VFn r' None (names_of (g :: gs)) f') ->
  exists c w, ev c r2 e' w /\ V k (VFn r None (map fst g) (lams gs f)) w.
Proof.
  intros Hp Hx Hf HG e' r2 HP Hl. unfold PR in HP. rewrite Hx in HP. eapply eta_V; eauto.
  intros j i a1 a1' a2 a2' w Hj Hi H1 H2 L1 L2 He. simpl in *. eapply Hf; eauto.
  rewrite names_cons in *. assert (length (map fst g) = length a1') by (apply Forall2_len in H1; congruence).
  rewrite !add_all_app by auto. assert (HG1 : G (PR R) j r r') by (eapply G_mono; [|exact HG]; lia).
  apply G_params; auto; [intros; apply Hp; apply in_or_app; auto|]. apply G_params; auto. intros; apply Hp; apply in_or_app; auto.
Qed.

(** A recursive function. *)
Lemma add_all_eq x xs : forall r r' vs, lookup x r = lookup x r' -> lookup x (add_all r xs vs) = lookup x (add_all r' xs vs).
Proof.
  induction xs as [|y xs IH]; intros r r' [|v vs] H; simpl; auto. apply IH. simpl. destruct (Nat.eqb x y); auto.
Qed.
Lemma add_all_front xs r vs n v x : ~ In n xs -> length xs = length vs ->
  lookup x (add_all ((n, v) :: r) xs vs) = lookup x ((n, v) :: add_all r xs vs).
Proof.
  intros Hn Hl. simpl. destruct (Nat.eqb_spec x n) as [->|Hx].
  - rewrite add_all_in; auto. simpl. rewrite Nat.eqb_refl; auto.
  - apply add_all_eq. simpl. destruct (Nat.eqb_spec x n); tauto.
Qed.
Lemma sat_rec R r r' g gs f f' x : (forall y, In y (names_of (g :: gs)) -> R y = None) -> R x = Some (sizes (g :: gs)) ->
  rel (PR R) f f' -> forall k, G (PR R) k r r' ->
  forall e' r2, PR R x e' -> lookup x r2 = Some (VFn r' (Some x) (names_of (g :: gs)) f') ->
  exists c w, ev c r2 e' w /\ V k (VFn r (Some x) (map fst g) (lams gs f)) w.
Proof.
  intros Hp Hx Hf k. induction k as [k IH] using lt_wf_ind. intros HG e' r2 HP Hl.
  assert (HP' := HP). unfold PR in HP'. rewrite Hx in HP'. eapply eta_V; eauto.
  intros j i a1 a1' a2 a2' w Hj Hi H1 H2 L1 L2 He. eapply Hf; [|exact Hi|exact He].
  assert (HG1 : G (PR R) j r r') by (eapply G_mono; [|exact HG]; lia).
  assert (Hxn : ~ In x (names_of (g :: gs))) by (intros Hi'; rewrite Hp in Hx by auto; discriminate).
  rewrite names_cons in *. assert (length (map fst g) = length a1') by (apply Forall2_len in H1; congruence).
  eapply G_same with (r1 := (x, VFn r (Some x) (map fst g) (lams gs f)) :: add_all (add_all r (map fst g) a1) (names_of gs) a2)
    (r1' := (x, VFn r' (Some x) (map fst g ++ names_of gs) f') :: add_all (add_all r' (map fst g) a1') (names_of gs) a2').
  - intros y. symmetry. cbn [call_env]. apply add_all_front; auto. intros Hi'; apply Hxn; apply in_or_app; auto.
  - intros y. cbn [call_env]. rewrite add_all_app by auto. auto.
  - apply G_eta.
    + apply G_params; auto; [intros; apply Hp; apply in_or_app; auto|]. apply G_params; auto. intros; apply Hp; apply in_or_app; auto.
    + intros e2 r3 HP2 Hl2. apply (IH j Hj HG1 e2 r3); auto.
Qed.
Lemma rel_sat_letrec R x t t' a a' g gs f f' b b' :
  strip_pis a = lams (g :: gs) f -> strip_pis a' = ELam (concat (g :: gs)) f' ->
  (forall y, In y (names_of (g :: gs)) -> R y = None) -> R x = Some (sizes (g :: gs)) -> rel (PR R) f f' -> rel (PR R) b b' ->
  rel (PR R) (ELetRec x t a b) (ELetRec x t' a' b').
Proof.
  intros Ea Ea' Hp Hx Hf Hb k r r' i v HG Hi Hev. apply ev_letrec_inv in Hev as (ps0 & f0 & H5 & H6).
  rewrite Ea in H5. cbn [lams fold_right] in H5. injection H5 as <- <-.
  destruct (Hb k ((x, VFn r (Some x) (map fst g) (lams gs f)) :: r) ((x, VFn r' (Some x) (names_of (g :: gs)) f') :: r') i v)
    as (c & v' & E & HV); auto.
  { apply G_eta; auto. eapply sat_rec; eauto. }
  exists c, v'. split; auto. econstructor; eauto.
Qed.
