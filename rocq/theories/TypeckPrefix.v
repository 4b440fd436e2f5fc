(** Accepting the items of a program one after the other, each with the definitions of those before it, gives
    what checking them with the definitions of the whole program gives. *)
From Verif Require Import VerifyState.
From Verif Require Import TypeckShape TypeckProg TypeckAccept TypeckAll Typeck.
Set Implicit Arguments.

(** ** [check] looks up only the names in the expression *)
Lemma cbind_ext A B (m m' : chk A) (f f' : A -> chk B) : (forall u, m u = m' u) -> (forall a u, f a u = f' a u) ->
  forall u, cbind m f u = cbind m' f' u.
Proof. intros E F u. unfold cbind. rewrite E. destruct (m' u) as [[[a r] u1]| |]; cbn; auto. rewrite F. auto. Qed.
Section Ext.
  Variables (S_ S' : sym -> option nty) (C_ C' : sym -> option dctor) (k : nat).
  Definition names_of (e : rexpr) : list sym := expr_refs e ++ map fst (expr_defs e).
  Lemma lookup_name_ext x : S_ x = S' x -> forall u, lookup_name S_ x u = lookup_name S' x u.
  Proof. intros E u. unfold lookup_name. rewrite E. auto. Qed.
  Lemma check_fields_ext rec inst xs : (forall x, In x xs -> S_ x = S' x) -> forall fs u, check_fields S_ k rec inst xs fs u = check_fields S' k rec inst xs fs u.
  Proof.
    induction xs as [|x xs IH]; intros H [|f fs] u; cbn [check_fields]; auto. apply cbind_ext.
    - intros. apply lookup_name_ext. apply H. left. auto.
    - intros a v. apply cbind_ext; auto. intros b w. apply cbind_ext; auto. intros _ z. apply IH. intros y Hy. apply H. right. auto.
  Qed.
  Lemma check_ext : forall e, (forall x, In x (names_of e) -> S_ x = S' x /\ C_ x = C' x) -> forall j u, check S_ C_ k e j u = check S' C' k e j u.
  Proof.
    induction e using rexpr_ind'; intros HN j u; unfold names_of in *; cbn [check expr_refs expr_defs] in *;
      repeat first [reflexivity | apply cbind_ext; [intros; try reflexivity|intros; try reflexivity]].
    - unfold instantiate_name. destruct (HN s) as [-> _]; [left; auto|]. auto.
    - apply IHe1. intros x Hx. apply HN. rewrite map_app. rewrite !in_app_iff in *. tauto.
    - apply IHe2. intros x Hx. apply HN. rewrite map_app. rewrite !in_app_iff in *. tauto.
    - apply IHe1. intros x Hx. apply HN. rewrite map_app. rewrite !in_app_iff in *. tauto.
    - apply IHe2. intros x Hx. apply HN. rewrite map_app. rewrite !in_app_iff in *. tauto.
    - apply IHe1. intros x Hx. apply HN. rewrite map_app. rewrite !in_app_iff in *. tauto.
    - apply IHe2. intros x Hx. apply HN. rewrite map_app. rewrite !in_app_iff in *. tauto.
    - unfold lookup_name_opaque. destruct (HN s) as [-> _]; auto. apply in_or_app. right. left. auto.
    - apply IHe1. intros x Hx. apply HN. cbn. rewrite !map_app. rewrite !in_app_iff in *. cbn. rewrite !in_app_iff. tauto.
    - apply IHe2. intros x Hx. apply HN. cbn. rewrite !map_app. rewrite !in_app_iff in *. cbn. rewrite !in_app_iff. tauto.
    - apply IHe. intros x Hx. apply HN. rewrite !map_app. rewrite !in_app_iff in *. tauto.
    - destruct (match a1 with Some (TyFolded a b) => (a, b) | _ => (a, a) end) as [pr rec].
      apply cbind_ext; [|auto]. assert (HC : forall x, In x (flat_map (fun c => fst (fst c) :: expr_refs (snd c)) cs ++
        map fst (flat_map (fun c => map (fun x => (x, DValue [] IrInfer)) (snd (fst c)) ++ expr_defs (snd c)) cs)) -> S_ x = S' x /\ C_ x = C' x).
      { intros x Hx. apply HN. rewrite !map_app. rewrite !in_app_iff in *. tauto. }
      clear HN IHe. induction H as [|[[c xs] b] cs Hb _ IH]; [auto|]. cbn [flat_map fst snd map] in *. intros v. apply cbind_ext.
      + intros w. unfold check_pattern. destruct (HC c) as [_ ->]; [left; auto|]. destruct (C' c) as [d|]; auto. apply cbind_ext; auto. intros t0 w0. apply cbind_ext; auto.
        intros h w1. apply cbind_ext; auto. intros _ w2. destruct (length xs =? length (dc_fields d)); auto. apply check_fields_ext. intros x Hx.
        destruct (HC x); auto. rewrite !map_app, map_map. cbn [fst]. rewrite map_id. rewrite !in_app_iff. tauto.
      + intros _ w. apply cbind_ext.
        * apply Hb. intros x Hx. apply HC. rewrite !map_app. cbn [In app]. rewrite !in_app_iff in *. tauto.
        * intros b' w1. apply cbind_ext; auto. apply IH. intros x Hx. apply HC. rewrite !map_app. cbn [In app]. rewrite !in_app_iff in *. tauto.
    - apply IHe1. intros x Hx. apply HN. rewrite !map_app. rewrite !in_app_iff in *. tauto.
    - apply IHe2. intros x Hx. apply HN. rewrite !map_app. rewrite !in_app_iff in *. tauto.
    - apply IHe3. intros x Hx. apply HN. rewrite !map_app. rewrite !in_app_iff in *. tauto.
    - apply lookup_name_ext. apply HN. apply in_or_app. right. left. auto.
    - apply IHe. intros y Hy. apply HN. cbn. rewrite !in_app_iff in *. cbn. tauto.
    - apply IHe. auto.
  Qed.
End Ext.
Lemma init_ext D D' xs : (forall x, In x xs -> assoc x D = assoc x D') -> init_types D xs = init_types D' xs.
Proof.
  unfold init_types. generalize (new_uni, @nil (sym * idx)). induction xs as [|x xs IH]; intros s H; cbn [fold_left]; auto.
  assert (E : init_step D s x = init_step D' s x) by (unfold init_step; rewrite (H x); [auto|left; auto]). rewrite E. apply IH. intros y Hy. apply H. right. auto.
Qed.
(** ** What is looked up in types is found *)
Section More.
  Variables D D' : defset.
  Hypothesis HM : forall x d, assoc x D = Some d -> assoc x D' = Some d.
  Lemma kind_more : forall t, kind_ok D t = true -> kind_ok D' t = true.
  Proof.
    induction t using irty_ind'; cbn [kind_ok]; auto; rewrite ?andb_true_iff.
    - intros [A B]. split.
      + destruct (assoc s D) as [d|] eqn:E; [|discriminate]. rewrite (HM _ E). auto.
      + rewrite forallb_forall in *. rewrite Forall_forall in *. auto.
    - intros []. auto.
  Qed.
  Lemma kinds_more : forall e, expr_kinds_ok D e = true -> expr_kinds_ok D' e = true.
  Proof.
    induction e using rexpr_ind'; cbn [expr_kinds_ok]; auto; rewrite ?andb_true_iff; try tauto.
    - intros [[A B] F]. repeat split; auto. destruct n as [[vs t]|]; auto. apply kind_more. auto.
    - intros [A B]. split; auto. rewrite forallb_forall in *. rewrite Forall_forall in *. auto.
  Qed.
  Lemma matches_more k u : forall ie b, matches_ok D k u ie = Done b -> matches_ok D' k u ie = Done b.
  Proof.
    fix IH 1. intros ie b. destruct ie; cbn [matches_ok]; auto; try apply IH.
    1-4: intros E; apply obind_inv in E as (a & Ea & E); apply obind_inv in E as (c & Ec & E); rewrite (IH _ _ Ea), (IH _ _ Ec); auto.
    - intros E. apply obind_inv in E as (t' & Et & E). rewrite Et. cbn [obind]. apply obind_inv in E as (m & Em & E).
      assert (Em' : match check_match (match_defs D') (Some (mty_of t')) (map (fun c => Some (fst (fst c))) cases) with
           | Some [] => Done true | Some _ => Done false | None => Bad end = Done m).
      { clear - HM Em. unfold check_match in *. destruct (match_symbol (mty_of t')) as [s|]; auto. unfold match_defs in *.
        destruct (assoc s D) as [d|] eqn:Es; [rewrite (HM _ Es); auto|discriminate]. }
      rewrite Em'. cbn [obind]. apply obind_inv in E as (r & Er & E). rewrite (IH _ _ Er). cbn [obind]. apply obind_inv in E as (rs & Ers & E).
      assert (Ers' : (fix go (l : list (sym * list sym * iexpr)) : out bool :=
               match l with [] => Done true | (_, b) :: r => x <~ matches_ok D' k u b ;; y <~ go r ;; Done (x && y) end) cases = Done rs).
      { clear - IH Ers. revert rs Ers. induction cases as [|[p c] cases IHc]; intros rs Ers; auto. apply obind_inv in Ers as (x & Ex & Ers). apply obind_inv in Ers as (y & Ey & Ers).
        rewrite (IH _ _ Ex). cbn [obind]. rewrite (IHc _ Ey). auto. }
      rewrite Ers'. auto.
    - intros E. apply obind_inv in E as (a & Ea & E). apply obind_inv in E as (c & Ec & E). apply obind_inv in E as (d & Ed & E).
      rewrite (IH _ _ Ea), (IH _ _ Ec), (IH _ _ Ed). auto.
  Qed.
  Variables (S_ S' : sym -> option nty).
  Lemma annotate_ext k u : forall e ie, ishape e ie -> (forall x, In x (map fst (expr_defs e)) -> S_ x = S' x /\ assoc x D = assoc x D') ->
    annotate D S_ k u ie = annotate D' S' k u ie.
  Proof.
    induction e using rexpr_ind'; intros ie I HN; destruct ie; cbn [ishape] in I; try contradiction; cbn [annotate expr_defs] in *; auto;
      rewrite ?map_app in HN; cbn [map fst] in HN.
    - destruct I. rewrite (IHe1 ie1), (IHe2 ie2); auto; intros; apply HN; rewrite !in_app_iff; auto.
    - destruct I as (_ & I1 & I2). rewrite (IHe1 ie1), (IHe2 ie2); auto; intros; apply HN; rewrite !in_app_iff; auto.
    - destruct I. rewrite (IHe1 ie1), (IHe2 ie2); auto; intros; apply HN; rewrite !in_app_iff; auto.
    - destruct I as (<- & I1 & I2). rewrite !map_app in HN. rewrite (IHe1 ie1), (IHe2 ie2); auto; [|intros; apply HN; cbn; rewrite !in_app_iff; auto..].
      unfold def_vars. destruct (HN s) as [_ ->]; [left; auto|]. auto.
    - destruct I as [I1 I2]. rewrite (IHe ie); auto; [|intros; apply HN; rewrite !in_app_iff; auto].
      assert (HC : forall x, In x (map fst (flat_map (fun c => map (fun x => (x, DValue [] IrInfer)) (snd (fst c)) ++ expr_defs (snd c)) cs)) -> S_ x = S' x /\ assoc x D = assoc x D')
        by (intros; apply HN; rewrite !in_app_iff; auto).
      match goal with |- obind ?a ?f = obind ?a ?g => assert (EX : forall d, f d = g d); [|destruct a; cbn [obind]; auto] end. intros d. destruct (final k u ti) as [t'| |]; cbn [obind]; auto.
      destruct t'; cbn [obind]; auto;
      (match goal with |- obind ?a _ = obind ?b _ => assert (EC : a = b); [|rewrite EC; auto] end;
        clear - H I2 HC; revert cases I2; induction H as [|[p b] cs Hb _ IH]; intros [|[p' b'] cases] I2; try contradiction; auto; destruct I2 as [[<- I1] I2];
        cbn [flat_map fst snd] in *; rewrite (Hb b'); auto; [rewrite IH; auto; intros; apply HC; rewrite !map_app, !in_app_iff; auto|intros; apply HC; rewrite !map_app, !in_app_iff; auto]).
    - destruct I as (I1 & I2 & I3). rewrite ?map_app in HN. rewrite (IHe1 ie1), (IHe2 ie2), (IHe3 ie3); auto; intros; apply HN; rewrite !in_app_iff; auto.
    - destruct I as (-> & <- & I). rewrite (IHe ie); auto. intros; apply HN; right; auto.
    - destruct I as (-> & <- & I). destruct (HN x) as [E1 E2]; [left; auto|]. unfold def_type, def_vars. rewrite E1, E2, (IHe ie); auto. intros; apply HN; right; auto.
    - rewrite (IHe ie); auto.
  Qed.
End More.

(** The names of a scoped expression. *)
Lemma names_scoped K : forall e B, rscoped K B e = true -> incl (expr_refs e) (K ++ B ++ map fst (expr_defs e)).
Proof.
  induction e using rexpr_ind'; intros B R y Hy; cbn [rscoped expr_refs expr_defs] in *;
    repeat match goal with H : _ && _ = true |- _ => apply andb_true_iff in H as [] end; try contradiction; cbn [map fst];
    rewrite ?map_app; cbn [map fst]; rewrite ?map_app, ?in_app_iff in *; cbn [In]; rewrite ?in_app_iff.
  - destruct Hy as [<-|[]]. right. left. apply mem_In. auto.
  - destruct Hy as [Hy|Hy]; [eapply IHe1 in Hy|eapply IHe2 in Hy]; eauto; rewrite !in_app_iff in Hy; tauto.
  - destruct Hy as [Hy|Hy]; [eapply IHe1 in Hy|eapply IHe2 in Hy]; eauto; rewrite !in_app_iff in Hy; tauto.
  - destruct Hy as [Hy|Hy]; [eapply IHe1 in Hy|eapply IHe2 in Hy]; eauto; rewrite !in_app_iff in Hy; tauto.
  - destruct Hy as [Hy|Hy]; [eapply IHe1 in Hy|eapply IHe2 in Hy]; eauto; rewrite !in_app_iff in Hy; cbn [In] in Hy; tauto.
  - destruct Hy as [Hy|Hy]; [eapply IHe in Hy; eauto; rewrite !in_app_iff in Hy; tauto|].
    assert (G : In y K \/ In y B \/ In y (map fst (flat_map (fun c => map (fun x => (x, DValue [] IrInfer)) (snd (fst c)) ++ expr_defs (snd c)) cs))); [|tauto].
    match goal with Q : forallb _ _ = true |- _ => revert Q end. clear IHe. induction H as [|[[c xs] b] cs Hb _ IH]; intros Q; [destruct Hy|].
    cbn [forallb flat_map fst snd] in *. apply andb_true_iff in Q as [Q1 Q2]. apply andb_true_iff in Q1 as [Q0 Q1]. rewrite !map_app, map_map, !in_app_iff. cbn [fst]. rewrite map_id.
    cbn [app In] in Hy. rewrite in_app_iff in Hy. destruct Hy as [Hy|[Hy|Hy]].
    + subst. left. apply mem_In. auto.
    + eapply Hb in Hy; eauto. rewrite !in_app_iff in Hy. tauto.
    + apply IH in Hy; auto. tauto.
  - destruct Hy as [Hy|[Hy|Hy]]; [eapply IHe1 in Hy|eapply IHe2 in Hy|eapply IHe3 in Hy]; eauto; rewrite !in_app_iff in Hy; tauto.
  - eapply IHe in Hy; eauto. rewrite !in_app_iff in Hy. cbn [In] in Hy. tauto.
  - eapply IHe in Hy; eauto. rewrite !in_app_iff in Hy. tauto.
Qed.

Lemma assoc_app A x (l l' : list (sym * A)) : assoc x (l ++ l') = match assoc x l with Some a => Some a | None => assoc x l' end.
Proof. induction l as [|[y a] l IH]; cbn; auto. destruct (Nat.eqb y x); auto. Qed.
Lemma in_assoc_some A x (a : A) l : In (x, a) l -> assoc x l <> None.
Proof. intros H E. destruct (in_assoc _ _ _ H) as [b Eb]. congruence. Qed.

(** ** An item *)
Lemma check_item_more k G G' K B r p :
  (forall x d, assoc x G = Some d -> assoc x G' = Some d) -> (forall x, In x (K ++ B) -> assoc x G <> None) ->
  match r with RVal _ _ _ (inr e) => rscoped K B e = true | _ => True end ->
  check_item k G r = Done (Some p) -> check_item k G' r = Done (Some p).
Proof.
  intros HG HB HS E.
  assert (HM : forall own x d, assoc x (own ++ G) = Some d -> assoc x (own ++ G') = Some d).
  { intros own x d. rewrite !assoc_app. destruct (assoc x own); auto. }
  destruct r as [s ps cases|x ann ex [b|e]]; cbn [check_item] in *.
  - destruct (forallb _ cases) eqn:F; [|discriminate]. injection E as <-.
    assert (F' : forallb (fun c : sym * list (option irty) => forallb (fun f => match f with Some t => kind_ok (item_defs (RTy s ps cases) ++ G') t | None => true end) (snd c)) cases = true).
    { rewrite forallb_forall in *. intros c Hc. specialize (F _ Hc). rewrite forallb_forall in *. intros f Hf. specialize (F _ Hf). destruct f as [t|]; auto.
      eapply kind_more; [|exact F]. apply HM. }
    rewrite F'. auto.
  - destruct ann as [[vars t]|]; auto. destruct (kind_ok (item_defs _ ++ G) t) eqn:F; [|discriminate]. rewrite (@kind_more _ _ (HM _) t F). auto.
  - apply obind_inv in E as ([[body types] ok] & Et & E). destruct ok; [|discriminate].
    cut (type_check k G' x ann e = Done (body, types, true)); [intros ->; exact E|]. clear E. unfold type_check in *.
    set (own := (x, ann_def ann) :: ann_vars ann ++ expr_defs e) in *. cbn zeta in *.
    assert (HN : forall y, In y (expr_refs e ++ map fst own) -> assoc y (own ++ G) = assoc y (own ++ G')).
    { intros y Hy. rewrite !assoc_app. destruct (assoc y own) eqn:Ey; auto.
      assert (No : ~ In y (map fst own)) by (intros Q; apply in_map_iff in Q as ([z d] & <- & Q); eapply in_assoc_some in Q; apply Q; auto).
      apply in_app_iff in Hy as [Hy|Hy]; [|tauto]. apply (@names_scoped K _ _ HS) in Hy. rewrite !in_app_iff in Hy.
      assert (Z : In y (K ++ B)).
      { apply in_app_iff. destruct Hy as [Hy|[Hy|Hy]]; auto. exfalso. apply No. unfold own. cbn. rewrite map_app, in_app_iff. auto. }
      apply HB in Z. destruct (assoc y G) as [d|] eqn:Ed; [|congruence]. symmetry. auto. }
    rewrite <- (@init_ext _ _ _ HN). destruct (init_types (own ++ G) _) as [u0 l]. destruct (instantiate u0 _ []) as [u1 j].
    assert (HN2 : forall y, In y (names_of e) -> symbol_type (own ++ G) l y = symbol_type (own ++ G') l y /\ ctor_def (own ++ G) y = ctor_def (own ++ G') y).
    { intros y Hy. unfold symbol_type, ctor_def. rewrite (HN y); auto. unfold names_of in Hy. unfold own. cbn. rewrite map_app, !in_app_iff in *. cbn. rewrite in_app_iff. tauto. }
    rewrite <- (@check_ext _ _ _ _ k e HN2). apply obind_inv in Et as ([[ie ok] u] & Ec & Et). rewrite Ec. cbn [obind].
    apply obind_inv in Et as (b' & Eb & Et). rewrite <- (@annotate_ext (own ++ G) (own ++ G') (symbol_type (own ++ G) l) _ k u e ie (@check_shape _ _ _ _ _ _ _ _ _ Ec)), Eb.
    2: { intros y Hy. split; [apply HN2; unfold names_of; rewrite in_app_iff; auto|]. apply HN. unfold own. cbn. rewrite map_app, !in_app_iff. cbn. rewrite in_app_iff. tauto. }
    cbn [obind]. apply obind_inv in Et as (m & Em & Et). rewrite (@matches_more _ _ (HM own) k u _ _ Em). cbn [obind].
    apply obind_inv in Et as (tys & Ety & Et). rewrite Ety. cbn [obind]. injection Et as -> -> Eo. apply andb_true_iff in Eo as [Eo E3]. apply andb_true_iff in Eo as [Eo E2].
    rewrite Eo, (@kinds_more _ _ (HM own) _ E3). destruct ann as [[vars t]|]; auto. rewrite (@kind_more _ _ (HM own) t E2). auto.
Qed.
(** ** A program *)
Lemma accepts_whole k all : NoDup (map fst all) -> forall rs K B G out,
  (forall x d, In (x, d) G -> In (x, d) all) -> incl (flat_map item_defs rs) all -> (forall x, In x (K ++ B) -> In x (map fst G)) ->
  ritems_scoped K B rs = true -> accepts k G rs out ->
  Forall2 (fun r p => check_item k all r = Done (Some p)) rs out.
Proof.
  intros ND. induction rs as [|r rs IH]; intros K B G out HG HA HB HS A; destruct out as [|p out]; cbn [accepts] in A; try contradiction; constructor.
  - destruct A as [A _]. cbn [ritems_scoped] in HS. apply andb_true_iff in HS as [HS _]. eapply check_item_more with (K := K) (B := B); [| | |exact A].
    + intros x d E. apply assoc_in in E. apply assoc_nodup; auto.
    + intros x Hx E. apply HB in Hx. apply in_map_iff in Hx as ([y d] & <- & Hx). eapply in_assoc_some in Hx; eauto.
    + destruct r as [|? ? ? []]; auto.
  - destruct A as [_ A]. cbn [ritems_scoped] in HS. apply andb_true_iff in HS as [_ HS]. cbn [flat_map] in HA. apply incl_app_inv in HA as [HA1 HA2].
    eapply IH; [| |  |exact HS|exact A]; auto.
    + intros x d Hx. apply in_app_iff in Hx as [Hx|Hx]; auto.
    + intros x Hx. rewrite map_app, in_app_iff. rewrite !in_app_iff in Hx.
      assert (Q : In x (rctors [r]) \/ In x (rvalues r) -> In x (map fst (item_defs r))).
      { clear. destruct r as [s ps cs|y ann ex b]; cbn; intros [Q|Q]; auto; try tauto; rewrite map_app, in_app_iff, !map_map; cbn [fst]; right; right; rewrite ?app_nil_r in Q; exact Q. }
      specialize (HB x). rewrite in_app_iff in HB. tauto.
Qed.
Theorem accepted_whole k rs out : resolved_items rs -> accepted k rs out -> Forall2 (fun r p => check_item k (defs_of rs) r = Done (Some p)) rs out.
Proof.
  intros R A. unfold accepted in A. eapply accepts_whole; [| | | |exact (ri_scoped R)|exact A].
  - pose proof (ri_distinct R) as N. clear - N. unfold defs_of, all_defs in *. induction rs as [|r rs IH]; cbn [flat_map] in *; [constructor|].
    rewrite !map_app in *. apply NoDup_app_iff in N as (N1 & N2 & N3). apply NoDup_app_iff in N1 as (N1 & _ & _). apply NoDup_app_iff. split; auto. split; auto.
    intros x Hx Q. apply (N3 x); [apply in_app_iff; auto|]. apply in_map_iff in Q as (q & <- & Q). apply in_map. apply in_flat_map in Q as (i & Hi & Q). apply in_flat_map. exists i. rewrite in_app_iff. auto.
  - intros x d [].
  - apply incl_refl.
  - intros x [].
Qed.
