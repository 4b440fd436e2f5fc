(** The names of generated expressions. *)
From Verif Require Import GenSpec CompileStatic CompileCorrect VerifyNames GenFacts.
Set Implicit Arguments.

Ltac inc := intros ? ?; simpl in *; tauto.
Definition below (s : gst) : Prop := Forall (fun p => snd p < g_nn s) (g_names s).
Lemma ext_below B s s' : ext B s s' -> below s -> below s'.
Proof.
  intros [Hn _ (L & E & F) _ _ _ _ _ _ _] H. unfold below in *. rewrite E. apply Forall_app. split.
  - eapply Forall_impl; [|exact F]. simpl. lia.
  - eapply Forall_impl; [|exact H]. simpl. lia.
Qed.
Lemma lookup_in {A} x (l : list (name * A)) v : lookup x l = Some v -> In (x, v) l.
Proof.
  induction l as [|[y w] l IH]; simpl; [discriminate|]. destruct (Nat.eqb_spec x y); intros H; auto.
  injection H as ->. subst. auto.
Qed.
Lemma img_below s D n : below s -> In n (img s D) -> n < g_nn s.
Proof.
  intros Hb H. apply in_flat_map in H as (x & _ & H). destruct (lookup x (g_names s)) eqn:E; [|destruct H].
  destruct H as [->|[]]. apply lookup_in in E. unfold below in Hb. rewrite Forall_forall in Hb. apply (Hb _ E).
Qed.

Lemma binders_pi vs e : binders (abs_pi vs e) = binders e.
Proof. induction vs; simpl; auto. Qed.
Lemma scoped_pi S vs e : scoped S (abs_pi vs e) = scoped S e.
Proof. induction vs; simpl; auto. Qed.
Lemma shape_pi r t vs e : shape r t (abs_pi vs e) = shape r t e.
Proof. induction vs; simpl; auto. Qed.
Lemma piapps ts : forall e, binders (fold_left EPiApp ts e) = binders e /\
  (forall S, scoped S (fold_left EPiApp ts e) = scoped S e) /\
  (forall r t, shape r t (fold_left EPiApp ts e) = shape r t e).
Proof.
  induction ts as [|t ts IH]; simpl; intros e; auto.
  destruct (IH (EPiApp e t)) as (H1 & H2 & H3). repeat split; intros; rewrite ?H1, ?H2, ?H3; auto.
Qed.

Lemma fresh_names_ok {A} (l : list A) : forall s ns s', gmap (fun _ => fresh_name) l s = Some (ns, s') ->
  ext [] s s' /\ g_names s' = g_names s /\ length ns = length l /\ seg (g_nn s) (g_nn s') ns.
Proof.
  induction l as [|a l IH]; simpl; intros s ns s' H; gb; [auto using ext_refl, seg_nil|].
  match goal with H : gmap _ _ _ = Some _ |- _ => apply IH in H as (X & Y & Z & W) end. simpl in *.
  split; [eapply ext_trans; [apply ext_fresh_name|exact X]|split; [auto|split; [auto|split]]].
  - destruct W as [W1 W2]. constructor; auto. intros Hin. rewrite Forall_forall in W2. apply W2 in Hin. lia.
  - destruct W as [W1 W2]. destruct X as [Hn _ _ _ _ _ _ _ _ _]. simpl in Hn.
    constructor; [lia|]. eapply Forall_impl; [|exact W2]. simpl. lia.
Qed.

Lemma gen_names_ok xs : forall s ns s', gmap gen_name xs s = Some (ns, s') -> NoDup xs ->
  ext xs s s' /\ length ns = length xs /\ seg (g_nn s) (g_nn s') ns /\ img s' xs = ns.
Proof.
  induction xs as [|x xs IH]; intros s ns s' H Hnd; simpl in H; [gb; auto using ext_refl, seg_nil|].
  apply gbind_some in H as (n & s1 & E & H). unfold gen_name in E. gb. inversion Hnd as [|? ? Hx Hnd']; subst.
  match goal with H : gmap _ _ _ = Some _ |- _ => apply IH in H as (X & Z & W & I) end; auto. simpl in *.
  pose proof X as [Hn _ _ _ _ _ _ _ _ _]. simpl in Hn.
  split; [|split; [auto|split]].
  - eapply ext_trans; [apply (@ext_incl [x]); [inc|apply ext_gen_name]|].
    eapply ext_incl; [|exact X]. simpl. auto.
  - destruct W as [W1 W2]. split.
    + constructor; auto. intros Hin. rewrite Forall_forall in W2. apply W2 in Hin. lia.
    + constructor; [lia|]. eapply Forall_impl; [|exact W2]. simpl. lia.
  - rewrite (@ext_lookup _ _ _ _ X Hx). simpl. rewrite Nat.eqb_refl. simpl. f_equal. exact I.
Qed.

Lemma fold_branches_ok fold tys cs : forall s brs s', gmap (gen_fold_branch fold tys) cs s = Some (brs, s') ->
  ext [] s s' /\ g_names s' = g_names s /\
  seg (g_nn s) (g_nn s') (flat_map (fun br => snd (fst br) ++ binders (snd br)) brs) /\
  (forall S, In fold S -> forallb (fun br => scoped (snd (fst br) ++ S) (snd br)) brs = true) /\
  (forall t, forallb (fun br => shape (Some (fold, 1)) t (snd br)) brs = true).
Proof.
  induction cs as [|c cs IH]; simpl; intros s brs s' H; [gb; auto using ext_refl, seg_nil|].
  apply gbind_some in H as (br & s1 & E & H). unfold gen_fold_branch in E. gb.
  match goal with H : gmap (gen_fold_branch _ _) _ _ = Some _ |- _ => apply IH in H as (X & Y & W & SC & SH) end.
  match goal with H : gmap (fun _ => fresh_name) _ _ = Some _ |- _ => apply fresh_names_ok in H as (X1 & Y1 & Z1 & W1) end.
  split; [eapply ext_trans; eauto|]. split; [congruence|]. split; [|split].
  - simpl. match goal with |- context [flat_map binders (map ?f ?l)] => assert (EB : flat_map binders (map f l) = []) end.
    { match goal with |- flat_map binders (map ?f ?q) = [] => induction q as [|[[t|] b] l0 IHl]; simpl; auto end. }
    rewrite EB, app_nil_r. eapply seg_app; [apply X1|apply X|exact W1|exact W].
  - intros S HS. simpl. rewrite (SC S HS), andb_true_r. apply forallb_forall. intros e He.
    apply in_map_iff in He as ([f b] & <- & Hin). apply in_combine_r in Hin.
    destruct f; simpl; rewrite ?andb_true_r.
    + apply mem_In. apply in_or_app. auto.
    + apply andb_true_iff. split; apply mem_In; apply in_or_app; auto.
  - intros t. simpl. rewrite SH, andb_true_r. apply forallb_forall. intros e He.
    apply in_map_iff in He as ([f b] & <- & Hin). destruct f; simpl; auto.
Qed.

Definition made (B D : list sym) (s s' : gst) (e' : expr) : Prop :=
  ext B s s' /\ seg (g_nn s) (g_nn s') (binders e') /\ scoped (img s D) e' = true /\ shape None false e' = true.

Lemma nodup_app3 {A} (a b : list A) : NoDup (a ++ b) -> NoDup a /\ NoDup b /\ (forall x, In x a -> ~ In x b).
Proof. apply NoDup_app_iff. Qed.

(** Evaluating in sequence: what the second part sees. *)
Lemma made_seq B1 B2 D s s1 s2 e1 e2 : made B1 D s s1 e1 -> made B2 D s1 s2 e2 ->
  (forall x, In x D -> ~ In x B1) ->
  ext (B1 ++ B2) s s2 /\ seg (g_nn s) (g_nn s2) (binders e1 ++ binders e2) /\ scoped (img s D) e2 = true.
Proof.
  intros (X1 & W1 & S1 & _) (X2 & W2 & S2 & _) HD. split; [|split].
  - eapply ext_trans; eapply ext_incl; [|exact X1| |exact X2]; intros; apply in_or_app; auto.
  - eapply seg_app; [apply X1|apply X2|exact W1|exact W2].
  - erewrite <- ext_img; [exact S2|exact X1|exact HD].
Qed.

Lemma shape_none e : forall t1 t2, shape None t1 e = true -> shape None t2 e = true.
Proof.
  induction e using expr_ind'; simpl; intros t1 t2 H'; auto; rewrite ?andb_true_iff in *; try tauto.
  all: repeat match goal with H : _ /\ _ |- _ => destruct H | |- _ /\ _ => split end; eauto.
  all: try (destruct e; auto; fail).
  all: rewrite forallb_forall in *; rewrite Forall_forall in *; intros; eauto.
Qed.
Definition gen_good (e : sexpr) : Prop := forall s e' s' D, gen_expr e s = Some (e', s') -> below s ->
  sscoped D e = true -> NoDup (sbinders e) -> (forall x, In x D -> ~ In x (sbinders e)) ->
  made (sbinders e) D s s' e'.

Lemma two e1 e2 s0 s1 s2 a b D : gen_good e1 -> gen_good e2 ->
  gen_expr e1 s0 = Some (a, s1) -> gen_expr e2 s1 = Some (b, s2) -> below s0 ->
  sscoped D e1 && sscoped D e2 = true -> NoDup (sbinders e1 ++ sbinders e2) ->
  (forall x, In x D -> ~ In x (sbinders e1 ++ sbinders e2)) ->
  made (sbinders e1) D s0 s1 a /\ made (sbinders e2) D s1 s2 b /\
  ext (sbinders e1 ++ sbinders e2) s0 s2 /\ seg (g_nn s0) (g_nn s2) (binders a ++ binders b) /\
  seg (g_nn s0) (g_nn s2) (binders b ++ binders a) /\ scoped (img s0 D) b = true.
Proof.
  intros G1 G2 E1 E2 HB HS HN HD. apply andb_true_iff in HS as [HS1 HS2]. apply nodup_app3 in HN as (N1 & N2 & N3).
  assert (M1 : made (sbinders e1) D s0 s1 a) by (eapply G1; eauto; intros x Hx Hb; eapply HD; eauto; apply in_or_app; auto).
  assert (M2 : made (sbinders e2) D s1 s2 b).
  { eapply G2; eauto; [eapply ext_below; [apply M1|auto]|]. intros x Hx Hb; eapply HD; eauto; apply in_or_app; auto. }
  destruct (made_seq M1 M2) as (X & W & S2); [intros x Hx Hb; eapply HD; eauto; apply in_or_app; auto|].
  repeat (split; auto). eapply seg_app'; [apply M1|apply M2|apply M1|apply M2]. eapply seg_app'; [apply M1|apply M2|apply M1|apply M2].
Qed.

(** The cases of a match. *)
Definition gen_cases (folded : bool) :=
  fix go (l : list (sym * list sym * sexpr)) : gen (list (name * list name * expr)) :=
  match l with
  | [] => gret []
  | ((c, xs), b) :: r =>
    ns <-- gmap gen_name xs ;; b' <-- gen_expr b ;;
    k <-- gget (fun s => lookup c (g_ctors s)) ;;
    brs <-- go r ;;
    gret ((if folded then k_folded k else k_regular k, ns, b') :: brs)
  end.
Lemma cases_ok folded l : Forall (fun c => gen_good (snd c)) l -> forall s brs s' D,
  gen_cases folded l s = Some (brs, s') -> below s ->
  forallb (fun c => sscoped (snd (fst c) ++ D) (snd c)) l = true ->
  NoDup (flat_map (fun c => snd (fst c) ++ sbinders (snd c)) l) ->
  (forall x, In x D -> ~ In x (flat_map (fun c => snd (fst c) ++ sbinders (snd c)) l)) ->
  ext (flat_map (fun c => snd (fst c) ++ sbinders (snd c)) l) s s' /\
  seg (g_nn s) (g_nn s') (flat_map (fun br => snd (fst br) ++ binders (snd br)) brs) /\
  forallb (fun br => scoped (snd (fst br) ++ img s D) (snd br)) brs = true /\
  forallb (fun br => shape None false (snd br)) brs = true.
Proof.
  induction 1 as [|[[c xs] b] l Hb _ IH]; intros s brs s' D HG HB HS HN HD; simpl in HG.
  { gb. simpl. auto using ext_refl, seg_nil. }
  fold (gen_cases folded) in HG. cbn [fst snd flat_map forallb] in *.
  apply gbind_some in HG as (ns & s1 & E1 & HG). apply gbind_some in HG as (b' & s2 & E2 & HG).
  apply gbind_some in HG as (k & s2' & E3 & HG). apply gget_some in E3 as [E3 ->].
  apply gbind_some in HG as (rs & s3 & E4 & HG). injection HG as <- <-.
  apply andb_true_iff in HS as [HS1 HS2]. apply nodup_app3 in HN as (N1 & N2 & N3).
  apply nodup_app3 in N1 as (N4 & N5 & N6).
  apply gen_names_ok in E1 as (X1 & Z1 & W1 & I1); [|exact N4].
  assert (M : made (sbinders b) (xs ++ D) s1 s2 b').
  { eapply Hb; eauto; [eapply ext_below; eauto|]. intros x Hx Hbx. apply in_app_or in Hx as [Hx|Hx].
    - eapply N6; eauto.
    - eapply HD; eauto. apply in_or_app. left. apply in_or_app. auto. }
  destruct M as (X2 & W2 & S2 & H2).
  assert (X12 : ext (xs ++ sbinders b) s s2).
  { eapply ext_trans; eapply ext_incl; [|exact X1| |exact X2]; intros; apply in_or_app; auto. }
  eapply IH in E4; eauto; [|eapply ext_below; eauto|intros x Hx Hbx; eapply HD; eauto; apply in_or_app; auto].
  destruct E4 as (X3 & W3 & S3 & H3). split; [|split; [|split]].
  - eapply ext_trans; eapply ext_incl; [|exact X12| |exact X3]; intros; apply in_or_app; auto.
  - simpl. eapply seg_app; [apply X12|apply X3| |exact W3]. eapply seg_app; [apply X1|apply X2|exact W1|exact W2].
  - simpl. apply andb_true_iff. split.
    + unfold img in S2. rewrite flat_map_app in S2. fold (img s1 xs) (img s1 D) in S2. rewrite I1 in S2.
      rewrite (@ext_img _ _ _ D X1) in S2; auto. intros x Hx Hbx. eapply HD; eauto. rewrite !in_app_iff. auto.
    + rewrite (@ext_img _ _ _ D X12) in S3; auto. intros x Hx Hbx. apply (HD x Hx). apply in_or_app. left. exact Hbx.
  - simpl. rewrite H2, H3. auto.
Qed.

Lemma gen_name_eq x s n s' : gen_name x s = Some (n, s') ->
  n = g_nn s /\ s' = up_names (up_nn s (S (g_nn s))) ((x, g_nn s) :: g_names s).
Proof. unfold gen_name. intros H. gb. auto. Qed.

Lemma img_new x s s' D : g_names s' = (x, g_nn s) :: g_names s -> ~ In x D -> img s' (x :: D) = g_nn s :: img s D.
Proof.
  intros E H. unfold img. simpl. rewrite E. simpl. rewrite Nat.eqb_refl. simpl. f_equal.
  induction D as [|y D IH]; simpl; auto. simpl in H. destruct (Nat.eqb_spec y x); [subst; tauto|].
  f_equal. apply IH. tauto.
Qed.

Theorem gen_expr_ok e : gen_good e.
Proof.
  induction e using sexpr_ind'; intros s0 e' s' D HG HB HS HN HD; cbn [gen_expr sscoped sbinders] in *.
  - (* name *)
    gb. change (gmap gen_ty i) with (gmap (fun t => gget (fun s => gen_ty_in s t)) i) in *.
    match goal with H : gmap _ _ _ = Some _ |- _ => apply gmap_pure in H as [-> _] end.
    match goal with |- made _ _ _ _ (fold_left EPiApp ?l ?e) => destruct (piapps l e) as (P1 & P2 & P3) end.
    unfold made. rewrite P1, P2, P3. simpl. split; [apply ext_refl|split; [apply seg_nil|split; auto]].
    apply mem_In. apply mem_In in HS. eapply in_img; eauto.
  - (* apply *)
    apply gbind_some in HG as (a & s1 & E1 & HG). apply gbind_some in HG as (b & s2 & E2 & HG). injection HG as <- <-.
    destruct (@two _ _ _ _ _ _ _ _ IHe1 IHe2 E1 E2 HB HS HN HD) as ((_ & _ & S1 & H1) & (_ & _ & _ & H2) & X & W & W' & S2).
    unfold made; simpl. rewrite app_nil_r, S1, S2, H1, H2. split; [auto|split; [auto|split; auto]]. destruct a; auto.
  - (* binary *)
    apply gbind_some in HG as (a & s1 & E1 & HG). apply gbind_some in HG as (b & s2 & E2 & HG). injection HG as <- <-.
    destruct (@two _ _ _ _ _ _ _ _ IHe1 IHe2 E1 E2 HB HS HN HD) as ((_ & _ & S1 & H1) & (_ & _ & _ & H2) & X & W & W' & S2).
    unfold made; simpl. rewrite S1, S2, H1, H2. split; [auto|split; [auto|split; auto]].
  - (* pipe *)
    apply gbind_some in HG as (a & s1 & E1 & HG). apply gbind_some in HG as (b & s2 & E2 & HG). injection HG as <- <-.
    destruct (@two _ _ _ _ _ _ _ _ IHe1 IHe2 E1 E2 HB HS HN HD) as ((_ & _ & S1 & H1) & (_ & _ & _ & H2) & X & W & W' & S2).
    unfold made; simpl. rewrite app_nil_r, S1, S2, H1, H2. split; [auto|split; [auto|split; auto]]. destruct b; auto.
  - (* let *)
    apply gbind_some in HG as (n & sx & E & HG). apply gen_name_eq in E as [-> Esx].
    apply gbind_some in HG as (u & si & Ei & HG). apply fresh_inst_ext in Ei as (Xi & Ni & Li).
    apply gbind_some in HG as (v' & s1 & E1 & HG).
    apply gbind_some in HG as (tvs & s1' & Et & HG).
    change (gmap tv_of vs) with (gmap (fun v => gget (fun s => lookup v (g_tvs s))) vs) in Et.
    apply gmap_pure in Et as [-> _].
    apply gbind_some in HG as (e'' & s2 & E2 & HG). injection HG as <- <-.
    apply andb_true_iff in HS as [HS1 HS2]. inversion HN as [|? ? Hx HN']; subst.
    apply nodup_app3 in HN' as (N1 & N2 & N3). rewrite in_app_iff in Hx.
    pose proof (ext_gen_name x s0) as X0. set (sx := up_names (up_nn s0 (S (g_nn s0))) ((x, g_nn s0) :: g_names s0)) in *.
    assert (XD : ~ In x D) by (intros Hc; eapply HD; eauto; left; auto).
    assert (X0i : ext [x] s0 si) by (eapply ext_trans; [exact X0|eapply ext_incl; [|exact Xi]; inc]).
    assert (M1 : made (sbinders e1) D si s1 v').
    { eapply IHe1; eauto; [eapply ext_below; eauto|]. intros y Hy Hb; eapply HD; eauto; right; apply in_or_app; auto. }
    pose proof M1 as (X1 & W1 & S1 & H1).
    assert (M2 : made (sbinders e2) (x :: D) s1 s2 e'').
    { eapply IHe2; eauto; [eapply ext_below; [exact X1|eapply ext_below; eauto]|].
      intros y [<-|Hy] Hb; [tauto|]. eapply HD; eauto; right; apply in_or_app; auto. }
    destruct M2 as (X2 & W2 & S2 & H2).
    assert (Dx : forall y, In y D -> ~ In y [x]) by (intros y Hy [->|[]]; auto).
    assert (D1 : forall y, In y D -> ~ In y (sbinders e1)) by (intros y Hy Hb; eapply HD; eauto; right; apply in_or_app; auto).
    rewrite (@ext_img _ _ _ D X0i Dx) in S1.
    assert (EI : img s1 (x :: D) = g_nn s0 :: img s0 D).
    { rewrite (@ext_img _ _ _ (x :: D) X1). 2:{ intros y [<-|Hy]; auto. }
      apply img_new; auto. }
    rewrite EI in S2.
    unfold made. simpl. rewrite binders_pi, scoped_pi, shape_pi. split; [|split; [|split]].
    + eapply ext_trans; [eapply ext_incl; [|exact X0i]; inc|].
      eapply ext_trans; eapply ext_incl; [|exact X1| |exact X2]; intros; right; apply in_or_app; auto.
    + assert (Hsi : g_nn si = S (g_nn s0)) by (rewrite Ni; auto).
      change (g_nn s0 :: binders v' ++ binders e'') with ([g_nn s0] ++ (binders v' ++ binders e'')).
      eapply seg_app with (b := S (g_nn s0)); [lia| |apply seg_one; lia|].
      * destruct X1 as [? _ _ _ _ _ _ _ _ _], X2 as [? _ _ _ _ _ _ _ _ _]; lia.
      * rewrite <- Hsi. eapply seg_app; [apply X1|apply X2|exact W1|exact W2].
    + rewrite S1, S2; auto.
    + rewrite H1, H2; auto.
  - (* match *)
    change (fix go (l : list (sym * list sym * sexpr)) : gen (list (name * list name * expr)) :=
              match l with
              | [] => gret []
              | ((c, xs), b) :: r =>
                ns <-- gmap gen_name xs ;; b' <-- gen_expr b ;;
                k <-- gget (fun s => lookup c (g_ctors s)) ;;
                brs <-- go r ;;
                gret ((if f then k_folded k else k_regular k, ns, b') :: brs)
              end) with (gen_cases f) in HG.
    apply gbind_some in HG as (d' & s1 & E1 & HG). apply gbind_some in HG as (brs & s2 & E2 & HG). injection HG as <- <-.
    apply andb_true_iff in HS as [HS1 HS2]. apply nodup_app3 in HN as (N1 & N2 & N3).
    assert (D1 : forall y, In y D -> ~ In y (sbinders e)) by (intros y Hy Hb; eapply HD; eauto; apply in_or_app; auto).
    assert (M1 : made (sbinders e) D s0 s1 d') by (eapply IHe; eauto).
    destruct M1 as (X1 & W1 & S1 & H1).
    eapply cases_ok in E2; eauto; [|eapply ext_below; eauto|intros y Hy Hb; eapply HD; eauto; apply in_or_app; auto].
    destruct E2 as (X2 & W2 & S2 & H2). rewrite (@ext_img _ _ _ D X1 D1) in S2.
    unfold made. simpl. rewrite S1, S2, H1, H2. split; [|split; [|split; auto]].
    + eapply ext_trans; eapply ext_incl; [|exact X1| |exact X2]; intros; apply in_or_app; auto.
    + eapply seg_app; [apply X1|apply X2|exact W1|exact W2].
  - (* if *)
    apply gbind_some in HG as (a & s1 & E1 & HG). apply gbind_some in HG as (b & s2 & E2 & HG).
    apply gbind_some in HG as (c & s3 & E3 & HG). injection HG as <- <-.
    apply andb_true_iff in HS as [HS HS3].
    assert (HN2 := HN). rewrite app_assoc in HN2. apply nodup_app3 in HN2 as (N1 & N2 & N3).
    assert (HD2 : forall x, In x D -> ~ In x (sbinders e1 ++ sbinders e2)).
    { intros x Hx Hb. apply (HD x Hx). rewrite app_assoc. apply in_or_app. left. exact Hb. }
    destruct (@two _ _ _ _ _ _ _ _ IHe1 IHe2 E1 E2 HB HS N1 HD2) as ((X1 & _ & S1 & H1) & (X2 & _ & _ & H2) & X & W & W' & S2).
    assert (M3 : made (sbinders e3) D s2 s3 c).
    { eapply IHe3; eauto; [eapply ext_below; eauto|]. intros x Hx Hb. eapply HD; eauto. rewrite !in_app_iff. auto. }
    destruct M3 as (X3 & W3 & S3 & H3). rewrite (@ext_img _ _ _ D X HD2) in S3.
    unfold made. simpl. rewrite S1, S2, S3, H1, H2, H3. split; [|split; [|split; auto]].
    + rewrite app_assoc. eapply ext_trans; eapply ext_incl; [|exact X| |exact X3]; intros; apply in_or_app; auto.
    + rewrite app_assoc. eapply seg_app; [apply X|apply X3|exact W|exact W3].
  - gb. split; [apply ext_refl|split; [apply seg_nil|split; auto]].
  - destruct (n <? W64)%N; gb. split; [apply ext_refl|split; [apply seg_nil|split; auto]].
  - gb. split; [apply ext_refl|split; [apply seg_nil|split; auto]].
  - (* fold *)
    apply gbind_some in HG as (t' & st & Et & HG). unfold gen_ty in Et. apply gget_some in Et as [Et ->].
    destruct t' as [| | | | |ps out|]; try discriminate HG. destruct ps as [|pt [|? ?]]; try discriminate HG.
    apply gbind_some in HG as (real & sx & E & HG). apply gen_name_eq in E as [-> ->].
    apply gbind_some in HG as (temp & sy & E & HG). injection E as <- <-.
    apply gbind_some in HG as (fold & sz & E & HG). injection E as <- <-.
    apply gbind_some in HG as (b' & s1 & E1 & HG). cbn [g_nn up_nn up_names] in HG.
    set (sx := up_names (up_nn s0 (S (g_nn s0))) ((x, g_nn s0) :: g_names s0)) in *.
    match type of E1 with gen_expr _ ?S = _ => set (sz := S) in * end.
    assert (Xz : ext [x] s0 sz).
    { eapply ext_trans; [apply ext_gen_name|]. fold sx. eapply ext_incl; [|eapply ext_trans; apply ext_fresh_name]. inc. }
    assert (Nz : g_nn sz = S (S (S (g_nn s0)))) by reflexivity.
    inversion HN as [|? ? Hx HN']; subst.
    assert (XD : ~ In x D) by (intros Hc; eapply HD; eauto; left; auto).
    assert (M1 : made (sbinders e) (x :: D) sz s1 b').
    { eapply IHe; eauto; [eapply ext_below; eauto|]. intros y [<-|Hy] Hb; [tauto|]. eapply HD; eauto; right; auto. }
    destruct M1 as (X1 & W1 & S1 & H1).
    assert (EI : img sz (x :: D) = g_nn s0 :: img s0 D) by (apply img_new; auto).
    rewrite EI in S1.
    assert (IB : forall n, In n (img s0 D) -> n < g_nn s0) by (intros n; apply img_below; auto).
    assert (Hn1 : g_nn sz <= g_nn s1) by apply X1.
    assert (BB : forall n, In n (binders b') -> g_nn sz <= n < g_nn s1).
    { destruct W1 as [_ W1]. rewrite Forall_forall in W1. auto. }
    assert (H1' : shape (Some (S (S (g_nn s0)), 1)) true b' = true).
    { eapply shape_other; [exact S1| | |exact H1].
      - intros [Hc|Hc]; [lia|]. apply IB in Hc. lia.
      - intros Hc. apply BB in Hc. lia. }
    assert (XF : forall s2, ext [] s1 s2 -> ext (x :: sbinders e) s0 s2).
    { intros s2 X2. eapply ext_trans; [eapply ext_incl; [|exact Xz]; inc|].
      eapply ext_trans; [eapply ext_incl; [|exact X1]; inc|]. eapply ext_incl; [|exact X2]; inc. }
    assert (HM : forall s2 u, ext [] s1 s2 -> seg (g_nn s1) (g_nn s2) (binders u) ->
               (forall S', In (S (g_nn s0)) S' -> In (S (S (g_nn s0))) S' -> scoped S' u = true) ->
               shape (Some (S (S (g_nn s0)), 1)) false u = true ->
               made (x :: sbinders e) D s0 s2 (fold_core (S (S (g_nn s0))) (TFn [pt] out) (S (g_nn s0)) pt (g_nn s0) u b')).
    { intros s2 u X2 Wu Su Hu. unfold made, fold_core. simpl. split; [auto|split; [|split]].
      - assert (Hn2 : g_nn s1 <= g_nn s2) by apply X2. rewrite app_nil_r.
        assert (WW : seg (g_nn sz) (g_nn s2) (binders u ++ binders b')) by (eapply seg_app'; [exact Hn1|exact Hn2|exact W1|exact Wu]).
        destruct WW as [WN WF]. rewrite Forall_forall in WF. rewrite Nz in WF. split.
        + repeat constructor; simpl; try (intros Hc); auto;
            repeat match goal with H : _ \/ _ |- _ => destruct H end;
            try lia; match goal with H : In _ _ |- _ => apply WF in H; lia end.
        + repeat constructor; try lia. apply Forall_forall. intros y Hy. apply WF in Hy. lia.
      - rewrite Su; simpl; auto. rewrite Nat.eqb_refl, andb_true_r. simpl.
        eapply scoped_incl; [|exact S1]. intros y Hy. simpl in *. tauto.
      - rewrite Hu, H1'. auto. }
    destruct pt as [| | | |nm args| |];
      try (injection HG as <- <-; apply HM; [apply ext_refl|apply seg_nil|intros; simpl; apply mem_In; auto|auto]; fail).
    apply gbind_some in HG as (cs & s1' & Ec & HG). apply gget_some in Ec as [Ec ->].
    apply gbind_some in HG as (brs & s2 & Eb & HG). injection HG as <- <-.
    apply fold_branches_ok in Eb as (X2 & _ & W2 & S2 & H2).
    apply HM; auto.
    + intros S' I1 I2. simpl. apply andb_true_iff. split; [apply mem_In; auto|apply S2; auto].
    + simpl. apply H2.
  - (* lambda *)
    apply gbind_some in HG as (n & sx & E & HG). apply gen_name_eq in E as [-> ->].
    apply gbind_some in HG as (b' & s1 & E1 & HG).
    apply gbind_some in HG as (t' & s2 & Et & HG). injection HG as <- <-.
    apply inst_ty_ext in Et as (Xi & Ni & Li).
    pose proof (ext_gen_name x s0) as X0. set (sx := up_names (up_nn s0 (S (g_nn s0))) ((x, g_nn s0) :: g_names s0)) in *.
    inversion HN as [|? ? Hx HN']; subst.
    assert (XD : ~ In x D) by (intros Hc; eapply HD; eauto; left; auto).
    assert (M1 : made (sbinders e) (x :: D) sx s1 b').
    { eapply IHe; eauto; [eapply ext_below; eauto|]. intros y [<-|Hy] Hb; [tauto|]. eapply HD; eauto; right; auto. }
    destruct M1 as (X1 & W1 & S1 & H1).
    assert (EI : img sx (x :: D) = g_nn s0 :: img s0 D) by (apply img_new; auto).
    rewrite EI in S1. unfold made. simpl. split; [|split; [|split]]; auto.
    + eapply ext_trans; [eapply ext_incl; [|exact X0]; inc|].
      eapply ext_trans; [eapply ext_incl; [|exact X1]; inc|]. eapply ext_incl; [|exact Xi]; inc.
    + change (g_nn s0 :: binders b') with ([g_nn s0] ++ binders b').
      assert (Hn : g_nn sx = S (g_nn s0)) by reflexivity. assert (Hn1 : g_nn sx <= g_nn s1) by apply X1.
      eapply seg_app with (b := S (g_nn s0)); [lia|lia|apply seg_one; lia|]. rewrite Ni, <- Hn. auto.
    + eapply shape_none; eauto.
  - (* paren *) eapply IHe; eauto.
  - (* hole *) gb. split; [apply ext_refl|split; [apply seg_nil|split; auto]].
Qed.
