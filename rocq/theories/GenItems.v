(** The names of generated programs. *)
From Verif Require Import GenSpec CompileStatic CompileCorrect VerifyNames GenFacts GenNames.
Set Implicit Arguments.

Lemma scoped_defs_app ds1 : forall S ds2, scoped_defs S (ds1 ++ ds2) = scoped_defs S ds1 && scoped_defs (rev (def_names ds1) ++ S) ds2.
Proof.
  induction ds1 as [|d ds1 IH]; simpl; intros S ds2; auto. rewrite IH, <- andb_assoc, <- app_assoc. auto.
Qed.
Lemma scoped_defs_incl ds : forall S S', (forall x, In x S -> In x S') -> scoped_defs S ds = true -> scoped_defs S' ds = true.
Proof.
  induction ds as [|d ds IH]; simpl; intros S S' HS H; auto. apply andb_true_iff in H as [H1 H2].
  apply andb_true_iff. split; [eapply scoped_incl; eauto|]. eapply IH; [|exact H2]. simpl. intros x [?|?]; auto.
Qed.

(** The names bound by a list of definitions. *)
Definition bound (ds : list valdef) : list name := flat_map (fun d => vd_name d :: binders (vd_value d)) ds.

Record step (B : sym -> Prop) (s s' : gst) : Prop := mkStep {
  t_nn : g_nn s <= g_nn s';
  t_names : exists L, g_names s' = L ++ g_names s /\
              Forall (fun p => B (fst p) /\ g_nn s <= snd p < g_nn s') L;
  t_emitted : forall k, In k (g_emitted s) -> In k (g_emitted s');
  t_defs : exists ds, g_defs s' = g_defs s ++ ds /\ seg (g_nn s) (g_nn s') (bound ds) /\
             scoped_defs (def_names (g_defs s)) ds = true /\ forallb (fun d => shape None false (vd_value d)) ds = true }.

Lemma step_refl B s : step B s s.
Proof. split; auto; exists []; rewrite ?app_nil_r; auto using seg_nil. Qed.
Lemma step_trans B s1 s2 s3 : step B s1 s2 -> step B s2 s3 -> step B s1 s3.
Proof.
  intros [N1 (L1 & E1 & F1) M1 (d1 & G1 & W1 & S1 & H1)] [N2 (L2 & E2 & F2) M2 (d2 & G2 & W2 & S2 & H2)].
  split; [lia| |auto|].
  - exists (L2 ++ L1). split; [rewrite E2, E1, app_assoc; auto|]. apply Forall_app. split.
    + eapply Forall_impl; [|exact F2]. simpl. intros. intuition lia.
    + eapply Forall_impl; [|exact F1]. simpl. intros. intuition lia.
  - exists (d1 ++ d2). rewrite G2, G1, app_assoc. split; auto. split; [|split].
    + unfold bound. rewrite flat_map_app. eapply seg_app; eauto.
    + rewrite scoped_defs_app, S1. simpl. rewrite G1 in S2. eapply scoped_defs_incl; [|exact S2].
      intros x Hx. unfold def_names in *. rewrite map_app in Hx. rewrite in_app_iff in *. rewrite <- in_rev. tauto.
    + rewrite forallb_app, H1, H2. auto.
Qed.
Lemma step_incl (B B' : sym -> Prop) s s' : (forall x, B x -> B' x) -> step B s s' -> step B' s s'.
Proof.
  intros H [N1 (L1 & E1 & F1) M1 D1]. split; auto. exists L1. split; auto. eapply Forall_impl; [|exact F1]. simpl. intuition auto.
Qed.
Lemma ext_step B s s' : ext B s s' -> step (fun x => In x B) s s'.
Proof.
  intros []. split; auto.
  - intros k. rewrite e_emitted. auto.
  - exists []. rewrite e_defs, app_nil_r. auto using seg_nil.
Qed.
(** Updates of the other tables. *)
Lemma step_same B s s' : g_nn s <= g_nn s' -> g_names s' = g_names s ->
  (forall k, In k (g_emitted s) -> In k (g_emitted s')) -> g_defs s' = g_defs s -> step B s s'.
Proof. intros H1 H2 H3 H4. split; auto; exists []; rewrite ?H2, ?H4, ?app_nil_r; auto using seg_nil. Qed.
Lemma gmap_step {A C} (f : A -> gen C) B : (forall a s c s', f a s = Some (c, s') -> step B s s') ->
  forall l s cs s', gmap f l s = Some (cs, s') -> step B s s'.
Proof.
  intros Hf. induction l as [|a l IH]; simpl; intros s cs s' H; gb; [apply step_refl|].
  eapply step_trans; [eapply Hf; eauto|eapply IH; eauto].
Qed.
Lemma step_below B s s' : step B s s' -> below s -> below s'.
Proof.
  intros [Hn (L & E & F) _ _] H. unfold below in *. rewrite E. apply Forall_app. split.
  - eapply Forall_impl; [|exact F]. simpl. lia.
  - eapply Forall_impl; [|exact H]. simpl. lia.
Qed.

Definition covers (s : gst) (D : list sym) : Prop :=
  forall x, In x D -> exists n, lookup x (g_names s) = Some n /\ In n (def_names (g_defs s)).
Lemma step_covers B s s' D : step B s s' -> covers s D -> (forall x, In x D -> ~ B x) -> covers s' D.
Proof.
  intros [_ (L & E & F) _ (ds & G & _)] H HD x Hx. destruct (H x Hx) as (n & Hl & Hn). exists n. split.
  - rewrite E, lookup_app_r; auto. intros Hin. apply in_map_iff in Hin as (p & <- & Hp).
    rewrite Forall_forall in F. apply F in Hp. eapply HD; [exact Hx|tauto].
  - rewrite G. unfold def_names. rewrite map_app. apply in_or_app. auto.
Qed.
Lemma covers_app s D1 D2 : covers s D1 -> covers s D2 -> covers s (D1 ++ D2).
Proof. intros H1 H2 x Hx. apply in_app_or in Hx as [?|?]; auto. Qed.

Lemma pure_map {A C} (f : A -> gen C) l : (forall a s c s', f a s = Some (c, s') -> s' = s) ->
  forall s cs s', gmap f l s = Some (cs, s') -> s' = s.
Proof.
  intros Hf. induction l as [|a l IH]; simpl; intros s cs s' H; gb; auto.
  apply Hf in E. subst. eauto.
Qed.
Lemma gmap_length {A C} (f : A -> gen C) l : forall s cs s', gmap f l s = Some (cs, s') -> length cs = length l.
Proof.
  induction l as [|a l IH]; simpl; intros s cs s' H; gb; auto. simpl. f_equal. eauto.
Qed.
Lemma combine_fst {A C} (l : list A) : forall l' : list C, length l = length l' -> map fst (combine l l') = l.
Proof. induction l; destruct l'; simpl; intros H; try discriminate; auto. f_equal. auto. Qed.
Lemma tv_of_pure v s c s' : tv_of v s = Some (c, s') -> s' = s.
Proof. unfold tv_of. intros H. gb. auto. Qed.
Lemma field_ty_pure t f s c s' : field_ty t f s = Some (c, s') -> s' = s.
Proof. destruct f; simpl; intros H; gb; auto. Qed.

(** Functions of several parameters, one at a time. *)
Lemma lams_binders ps : forall e, binders (fold_right (fun p e => ELam [p] e) e ps) = map fst ps ++ binders e.
Proof. induction ps as [|[x t] ps IH]; simpl; intros e; auto. rewrite IH. auto. Qed.
Lemma lams_scoped ps : forall S e, scoped (rev (map fst ps) ++ S) e = true -> scoped S (fold_right (fun (p : name * ty) e => ELam [p] e) e ps) = true.
Proof.
  induction ps as [|[x t] ps IH]; simpl; intros S e H; auto. apply IH. rewrite <- app_assoc in H. auto.
Qed.
Lemma lams_shape ps e : shape None false e = true -> shape None false (fold_right (fun (p : name * ty) e => ELam [p] e) e ps) = true.
Proof. induction ps as [|[x t] ps IH]; simpl; intros H; auto. eapply shape_none. auto. Qed.

Lemma step_def B s s' n ex t v : g_nn s <= g_nn s' -> g_names s' = g_names s -> g_emitted s' = g_emitted s ->
  g_defs s' = g_defs s ++ [mkValDef n ex t v] -> seg (g_nn s) (g_nn s') (n :: binders v) ->
  scoped (def_names (g_defs s)) v = true -> shape None false v = true -> step B s s'.
Proof.
  intros H1 H2 H3 H4 H5 H6 H7. split; auto.
  - exists []. rewrite H2. auto.
  - intros k. rewrite H3. auto.
  - exists [mkValDef n ex t v]. split; auto. unfold bound. simpl. rewrite app_nil_r, H6, H7. auto.
Qed.
(** A definition whose name and binders come from a range of fresh names. *)
Lemma step_make (B : sym -> Prop) s s' L n ex t v : g_nn s <= g_nn s' -> g_names s' = L ++ g_names s ->
  Forall (fun p => B (fst p) /\ g_nn s <= snd p < g_nn s') L -> g_emitted s' = g_emitted s ->
  g_defs s' = g_defs s ++ [mkValDef n ex t v] -> seg (g_nn s) (g_nn s') (n :: binders v) ->
  scoped (def_names (g_defs s)) v = true -> shape None false v = true -> step B s s'.
Proof.
  intros H1 H2 HL H3 H4 H5 H6 H7. split; auto.
  - exists L. auto.
  - intros k. rewrite H3. auto.
  - exists [mkValDef n ex t v]. split; auto. unfold bound. simpl. rewrite app_nil_r, H6, H7. auto.
Qed.

Lemma gen_ctor_ok functor dt params cn x fs s u s' : gen_ctor functor dt params cn x fs s = Some (u, s') ->
  step (fun y => functor = false /\ y = x) s s' /\ (functor = false -> covers s' [x]).
Proof.
  unfold gen_ctor. intros H.
  apply gbind_some in H as (fn & s1 & E1 & H). apply gbind_some in H as (fi & s2 & E2 & H).
  apply gbind_some in H as (u1 & s3 & E3 & H). apply fresh_inst_ext in E3 as (X3 & N3 & L3).
  apply gbind_some in H as (ps & s4 & E4 & H). apply fresh_names_ok in E4 as (X4 & L4 & Z4 & W4).
  apply gbind_some in H as (vs & s5 & E5 & H). apply (@pure_map _ _ _ _ tv_of_pure) in E5. subst s5.
  apply gbind_some in H as (ts & s6 & E6 & H). pose proof E6 as E6'. apply pure_map in E6; [|intros; eapply field_ty_pure; eauto]. subst s6.
  apply gbind_some in H as (fi2 & s7 & E7 & H).
  apply gbind_some in H as (u2 & s8 & E8 & H). apply fresh_inst_ext in E8 as (X8 & N8 & L8).
  apply gbind_some in H as (vs2 & s9 & E9 & H). apply (@pure_map _ _ _ _ tv_of_pure) in E9. subst s9.
  apply gbind_some in H as (ts2 & s10 & E10 & H). apply pure_map in E10; [|intros; eapply field_ty_pure; eauto]. subst s10.
  gb. destruct functor.
  - gb. split; [|discriminate]. apply step_same; simpl; auto.
    + rewrite N8. simpl. destruct X4 as [n4 _ _ _ _ _ _ _ _ _]. rewrite N3 in n4. simpl in n4. lia.
    + rewrite L8. simpl. rewrite L4, L3. auto.
    + destruct X8 as [_ _ _ _ _ _ _ -> _ _]. simpl. destruct X4 as [_ _ _ _ _ _ _ -> _ _].
      destruct X3 as [_ _ _ _ _ _ _ -> _ _]. auto.
    + destruct X8 as [_ _ _ _ _ _ _ _ _ ->]. simpl. destruct X4 as [_ _ _ _ _ _ _ _ _ ->].
      destruct X3 as [_ _ _ _ _ _ _ _ _ ->]. auto.
  - apply gen_name_eq in E1 as [-> ->]. gb.
    assert (LT : length ts = length fs).
    { apply gmap_length in E6'. auto. }
    assert (EM : map fst (combine ps ts) = ps).
    { apply combine_fst. congruence. }
    assert (ED : g_defs s8 = g_defs s).
    { destruct X8 as [_ _ _ _ _ _ _ _ _ ->]. simpl. destruct X4 as [_ _ _ _ _ _ _ _ _ ->].
      destruct X3 as [_ _ _ _ _ _ _ _ _ ->]. auto. }
    assert (EN : g_names s8 = (x, g_nn s) :: g_names s) by (rewrite L8; simpl; rewrite L4, L3; auto).
    assert (NN : S (g_nn s) <= g_nn s4).
    { destruct X4 as [n4 _ _ _ _ _ _ _ _ _]. rewrite N3 in n4. simpl in n4. lia. }
    simpl. split.
    + eapply step_make with (L := [(x, g_nn s)]) ; simpl; try reflexivity.
      * rewrite N8. simpl. lia.
      * rewrite EN. auto.
      * repeat constructor; auto. rewrite N8. simpl. lia.
      * destruct X8 as [_ _ _ _ _ _ _ -> _ _]. simpl. destruct X4 as [_ _ _ _ _ _ _ -> _ _].
        destruct X3 as [_ _ _ _ _ _ _ -> _ _]. auto.
      * rewrite ED. reflexivity.
      * rewrite binders_pi, lams_binders, EM, N8. simpl.
        assert (EB : flat_map binders (map EName ps) = []) by (clear; induction ps; simpl; auto).
        rewrite EB, app_nil_r. change (g_nn s :: ps) with ([g_nn s] ++ ps).
        eapply seg_app with (b := S (g_nn s)); [lia|lia|apply seg_one; lia|]. rewrite N3 in W4. auto.
      * rewrite scoped_pi. apply lams_scoped. rewrite EM. simpl. apply forallb_forall. intros e He.
        apply in_map_iff in He as (p & <- & Hp). simpl. apply mem_In. apply in_or_app. left. apply -> in_rev. auto.
      * rewrite shape_pi. apply lams_shape. simpl. apply forallb_forall. intros e He.
        apply in_map_iff in He as (p & <- & Hp). auto.
    + intros _ y [<-|[]]. exists (g_nn s). simpl. rewrite EN. simpl. rewrite Nat.eqb_refl. split; auto.
      unfold def_names. rewrite map_app. apply in_or_app. right. simpl. auto.
Qed.

Lemma gen_ctors_ok functor dt params l : forall s us s',
  gmap (fun cc : (sym * list (option sty)) * (name * list ty) =>
          gen_ctor functor dt params (fst (snd cc)) (fst (fst cc)) (snd (fst cc))) l s = Some (us, s') ->
  step (fun y => functor = false /\ In y (map (fun cc => fst (fst cc)) l)) s s' /\
  (functor = false -> NoDup (map (fun cc => fst (fst cc)) l) -> covers s' (map (fun cc => fst (fst cc)) l)).
Proof.
  induction l as [|cc l IH]; simpl; intros s us s' H; gb.
  - split; [apply step_refl|]. intros _ _ x [].
  - apply gen_ctor_ok in E as [T1 C1].
    match goal with H : gmap _ _ _ = Some _ |- _ => apply IH in H as [T2 C2] end. split.
    + eapply step_trans; eapply step_incl; [|exact T1| |exact T2]; simpl; intuition.
    + intros Hf Hn. inversion Hn as [|? ? Hx Hn']; subst. intros y [<-|Hy]; [|apply C2; auto].
      apply (step_covers T2 (C1 eq_refl)); [|simpl; auto]. intros z [<-|[]] [_ Hz]. auto.
Qed.

Lemma gen_type_item_ok functor x params cases s u s' : gen_type_item functor x params cases s = Some (u, s') ->
  step (fun y => functor = false /\ In y (x :: map fst cases)) s s' /\
  (functor = false -> NoDup (map fst cases) -> covers s' (map fst cases)).
Proof.
  unfold gen_type_item. intros H.
  apply gbind_some in H as (dt & s1 & E1 & H). apply gbind_some in H as (vars & s2 & E2 & H).
  apply gbind_some in H as (fv & s3 & E3 & H). apply gbind_some in H as (cs & s4 & E4 & H).
  apply gbind_some in H as (us & s5 & E5 & H). apply gbind_some in H as (tcs & s6 & E6 & H).
  apply gbind_some in H as ([] & s7 & E7 & H). apply gbind_some in H as ([] & s8 & E8 & H).
  assert (T1 : step (fun y => functor = false /\ In y (x :: map fst cases)) s s1).
  { destruct functor.
    - gb. apply step_same; simpl; auto.
    - apply gen_name_eq in E1 as [-> ->]. eapply step_incl; [|eapply ext_step, ext_gen_name]. simpl. intuition. }
  assert (T2 : step (fun y => functor = false /\ In y (x :: map fst cases)) s1 s2).
  { eapply gmap_step; [|exact E2]. intros a t c t' Ht. cbv beta in Ht. gb. apply step_same; simpl; auto. }
  assert (T3 : step (fun y => functor = false /\ In y (x :: map fst cases)) s2 s3).
  { destruct functor; gb; [apply step_same; simpl; auto|apply step_refl]. }
  assert (T4 : step (fun y => functor = false /\ In y (x :: map fst cases)) s3 s4).
  { eapply gmap_step; [|exact E4]. intros a t c t' Ht. cbv beta in Ht. gb.
    match goal with H : gmap _ _ _ = Some _ |- _ => apply pure_map in H; [|intros; eapply field_ty_pure; eauto]; subst end.
    apply step_same; simpl; auto. }
  apply gmap_length in E4. apply gen_ctors_ok in E5 as [T5 C5].
  assert (EM : map (fun cc : (sym * list (option sty)) * (name * list ty) => fst (fst cc)) (combine cases cs) = map fst cases).
  { rewrite <- (map_map fst fst). f_equal. apply combine_fst. auto. }
  rewrite EM in *.
  apply pure_map in E6; [|intros ? ? ? ? Hg; apply gget_some in Hg as [_ ->]; auto]. subst s6.
  assert (T8 : forall B, step B s5 s').
  { injection E7 as <-. injection E8 as <-. injection H as <- <-. intros B.
    destruct (lookup x (if functor then g_names s5 else g_folded s5)); apply step_same; simpl; auto. }
  split.
  - eapply step_trans; [exact T1|]. eapply step_trans; [exact T2|]. eapply step_trans; [exact T3|].
    eapply step_trans; [exact T4|]. eapply step_trans; [|apply T8]. eapply step_incl; [|exact T5]. simpl. intuition.
  - intros Hf Hn. eapply (step_covers (B := fun _ => False)); [apply T8|apply C5; auto|auto].
Qed.

Lemma iterate_made s e s' : iterate_intrinsic s = Some (e, s') ->
  ext [] s s' /\ seg (g_nn s) (g_nn s') (binders e) /\ (forall S, scoped S e = true) /\ shape None false e = true.
Proof.
  unfold iterate_intrinsic, iterate_core. intros H. gb. simpl. split; [|split; [|split]].
  - split; simpl; auto; try lia. exists []; auto.
  - split.
    + repeat constructor; simpl; lia.
    + repeat constructor; simpl; lia.
  - intros S. simpl. repeat (rewrite Nat.eqb_refl; simpl).
    repeat match goal with |- context [Nat.eqb ?a ?a] => rewrite (Nat.eqb_refl a) end. rewrite ?orb_true_r. reflexivity.
  - simpl. rewrite ?Nat.eqb_refl. reflexivity.
Qed.

Lemma string_params_ok (l : list ty) : forall s ns s', gmap (fun t => n <-- fresh_name ;; gret (n, t)) l s = Some (ns, s') ->
  ext [] s s' /\ length ns = length l /\ seg (g_nn s) (g_nn s') (map fst ns).
Proof.
  induction l as [|a l IH]; simpl; intros s ns s' H; gb; [auto using ext_refl, seg_nil|].
  match goal with H : gmap _ _ _ = Some _ |- _ => apply IH in H as (X & Z & W) end. simpl in *.
  split; [eapply ext_trans; [apply ext_fresh_name|exact X]|split; [auto|split]].
  - destruct W as [W1 W2]. constructor; auto. intros Hin. rewrite Forall_forall in W2. apply W2 in Hin. lia.
  - destruct W as [W1 W2]. destruct X as [Hn _ _ _ _ _ _ _ _ _]. simpl in Hn.
    constructor; [lia|]. eapply Forall_impl; [|exact W2]. simpl. lia.
Qed.
Lemma string_made i s e s' : string_intrinsic i s = Some (e, s') ->
  ext [] s s' /\ seg (g_nn s) (g_nn s') (binders e) /\ (forall S, scoped S e = true) /\ shape None false e = true.
Proof.
  unfold string_intrinsic. intros H. gb. apply string_params_ok in E as (X & Z & W).
  split; [auto|split; [|split]].
  - rewrite lams_binders. simpl. match goal with |- seg _ _ (_ ++ ?l) => assert (EB : l = []) end.
    { clear. induction a; simpl; auto. }
    rewrite EB, app_nil_r. auto.
  - intros S. apply lams_scoped. simpl. apply forallb_forall. intros e He. apply in_map_iff in He as (p & <- & Hp).
    simpl. apply mem_In. apply in_or_app. left. apply -> in_rev. apply in_map. auto.
  - apply lams_shape. simpl. rewrite map_length, Z. apply andb_true_iff. split; [destruct i; auto|].
    apply forallb_forall. intros e He. apply in_map_iff in He as (p & <- & Hp). auto.
Qed.

Lemma covers_img s D : covers s D -> forall n, In n (img s D) -> In n (def_names (g_defs s)).
Proof.
  intros H n Hn. apply in_flat_map in Hn as (x & Hx & Hn). destruct (H x Hx) as (m & E & Hm). rewrite E in Hn.
  destruct Hn as [<-|[]]. auto.
Qed.

Lemma gen_value_item_ok emit x vars t ex body s u s' D : gen_value_item emit x vars t ex body s = Some (u, s') ->
  below s -> covers s D -> match body with inr e => sscoped D e = true | inl _ => True end ->
  NoDup (item_syms (IVal x vars t ex body)) -> (forall y, In y D -> ~ In y (item_syms (IVal x vars t ex body))) ->
  step (fun y => In y (item_syms (IVal x vars t ex body))) s s' /\ covers s' [x] /\ g_emitted s' = g_emitted s.
Proof.
  unfold gen_value_item. intros H HB HC HS HN HD.
  apply gbind_some in H as (n & s1 & E1 & H). apply gen_name_eq in E1 as [-> E1].
  apply gbind_some in H as (t' & s2 & E2 & H). apply inst_ty_ext in E2 as (X2 & N2 & L2).
  apply gbind_some in H as (u1 & s3 & E3 & H). apply fresh_inst_ext in E3 as (X3 & N3 & L3).
  apply gbind_some in H as (v & s4 & E4 & H). injection H as <- <-.
  assert (X0 : ext [x] s s1) by (subst; apply ext_gen_name).
  assert (X03 : ext [x] s s3).
  { eapply ext_trans; [exact X0|]. eapply ext_incl; [|eapply ext_trans; [exact X2|exact X3]]. inc. }
  assert (NN : g_nn s3 = S (g_nn s)) by (rewrite N3, N2, E1; auto).
  assert (LL : g_names s3 = (x, g_nn s) :: g_names s) by (rewrite L3, L2, E1; auto).
  assert (M : exists B, ext B s3 s4 /\ (forall y, In y B -> In y (item_syms (IVal x vars t ex body))) /\ ~ In x B /\
              seg (g_nn s3) (g_nn s4) (binders v) /\ scoped (def_names (g_defs s)) v = true /\ shape None false v = true).
  { destruct body as [[|i]|e].
    - apply iterate_made in E4 as (X & W & Hs & Hh). exists []. simpl. intuition.
    - apply string_made in E4 as (X & W & Hs & Hh). exists []. simpl. intuition.
    - apply gbind_some in E4 as (v' & s5 & E5 & E4). apply gbind_some in E4 as (vs & s6 & E6 & E4). gb.
      apply (@pure_map _ _ _ _ tv_of_pure) in E6. try subst s6; try subst s5.
      simpl in HN. inversion HN as [|? ? Hx HN']; subst.
      assert (M : made (sbinders e) D s3 s5 v').
      { apply (@gen_expr_ok e s3 v' s5 D); auto.
        - eapply ext_below; eauto.
        - intros y Hy Hb. apply (HD _ Hy). simpl. auto. }
      destruct M as (X & W & Hs & Hh). exists (sbinders e). split; [auto|]. split; [simpl; auto|]. split; [auto|].
      rewrite binders_pi, scoped_pi, shape_pi. split; [auto|split; [|auto]].
      eapply scoped_incl; [|exact Hs]. intros m Hm. rewrite (@ext_img _ _ _ D X03) in Hm.
      + eapply covers_img; eauto.
      + intros y Hy [<-|[]]. apply (HD _ Hy). simpl. auto. }
  destruct M as (B & X4 & IB & XB & W4 & S4 & H4).
  assert (NN4 : g_nn s3 <= g_nn s4) by apply X4.
  pose proof X4 as [_ _ (L4 & EL & FL) _ _ _ _ EE _ ED]. pose proof X03 as [_ _ _ _ _ _ _ EE3 _ ED3].
  split.
  - eapply step_make with (L := L4 ++ [(x, g_nn s)]); cbn [g_nn g_names g_emitted g_defs up_defs].
    + lia.
    + rewrite EL, LL, <- app_assoc. auto.
    + apply Forall_app. split.
      * eapply Forall_impl; [|exact FL]. simpl. intros p [Hp Hq]. split; [apply IB; auto|lia].
      * constructor; [|constructor]. cbn [fst snd]. split; [destruct body; simpl; auto|lia].
    + congruence.
    + rewrite ED, ED3. reflexivity.
    + change (g_nn s :: binders v) with ([g_nn s] ++ binders v).
      eapply seg_app with (b := S (g_nn s)); [lia|lia|apply seg_one; lia|]. rewrite <- NN. auto.
    + auto.
    + auto.
  - split; [|simpl; congruence]. intros y [<-|[]]. exists (g_nn s). simpl. split.
    + rewrite (@ext_lookup _ _ _ _ X4 XB), LL. simpl. rewrite Nat.eqb_refl. auto.
    + unfold def_names. rewrite map_app. apply in_or_app. right. simpl. auto.
Qed.

(** Only imports mark modules as emitted. *)
Definition keeps {A} (m : gen A) : Prop := forall s a s', m s = Some (a, s') -> g_emitted s' = g_emitted s.
Lemma keeps_bind {A B} (m : gen A) (f : A -> gen B) : keeps m -> (forall a, keeps (f a)) -> keeps (gbind m f).
Proof. intros H1 H2 s b s' H. apply gbind_some in H as (a & s1 & E1 & E2). apply H1 in E1. apply H2 in E2. congruence. Qed.
Lemma keeps_ret {A} (a : A) : keeps (gret a).
Proof. intros s b s' H. injection H as <- <-. auto. Qed.
Lemma keeps_get {A} (f : gst -> option A) : keeps (gget f).
Proof. intros s b s' H. apply gget_some in H as [_ ->]. auto. Qed.
Lemma keeps_mod f : (forall s, g_emitted (f s) = g_emitted s) -> keeps (gmod f).
Proof. intros Hf s b s' H. injection H as <- <-. auto. Qed.
Lemma keeps_fresh : keeps fresh_name.
Proof. intros s b s' H. injection H as <- <-. auto. Qed.
Lemma keeps_tv : keeps fresh_tv.
Proof. intros s b s' H. injection H as <- <-. auto. Qed.
Lemma keeps_map {A B} (f : A -> gen B) l : (forall a, keeps (f a)) -> keeps (gmap f l).
Proof. intros Hf. induction l; simpl; [apply keeps_ret|]. apply keeps_bind; [auto|]. intros. apply keeps_bind; [auto|]. intros; apply keeps_ret. Qed.
Ltac keep := repeat match goal with
  | |- keeps (gbind _ _) => apply keeps_bind; [|intros]
  | |- keeps (gret _) => apply keeps_ret
  | |- keeps (gget _) => apply keeps_get
  | |- keeps (gmod _) => apply keeps_mod; intros
  | |- keeps fresh_name => apply keeps_fresh
  | |- keeps fresh_tv => apply keeps_tv
  | |- keeps (gmap _ _) => apply keeps_map; intros
  | |- keeps (if ?b then _ else _) => destruct b
  | |- keeps (match ?b with _ => _ end) => destruct b
  | |- keeps (gen_name _) => unfold gen_name
  | |- keeps (fresh_inst _) => unfold fresh_inst
  | |- keeps (tv_of _) => unfold tv_of
  | |- keeps (gen_ty _) => unfold gen_ty
  | |- keeps (field_ty _ _) => unfold field_ty
  | |- keeps (inst_ty _ _) => unfold inst_ty
  end; auto.
Lemma keeps_ctor fu dt ps cn x fs : keeps (gen_ctor fu dt ps cn x fs).
Proof. unfold gen_ctor. keep; destruct fu; auto. Qed.
Lemma keeps_type fu x ps cs : keeps (gen_type_item fu x ps cs).
Proof.
  unfold gen_type_item. keep; try apply keeps_ctor;
    match goal with |- g_emitted (match ?o with _ => _ end) = _ => destruct o; auto end.
Qed.

(** Sizes of items: a module does not import itself. *)
Fixpoint isize (i : item) : nat :=
  match i with
  | IImport mods => S (list_sum (map (fun m => S (list_sum (map isize (snd m)))) mods))
  | _ => 1
  end.
Definition msize (is : list item) : nat := S (list_sum (map isize is)).

Definition emit_mods : list (nat * list item) -> gen unit :=
  fix go (l : list (nat * list item)) : gen unit :=
     match l with
     | [] => gret tt
     | (k, is) :: r =>
       seen <-- gget (fun s => Some (existsb (Nat.eqb k) (g_emitted s))) ;;
       if seen : bool then go r else
       _ <-- gmod (fun s => up_emitted s (k :: g_emitted s)) ;; _ <-- emit_items false is ;; go r
     end.
Lemma import_eq emit mods : emit_item emit (IImport mods) = emit_mods mods.
Proof. reflexivity. Qed.
Lemma list_sum_in {A} (f : A -> nat) l x : In x l -> f x <= list_sum (map f l).
Proof. induction l as [|y l IH]; simpl; intros []; subst; [lia|]. specialize (IH H). lia. Qed.

Section Items.
  Variable T : list (nat * list item).
  Hypothesis Same : forall k a b, In (k, a) T -> In (k, b) T -> a = b.
  Hypothesis Nodup : forall k a, In (k, a) T -> NoDup (syms a).
  Hypothesis Apart : forall k a j b x, In (k, a) T -> In (j, b) T -> k <> j -> In x (syms a) -> ~ In x (syms b).
  Hypothesis Scoped : forall k a, In (k, a) T -> module_scoped [] a = true.

  (** The symbols an item may give names to. *)
  Definition touched (s : gst) (own : list sym) (y : sym) : Prop :=
    In y own \/ exists k a, In (k, a) T /\ ~ In k (g_emitted s) /\ In y (syms a).
  (** The modules emitted so far, except the unfinished ones, are usable. *)
  Definition table_ok (s : gst) (O : list nat) : Prop :=
    forall k a, In (k, a) T -> In k (g_emitted s) -> ~ In k O -> covers s (values a).
  (** Where the symbols in scope come from. *)
  Definition origin (s : gst) (O : list nat) (own D : list sym) : Prop :=
    forall x, In x D -> In x own \/ exists k a, In (k, a) T /\ In k (g_emitted s) /\ ~ In k O /\ In x (syms a).
  Definition closed_under (is : list item) : Prop := forall m, In m (reached is) -> In m T.

  (** Emitting the items [is] of the current module, after those that introduced [own]. *)
  Definition items_good (is : list item) : Prop :=
    forall emit s u s' own D O, emit_items emit is s = Some (u, s') -> below s ->
      closed_under is -> NoDup (own ++ syms is) ->
      (forall k a x, In (k, a) T -> ~ In k O -> In x (own ++ syms is) -> ~ In x (syms a)) ->
      (forall k a, In k O -> In (k, a) T -> msize is <= msize a) ->
      (forall k, In k O -> In k (g_emitted s)) ->
      origin s O own D -> covers s D -> module_scoped D is = true -> table_ok s O ->
      step (touched s (syms is)) s s' /\ covers s' (values is) /\ table_ok s' O.

  Lemma values_syms is x : In x (values is) -> In x (syms is).
  Proof.
    unfold values, syms. rewrite !in_flat_map. intros (i & Hi & Hx). exists i. split; auto.
    destruct i as [y ps cs|y vs t ex b|ms]; simpl in *; auto. destruct b; simpl; tauto.
  Qed.
  Lemma touched_mono s s1 own own' y : (forall k, In k (g_emitted s) -> In k (g_emitted s1)) ->
    (forall y, In y own -> In y own') -> touched s1 own y -> touched s own' y.
  Proof. intros H1 H2 [H|(k & a & Hk & Hn & Hy)]; [left; auto|]. right. exists k, a. split; [auto|split; auto]. Qed.

  Lemma mods_ok N : (forall is, msize is < N -> items_good is) ->
    forall mods s u s' own O, emit_mods mods s = Some (u, s') -> below s ->
      (forall m, In m mods -> In m T /\ msize (snd m) < N /\ closed_under (snd m)) ->
      (forall k a x, In (k, a) T -> ~ In k O -> In x own -> ~ In x (syms a)) ->
      (forall k a, In k O -> In (k, a) T -> N <= msize a) ->
      (forall k, In k O -> In k (g_emitted s)) -> table_ok s O ->
      step (touched s []) s s' /\ (forall m, In m mods -> In (fst m) (g_emitted s')) /\ table_ok s' O.
  Proof.
    intros IH. induction mods as [|[k is] mods IHm]; intros s u s' own O HG HB HT Hown HO HOe Htab.
    { simpl in HG. gb. split; [apply step_refl|]. split; [intros m []|auto]. }
    simpl in HG. fold emit_mods in HG.
    apply gbind_some in HG as (seen & s1 & E & HG). apply gget_some in E as [E ->]. injection E as E.
    destruct (HT (k, is) (or_introl eq_refl)) as (HTk & Hsz & Hcl). simpl in Hsz, Hcl.
    assert (HT' : forall m, In m mods -> In m T /\ msize (snd m) < N /\ closed_under (snd m)) by (intros; apply HT; right; auto).
    destruct seen.
    - apply existsb_exists in E as (k' & Hk' & E). apply Nat.eqb_eq in E. subst k'.
      destruct (IHm s u s' own O HG HB HT' Hown HO HOe Htab) as (S1 & M1 & T1).
      split; [auto|split; auto]. intros m [<-|Hm]; auto. simpl. destruct S1 as [_ _ Hem _]. auto.
    - assert (Hk : ~ In k (g_emitted s)).
      { intros Hin. assert (existsb (Nat.eqb k) (g_emitted s) = true) by (apply existsb_exists; exists k; split; auto; apply Nat.eqb_refl). congruence. }
      assert (HkO : ~ In k O) by auto.
      apply gbind_some in HG as (u0 & s1 & E1 & HG). injection E1 as <- <-.
      apply gbind_some in HG as (u1 & s2 & E2 & HG).
      set (s1 := up_emitted s (k :: g_emitted s)) in *.
      assert (R : step (touched s1 (syms is)) s1 s2 /\ covers s2 (values is) /\ table_ok s2 (k :: O)).
      { eapply (IH is Hsz) with (own := []) (D := []); [exact E2|exact HB|exact Hcl|eapply Nodup; eauto| | | | | | |].
        - intros j b x Hj Hn Hx. apply (@Apart _ _ _ _ x HTk Hj); auto. intros ->. apply Hn. left; auto.
        - intros j b [<-|Hj] Hjb; [rewrite (@Same _ _ _ Hjb HTk); auto|]. specialize (HO j b Hj Hjb). lia.
        - intros j [<-|Hj]; simpl; auto.
        - intros x [].
        - intros x [].
        - eapply Scoped; eauto.
        - intros j b Hj Hje HjO. simpl in Hje. destruct Hje as [->|Hje]; [exfalso; apply HjO; left; auto|].
          assert (C : covers s (values b)) by (eapply Htab; eauto; intros Hc; apply HjO; right; auto). exact C. }
      destruct R as (S1 & C1 & T1).
      assert (S0 : step (touched s []) s s2).
      { destruct S1 as [A1 (L & A2 & A2') A3 A4]. split; [exact A1| |intros j Hj; apply A3; simpl; auto|exact A4].
        exists L. split; [exact A2|]. eapply Forall_impl; [|exact A2']. simpl. intros p [Hp Hq]. split; [|exact Hq].
        right. destruct Hp as [Hp|(j & b & Hj & Hn & Hp)]; [exists k, is; auto|].
        exists j, b. split; auto. split; auto. intros Hc. apply Hn. simpl. auto. }
      assert (T2 : table_ok s2 O).
      { intros j b Hj Hje HjO. destruct (Nat.eq_dec j k) as [->|Hne].
        - rewrite (@Same _ _ _ Hj HTk). exact C1.
        - apply (T1 j b Hj Hje). intros [->|Hc]; auto. }
      assert (E2' : In k (g_emitted s2)) by (destruct S1 as [_ _ Hem _]; apply Hem; simpl; auto).
      destruct (IHm s2 u s' own O HG) as (S3 & M3 & T3); auto.
      + eapply step_below; eauto.
      + intros j Hj. destruct S0 as [_ _ Hem _]. auto.
      + split; [|split; auto].
        * eapply step_trans; [exact S0|]. eapply step_incl; [|exact S3]. intros y. apply touched_mono; auto. apply S0.
        * intros m [<-|Hm]; auto. simpl. destruct S3 as [_ _ Hem _]. auto.
  Qed.

  Lemma sum_mods mods m : In m mods -> msize (snd m) <= list_sum (map (fun m : nat * list item => S (list_sum (map isize (snd m)))) mods).
  Proof. apply (@list_sum_in _ (fun m : nat * list item => S (list_sum (map isize (snd m))))). Qed.

  Lemma items_ok_le N : forall is, msize is < N -> items_good is.
  Proof.
    induction N as [N IHN] using lt_wf_ind. intros is Hsz.
    assert (HM : forall is', msize is' < msize is -> items_good is') by (intros is' H; eapply (IHN (msize is)); eauto).
    clear IHN Hsz N.
    induction is as [|i is IH]; intros emit s u s' own D O HG HB Hcl HN Hown HO HOe Hor HC HS Htab.
    { simpl in HG. gb. split; [apply step_refl|]. split; [intros x []|auto]. }
    assert (Hlt : msize is < msize (i :: is)) by (unfold msize; simpl; destruct i; simpl; lia).
    assert (IH' : items_good is) by (apply HM; auto). clear IH.
    simpl in HG. fold (emit_items emit) in HG. apply gbind_some in HG as (u1 & s1 & E1 & HG).
    simpl in HS. apply andb_true_iff in HS as [HS1 HS2].
    unfold syms in HN, Hown. cbn [flat_map] in HN, Hown. fold (syms is) in HN, Hown.
    assert (HNi : NoDup (item_syms i) /\ (forall x, In x own -> ~ In x (item_syms i)) /\ (forall x, In x (item_syms i) -> ~ In x (syms is))).
    { apply NoDup_app_iff in HN as (N1 & N2 & N3). apply NoDup_app_iff in N2 as (N4 & N5 & N6).
      split; [auto|split; auto]. intros x Hx Hc. apply (N3 x Hx). apply in_or_app. auto. }
    destruct HNi as (HN1 & HN2 & HN3).
    assert (DI : forall x, In x D -> ~ In x (item_syms i)).
    { intros x Hx Hi. destruct (Hor x Hx) as [Ho|(k & a & Hk & _ & HkO & Hxa)]; [eapply HN2; eauto|].
      eapply (Hown k a x); eauto. apply in_or_app. right. apply in_or_app. auto. }
    (* one item *)
    assert (R : step (touched s (item_syms i)) s s1 /\ covers s1 (usable i) /\ table_ok s1 O /\
                (forall x, In x (usable i) -> In x (item_syms i) \/ exists k a, In (k, a) T /\ In k (g_emitted s1) /\ ~ In k O /\ In x (syms a))).
    { assert (KEEP : forall s2, step (fun y => In y (item_syms i)) s s2 -> g_emitted s2 = g_emitted s -> table_ok s2 O).
      { intros s2 St Ee k a Hk Hke HkO. rewrite Ee in Hke. eapply step_covers; [exact St|eapply Htab; eauto|].
        intros x Hx Hi. eapply (Hown k a x); eauto; [apply in_or_app; right; apply in_or_app; auto|]. apply values_syms; auto. }
      destruct i as [x ps cs|x vs t ex b|mods].
      - cbn [emit_item] in E1. apply gbind_some in E1 as (u2 & s2 & E2 & E1). injection E2 as <- <-.
        apply gbind_some in E1 as (u3 & s3 & E3 & E1). pose proof (@keeps_type _ _ _ _ _ _ _ E3) as K3. apply gen_type_item_ok in E3 as [S3 C3].
        pose proof (@keeps_type _ _ _ _ _ _ _ E1) as K4.        apply gen_type_item_ok in E1 as [S4 C4]. simpl in HN1. inversion HN1 as [|? ? Hx HN']; subst.
        set (s2 := up_fields s (rev cs ++ g_fields s)) in *.
        assert (St : step (fun y => In y (x :: map fst cs)) s s1).
        { eapply step_trans; [apply (@step_same _ s s2); simpl; auto|].
          eapply step_trans; eapply step_incl; [|exact S3| |exact S4]; simpl; tauto. }
        assert (Ee : g_emitted s1 = g_emitted s) by (rewrite K4, K3; auto).
        split; [eapply step_incl; [|exact St]; intros y Hy; left; auto|]. split; [|split; [apply KEEP; auto|]].
        + simpl. eapply step_covers; [exact S4|apply C3; auto|]. intros y _ [Hf _]. discriminate.
        + simpl. auto.
      - cbn [emit_item] in E1. eapply gen_value_item_ok with (D := D) in E1; auto.
        + destruct E1 as (St & Cv & Ee). split; [eapply step_incl; [|exact St]; intros y Hy; left; auto|].
          split; [auto|split; [apply KEEP; auto|]]. intros y [<-|[]]. left. simpl. destruct b; simpl; auto.
        + destruct b; auto.
      - rewrite import_eq in E1.
        assert (HT : forall m, In m mods -> In m T /\ msize (snd m) < msize (IImport mods :: is) /\ closed_under (snd m)).
        { intros m Hm. split; [|split].
          - apply Hcl. unfold reached. cbn [flat_map imports]. apply in_or_app. left. apply in_flat_map. exists m. split; auto. left; auto.
          - apply sum_mods in Hm. unfold msize in *. simpl. lia.
          - intros m' Hm'. apply Hcl. unfold reached. cbn [flat_map imports]. apply in_or_app. left.
            apply in_flat_map. exists m. split; auto. right. exact Hm'. }
        destruct (@mods_ok _ HM mods s u1 s1 own O E1 HB HT) as (St & Me & Tb); auto.
        { intros k a x Hk HkO Hx. apply (Hown k a x); auto. apply in_or_app. auto. }
        split; [exact St|]. split; [|split; [exact Tb|]].
        + intros x Hx. cbn [usable] in Hx. apply in_flat_map in Hx as (m & Hm & Hx). destruct (HT m Hm) as (HTm & Hsz & _).
          destruct m as [k a]. apply (Tb k a HTm (Me _ Hm)); auto. intros HkO. specialize (HO k a HkO HTm). simpl in Hsz. lia.
        + intros x Hx. cbn [usable] in Hx. apply in_flat_map in Hx as (m & Hm & Hx). destruct (HT m Hm) as (HTm & Hsz & _).
          destruct m as [k a]. right. exists k, a. split; [auto|]. split; [apply (Me _ Hm)|]. split; [|apply values_syms; auto].
          intros HkO. specialize (HO k a HkO HTm). simpl in Hsz. lia. }
    destruct R as (St & Cu & Tb & Or).
    assert (CD : covers s1 D).
    { eapply step_covers; [exact St|exact HC|]. intros x Hx [Hi|(k & a & Hk & Hke & Hxa)]; [eapply DI; eauto|].
      destruct (Hor x Hx) as [Ho|(j & b & Hj & Hje & HjO & Hxb)].
      - eapply (Hown k a x); eauto. apply in_or_app; auto.
      - assert (Hne : k <> j) by (intros ->; auto). eapply (@Apart _ _ _ _ _ Hk Hj Hne); eauto. }
    destruct (IH' emit s1 u s' (own ++ item_syms i) (usable i ++ D) O HG) as (St2 & Cv2 & Tb2); auto.
    - eapply step_below; eauto.
    - intros m Hm. apply Hcl. unfold reached. simpl. apply in_or_app. auto.
    - rewrite <- app_assoc. auto.
    - intros k a x Hk HkO Hx. apply (Hown k a x); auto. rewrite <- app_assoc in Hx. auto.
    - intros k a Hk Hka. specialize (HO k a Hk Hka). lia.
    - intros k Hk. destruct St as [_ _ Hem _]. auto.
    - intros x Hx. apply in_app_or in Hx as [Hx|Hx].
      + destruct (Or x Hx) as [?|?]; auto. left. apply in_or_app. auto.
      + destruct (Hor x Hx) as [?|(k & a & Hk & Hke & HkO & Hxa)]; [left; apply in_or_app; auto|].
        right. exists k, a. split; [auto|]. split; [destruct St as [_ _ Hem _]; auto|auto].
    - apply covers_app; auto.
    - assert (Hem : forall k, In k (g_emitted s) -> In k (g_emitted s1)) by apply St.
      split; [|split; auto].
      + eapply step_trans; eapply step_incl; [|exact St| |exact St2]; intros y; apply touched_mono; auto;
          unfold syms; simpl; intros z Hz; apply in_or_app; auto.
      + unfold values. simpl. fold (values is). intros x Hx. apply in_app_or in Hx as [Hx|Hx]; [|apply Cv2; auto].
        assert (Hxi : In x (usable i)) by (destruct i; simpl in *; auto; destruct Hx).
        eapply (step_covers St2 Cu); [|exact Hxi].
        intros y Hy Hty. destruct (Or y Hy) as [Hi|(k & a & Hk & Hke & HkO & Hya)].
        * destruct Hty as [Hty|(j & b & Hj & Hje & Hyb)]; [eapply HN3; eauto|].
          eapply (Hown j b y); eauto. apply in_or_app; right; apply in_or_app; auto.
        * destruct Hty as [Hty|(j & b & Hj & Hje & Hyb)].
          -- eapply (Hown k a y); eauto. apply in_or_app; right; apply in_or_app; auto.
          -- assert (Hne : k <> j) by (intros ->; auto). eapply (@Apart _ _ _ _ _ Hk Hj Hne); eauto.
  Qed.
End Items.

Lemma in_nodup_true l : NoDup l -> nodupb l = true.
Proof.
  induction 1; simpl; auto. rewrite IHNoDup, andb_true_r. destruct (mem x l) eqn:E; auto. apply mem_In in E. tauto.
Qed.

Theorem generate_wf root p : generate_core root = Some p -> resolved root -> wf_program p [] = true.
Proof.
  unfold generate_core. destruct (emit_items true root g0) as [[u s]|] eqn:E; [|discriminate]. intros H; injection H as <-.
  intros [R1 [R2 R2'] [R3 R3'] [R4 R4']].
  destruct (@items_ok_le (reached root) R1 R2' R3' R4' (S (msize root)) root (Nat.lt_succ_diag_r _) true g0 u s [] [] []) as (St & _ & _); auto.
  - constructor.
  - intros m Hm; auto.
  - intros k a x Hk _ Hx. eapply R3; eauto.
  - intros k a [].
  - intros x [].
  - intros x [].
  - intros k a _ [].
  - destruct St as [_ _ _ (ds & Ed & [W1 W2] & Sc & Sh)]. simpl in Ed. unfold wf_program. cbn [p_defs]. rewrite Ed in *.
    simpl in Sc. rewrite Sc, Sh. simpl. rewrite !andb_true_r. apply in_nodup_true.
    unfold all_binders. simpl. rewrite app_nil_r. clear - W1. unfold bound, def_names in *.
    induction ds as [|d ds IH]; simpl in *; auto. inversion W1 as [|? ? Hd W1']; subst.
    apply NoDup_app_iff in W1' as (N1 & N2 & N3). specialize (IH N2). apply NoDup_app_iff in IH as (N4 & N5 & N6).
    assert (Sub : forall x, In x (map vd_name ds) -> In x (flat_map (fun d => vd_name d :: binders (vd_value d)) ds)).
    { intros x Hx. apply in_map_iff in Hx as (d' & <- & Hd'). apply in_flat_map. exists d'. simpl; auto. }
    assert (Sub2 : forall x, In x (flat_map (fun d => binders (vd_value d)) ds) -> In x (flat_map (fun d => vd_name d :: binders (vd_value d)) ds)).
    { intros x Hx. apply in_flat_map in Hx as (d' & Hd' & Hx). apply in_flat_map. exists d'. simpl; auto. }
    rewrite in_app_iff in Hd. constructor.
    + rewrite !in_app_iff. intros [Hc|[Hc|Hc]]; auto.
    + apply NoDup_app_iff. split; [auto|split].
      * apply NoDup_app_iff. split; [auto|split; [auto|]]. intros x Hx Hc. apply (N3 x Hx). auto.
      * intros x Hx Hc. apply in_app_or in Hc as [Hc|Hc]; [eapply N3; eauto|eapply N6; eauto].
Qed.
