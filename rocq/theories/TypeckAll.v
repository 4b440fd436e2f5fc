(** Accepted programs are typed: the items together. *)
From Verif Require Import GenFacts VerifyState.
From Verif Require Export TypeckAccept.
Set Implicit Arguments.

Lemma expr_defs_values : forall e y d, In (y, d) (expr_defs e) ->
  (exists vars t, d = DValue vars t) \/ d = DType 0 CtorOpaque.
Proof.
  induction e using rexpr_ind'; intros y d I; cbn [expr_defs] in I; try (destruct I; fail);
    repeat match goal with J : In _ (_ ++ _) |- _ => apply in_app_or in J as [J|J] end; eauto.
  - destruct I as [I|I]; [injection I as <- <-; left; destruct n as [[vars t]|]; cbn; eauto|].
    apply in_app_or in I as [I|I]; [|apply in_app_or in I as [I|I]; eauto]. destruct n as [[vars t]|]; cbn in I; [|tauto].
    apply in_map_iff in I as (v & E & _). injection E as <- <-. auto.
  - apply in_flat_map in I as (c & Hc & I). apply in_app_or in I as [I|I].
    + apply in_map_iff in I as (v & E & _). injection E as <- <-. eauto.
    + rewrite Forall_forall in H. eapply H; eauto.
  - destruct I as [I|I]; eauto. injection I as <- <-. eauto.
Qed.
Lemma kind_written D t : kind_ok D t = true -> written t = true.
Proof.
  induction t as [| | |s args IH|a b IHa IHb| | |a b IHa IHb] using irty_ind'; cbn; auto; intros H; apply andb_true_iff in H as [H1 H2].
  - clear H1. induction IH as [|t args Ht _ IH]; cbn in *; auto. apply andb_true_iff in H2 as [H2 H3]. rewrite Ht, IH; auto.
  - rewrite IHa, IHb; auto.
Qed.
(** Annotations inside an expression. *)
Lemma expr_defs_ann D : forall e y vars t, expr_kinds_ok D e = true -> In (y, DValue vars t) (expr_defs e) -> t <> IrInfer ->
  written t = true /\ forall v, In v vars -> In (v, DType 0 CtorOpaque) (expr_defs e).
Proof.
  assert (app2 : forall (a b : defset) vars, (forall v, In v vars -> In (v, DType 0 CtorOpaque) a) \/ (forall v, In v vars -> In (v, DType 0 CtorOpaque) b) ->
    forall v : sym, In v vars -> In (v, DType 0 CtorOpaque) (a ++ b)) by (intros a b vars [H|H] v Hv; apply in_or_app; auto).
  induction e using rexpr_ind'; intros y vars ty Q I N; cbn [expr_defs expr_kinds_ok] in *; try (destruct I; fail);
    repeat match goal with H : _ && _ = true |- _ => apply andb_true_iff in H as [] end;
    repeat match goal with J : In _ (_ ++ _) |- _ => apply in_app_or in J as [J|J] end.
  - destruct (IHe1 _ _ _ ltac:(eassumption) I N) as [W V]; split; [exact W|apply app2; auto].
  - destruct (IHe2 _ _ _ ltac:(eassumption) I N) as [W V]; split; [exact W|apply app2; auto].
  - destruct (IHe1 _ _ _ ltac:(eassumption) I N) as [W V]; split; [exact W|apply app2; auto].
  - destruct (IHe2 _ _ _ ltac:(eassumption) I N) as [W V]; split; [exact W|apply app2; auto].
  - destruct (IHe1 _ _ _ ltac:(eassumption) I N) as [W V]; split; [exact W|apply app2; auto].
  - destruct (IHe2 _ _ _ ltac:(eassumption) I N) as [W V]; split; [exact W|apply app2; auto].
  - destruct I as [I|I].
    + injection I as <- I. destruct n as [[vars' t']|]; cbn in *; [|congruence]. injection I as -> ->. split; [eapply kind_written; eauto|].
      intros v Hv. right. apply in_or_app. left. apply in_map_iff. eauto.
    + repeat match goal with J : In _ (_ ++ _) |- _ => apply in_app_or in J as [J|J] end.
      * destruct n as [[vars' t']|]; cbn in I; [|tauto]. apply in_map_iff in I as (v & E & _). discriminate.
      * destruct (IHe1 _ _ _ ltac:(eassumption) I N) as [W V]; split; auto. intros v Hv. right. apply in_or_app. right. apply in_or_app. left. auto.
      * destruct (IHe2 _ _ _ ltac:(eassumption) I N) as [W V]; split; auto. intros v Hv. right. apply in_or_app. right. apply in_or_app. right. auto.
  - destruct (IHe _ _ _ ltac:(eassumption) I N) as [W V]; split; [exact W|apply app2; auto].
  - apply in_flat_map in I as (c & Hc & I). apply in_app_or in I as [I|I]; [apply in_map_iff in I as (v & E & _); injection E as _ _ <-; congruence|].
    rewrite Forall_forall in H. match goal with J : forallb _ _ = true |- _ => rewrite forallb_forall in J; specialize (J _ Hc) end.
    destruct (H _ Hc _ _ _ ltac:(eassumption) I N) as [W V]; split; auto. intros v Hv. apply in_or_app. right. apply in_flat_map.
    exists c. split; auto. apply in_or_app. auto.
  - destruct (IHe1 _ _ _ ltac:(eassumption) I N) as [W V]; split; [exact W|apply app2; auto].
  - destruct (IHe2 _ _ _ ltac:(eassumption) I N) as [W V]; split; auto. intros v Hv. apply in_or_app. right. apply in_or_app. auto.
  - destruct (IHe3 _ _ _ ltac:(eassumption) I N) as [W V]; split; auto. intros v Hv. apply in_or_app. right. apply in_or_app. auto.
  - destruct I as [I|I]; [injection I as _ _ <-; congruence|]. destruct (IHe _ _ _ ltac:(eassumption) I N) as [W V]; split; auto.
    intros v Hv. right. auto.
  - eauto.
Qed.

Definition item_shape (r : ritem) (i : item) : Prop :=
  match r with
  | RTy s ps cases => i = ITy s ps (map (fun c => (fst c, map (option_map sty_of) (snd c))) cases)
  | RVal x (Some (vars, t)) ex (inl b) => i = IVal x vars (sty_of t) ex (inl b)
  | RVal x (Some (vars, t)) ex (inr e) => exists s, i = IVal x vars (sty_of t) ex (inr s) /\ sshape e s
  | RVal _ None _ _ => False
  end.

Lemma shape_one k Gd r p : ordinary r -> check_item k Gd r = Done (Some p) -> item_shape r (fst p).
Proof.
  intros O E. destruct r as [s ps cases|x [[vars t]|] ex [b|e]]; cbn [item_shape ordinary] in *; try contradiction.
  - unfold check_item in E. destruct (forallb _ _); [|discriminate]. injection E as <-. auto.
  - unfold check_item in E. destruct (kind_ok _ _); [|discriminate]. injection E as <-. auto.
  - unfold check_item in E. apply obind_inv in E as ([[body types] ok] & Et & E). destruct ok; [|discriminate]. injection E as <-. cbn [fst].
    exists body. split; auto. unfold type_check in Et. destruct (init_types _ _) as [u0 l]. destruct (instantiate u0 t []) as [u1 ex1].
    apply obind_inv in Et as ([[ie ok] u] & Ec & Et). apply obind_inv in Et as (body' & Eb & Et). apply obind_inv in Et as (m & Em & Et).
    apply obind_inv in Et as (ty & Ety & Et). injection Et as -> -> _. eapply annotate_shape; [eapply check_shape; eauto|eauto].
Qed.
Lemma shapes_all k Gd rs out : Forall2 (fun r p => check_item k Gd r = Done (Some p)) rs out -> Forall ordinary rs ->
  Forall2 item_shape rs (map fst out).
Proof.
  intros A. induction A as [|r p rs out E _ IH]; intros O; cbn; constructor; inversion O; subst; auto. eapply shape_one; eauto.
Qed.

(** The items of the program and its definitions. *)
Section Shapes.
  Variable rs : list ritem.
  Variable is : list item.
  Hypothesis HF : Forall2 item_shape rs is.
  Notation all := (all_defs rs).

  Definition rct (r : ritem) : list (sym * dctor) :=
    match r with RTy s ps cases => map (fun c => (fst c, mkDctor s ps (snd c))) cases | _ => [] end.
  Definition rdecl (r : ritem) : list (sym * sch) :=
    match r with
    | RTy s ps cases => map (fun c => (fst c, Poly ps (ctor_fn_ty s ps (snd c)))) cases
    | RVal x (Some (vars, t)) _ _ => [(x, Poly vars t)]
    | _ => []
    end.
  Lemma ctors_shape : ctors_of is = flat_map rct rs.
  Proof.
    unfold ctors_of. pose proof HF as F0; clear HF; induction F0 as [|r i rs' is' S _ IH]; cbn; auto. f_equal; auto.
    destruct r as [s ps cases|x [[vars t]|] ex [b|e]]; cbn in S; try contradiction; [subst i|subst i; auto|destruct S as (b & -> & _); auto].
    rewrite map_map. apply map_ext. intros [c fs]. cbn. rewrite fields_sty. auto.
  Qed.
  Lemma decls_shape : decls_of is = flat_map rdecl rs.
  Proof.
    unfold decls_of. pose proof HF as F0; clear HF; induction F0 as [|r i rs' is' S _ IH]; cbn; auto. f_equal; auto.
    destruct r as [s ps cases|x [[vars t]|] ex [b|e]]; cbn in S; try contradiction;
      [subst i|subst i; cbn; rewrite irty_sty; auto|destruct S as (b & -> & _); cbn; rewrite irty_sty; auto].
    rewrite map_map. apply map_ext. intros [c fs]. cbn. rewrite fields_sty. auto.
  Qed.
  Lemma types_shape : map fst (types_of is) = rtypes rs.
  Proof.
    unfold types_of, rtypes. rewrite map_flat_map. pose proof HF as F0; clear HF; induction F0 as [|r i rs' is' S _ IH]; cbn; auto. f_equal; auto.
    destruct r as [s ps cases|x [[vars t]|] ex [b|e]]; cbn in S; try contradiction; [subst i|subst i|destruct S as (b & -> & _)]; auto.
  Qed.
  Lemma syms_count x : cnt (syms is) x <= cnt (map fst all) x.
  Proof.
    unfold syms, all_defs. pose proof HF as F0; clear HF; induction F0 as [|r i rs' is' S _ IH]; cbn; auto. rewrite map_app, !count_occ_app. apply Nat.add_le_mono; auto.
    destruct r as [s ps cases|y [[vars t]|] ex [b|e]]; cbn in S; try contradiction; [subst i|subst i|destruct S as (b & -> & S)]; cbn [item_defs inner_defs item_syms].
    - rewrite app_nil_r. cbn [map fst count_occ]. rewrite map_app, count_occ_app, !map_map. cbn [fst].
      destruct (Nat.eq_dec s x); lia.
    - cbn [ann_def ann_vars app map fst]. destruct (Nat.eq_dec y x); cbn [count_occ]; destruct (Nat.eq_dec y x); try congruence; cbn; lia.
    - cbn [ann_def app map fst count_occ]. rewrite map_app, count_occ_app. pose proof (@binders_count x _ _ S). destruct (Nat.eq_dec y x); lia.
  Qed.
  Lemma scoped_shape : forall K B, ritems_scoped K B rs = true -> module_scoped B is = true.
  Proof.
    pose proof HF as F0; clear HF; induction F0 as [|r i rs' is' S _ IH]; intros K B R; cbn [ritems_scoped module_scoped] in *; auto. apply andb_true_iff in R as [R1 R2].
    destruct r as [s ps cases|y [[vars t]|] ex [b|e]]; cbn in S; try contradiction; [subst i|subst i|destruct S as (b & -> & S)]; cbn [andb].
    - unfold usable, own_values. rewrite map_map. eapply IH. exact R2.
    - eapply IH. exact R2.
    - rewrite (@rscoped_sscoped K _ _ _ R1 S). eapply IH. exact R2.
  Qed.
  Lemma not_import : Forall (fun i => match i with IImport _ => False | _ => True end) is.
  Proof.
    pose proof HF as F0; clear HF; induction F0 as [|r i rs' is' S _ IH]; constructor; auto.
    destruct r as [s ps cases|y [[vars t]|] ex [b|e]]; cbn in S; try contradiction; [subst i|subst i|destruct S as (b & -> & S)]; auto.
  Qed.
  Lemma is_type_spec s : is_type (types_of is) s = true <-> In s (rtypes rs).
  Proof.
    rewrite <- types_shape. unfold is_type. generalize (types_of is). intros l. induction l as [|[y b] l IH]; cbn; [split; [discriminate|tauto]|].
    destruct (Nat.eqb_spec s y) as [->|N]; [split; auto|]. rewrite IH. split; [auto|]. intros [E|E]; [congruence|auto].
  Qed.
End Shapes.

(** Kinds of definitions. *)
Lemma all_in rs y d : In (y, d) (all_defs rs) -> exists r, In r rs /\ In (y, d) (item_defs r ++ inner_defs r).
Proof. unfold all_defs. intros H. apply in_flat_map in H. auto. Qed.
Lemma defs_all rs : incl (defs_of rs) (all_defs rs).
Proof. intros p H. apply in_flat_map in H as (r & Hr & H). apply in_flat_map. exists r. split; auto. apply in_or_app. auto. Qed.
Lemma item_all rs r : In r rs -> incl (item_defs r ++ inner_defs r) (all_defs rs).
Proof. intros Hr p H. apply in_flat_map. eauto. Qed.
Lemma item_in rs r : In r rs -> incl (item_defs r) (defs_of rs).
Proof. intros Hr p H. apply in_flat_map. eauto. Qed.
Lemma inner_values r y d : In (y, d) (inner_defs r) -> (exists vars t, d = DValue vars t) \/ d = DType 0 CtorOpaque.
Proof. destruct r as [s ps cases|x ann ex [b|e]]; cbn; try tauto. apply expr_defs_values. Qed.
Lemma all_ctor rs y d fn : In (y, DCtor d fn) (all_defs rs) <-> exists s ps cases fs, In (RTy s ps cases) rs /\ In (y, fs) cases /\
  d = mkDctor s ps fs /\ fn = ctor_fn_ty s ps fs.
Proof.
  split.
  - intros H. apply all_in in H as (r & Hr & H). apply in_app_or in H as [H|H].
    + destruct r as [s ps cases|x ann ex b]; cbn in H.
      * destruct H as [H|H]; [discriminate|]. apply in_app_or in H as [H|H]; apply in_map_iff in H as (c & E & Hc); [discriminate|].
        injection E as <- <- <-. exists s, ps, cases, (snd c). repeat split; auto. destruct c; auto.
      * destruct H as [H|H]; [destruct ann as [[vars t]|]; discriminate|]. destruct ann as [[vars t]|]; cbn in H; [|tauto].
        apply in_map_iff in H as (v & E & _). discriminate.
    + apply inner_values in H as [(vars & t & E)|E]; discriminate.
  - intros (s & ps & cases & fs & Hr & Hc & -> & ->). apply defs_all, (@item_in rs _ Hr). cbn. right. apply in_or_app. right. apply in_map_iff.
    exists (y, fs). auto.
Qed.
Lemma all_type rs y n cs : In (y, DType n (CtorList cs)) (all_defs rs) <-> exists ps cases, In (RTy y ps cases) rs /\ n = length ps /\ cs = map fst cases.
Proof.
  split.
  - intros H. apply all_in in H as (r & Hr & H). apply in_app_or in H as [H|H].
    + destruct r as [s ps cases|x ann ex b]; cbn in H.
      * destruct H as [H|H]; [injection H as -> <- <-; eauto|]. apply in_app_or in H as [H|H]; apply in_map_iff in H as (c & E & Hc); discriminate.
      * destruct H as [H|H]; [destruct ann as [[vars t]|]; discriminate|]. destruct ann as [[vars t]|]; cbn in H; [|tauto].
        apply in_map_iff in H as (v & E & _). discriminate.
    + apply inner_values in H as [(vars & t & E)|E]; discriminate.
  - intros (ps & cases & Hr & -> & ->). apply defs_all, (@item_in rs _ Hr). cbn. auto.
Qed.
Lemma rtypes_in rs s : In s (rtypes rs) <-> exists ps cases, In (RTy s ps cases) rs.
Proof.
  unfold rtypes. rewrite in_flat_map. split.
  - intros (r & Hr & H). destruct r as [s' ps cases|]; cbn in H; [|tauto]. destruct H as [<-|[]]. eauto.
  - intros (ps & cases & H). exists (RTy s ps cases). cbn. auto.
Qed.

Section Program.
  Variable k : nat.
  Variable rs : list ritem.
  Variable out : list (item * list (sym * irty)).
  Hypothesis HA : Forall2 (fun r p => check_item k (defs_of rs) r = Done (Some p)) rs out.
  Hypothesis HR : resolved_items rs.
  Hypothesis HO : Forall ordinary rs.
  Notation is := (map fst out).
  Notation T := (is_type (types_of is)).
  Notation C := (fun c => assoc c (ctors_of is)).
  Notation all := (all_defs rs).
  Notation shapes := (@shapes_all k (defs_of rs) rs out HA HO).

  Lemma item_out r : In r rs -> exists p, In p out /\ check_item k (defs_of rs) r = Done (Some p).
  Proof.
    generalize HA. generalize (defs_of rs). clear. intros Gd F. induction F as [|r' p rs out E _ IH]; intros Hr; [destruct Hr|].
    destruct Hr as [<-|Hr]; [exists p; cbn; auto|]. destruct (IH Hr) as (q & Hq & E'). exists q. cbn. auto.
  Qed.
  Definition defs_for (r : ritem) : defset := (item_defs r ++ inner_defs r) ++ defs_of rs.
  Lemma for_all r : In r rs -> incl (defs_for r) all.
  Proof. intros Hr. apply incl_app; [apply item_all; auto|apply defs_all]. Qed.
  Lemma assoc_for r y d : In r rs -> (assoc y (defs_for r) = Some d <-> In (y, d) (defs_for r)).
  Proof.
    intros Hr. split; [apply assoc_in|]. intros H. destruct (@in_assoc _ _ _ _ H) as [d' E]. rewrite E. f_equal.
    apply (@nodup_fun _ y d' d all (ri_distinct HR)); apply for_all with (r := r); auto. apply assoc_in. auto.
  Qed.
  Lemma outer_for r y d : In r rs -> In (y, d) (defs_of rs) -> assoc y (defs_for r) = Some d.
  Proof. intros Hr H. apply assoc_for; auto. apply in_or_app. auto. Qed.

  Lemma value_kinds x ann ex e : In (RVal x ann ex (inr e)) rs -> expr_kinds_ok (defs_for (RVal x ann ex (inr e))) e = true.
  Proof.
    intros Hr. destruct (@item_out _ Hr) as (p & _ & E). cbn [check_item] in E. apply obind_inv in E as ([[body types] ok] & Et & E).
    unfold type_check in Et. destruct (init_types _ _) as [u0 l]. destruct (instantiate _ _ _) as [u1 ex1].
    apply obind_inv in Et as ([[ie ok'] u] & Ec & Et). apply obind_inv in Et as (body' & Eb & Et). apply obind_inv in Et as (m & Em & Et).
    apply obind_inv in Et as (ty & Ety & Et). injection Et as _ _ Et. destruct ok; [|discriminate]. apply andb_true_iff in Et as [_ Et]. exact Et.
  Qed.
  Lemma value_written x vars t ex b : In (RVal x (Some (vars, t)) ex b) rs -> written t = true.
  Proof.
    intros Hr. destruct (@item_out _ Hr) as (p & _ & E). destruct b as [b|e]; cbn [check_item] in E.
    - match type of E with context [kind_ok ?D ?t] => destruct (kind_ok D t) eqn:K; [|discriminate] end. eapply kind_written; eauto.
    - apply obind_inv in E as ([[body types] ok] & Et & E).
      unfold type_check in Et. destruct (init_types _ _) as [u0 l]. destruct (instantiate _ _ _) as [u1 ex1].
      apply obind_inv in Et as ([[ie ok'] u] & Ec & Et). apply obind_inv in Et as (body' & Eb & Et). apply obind_inv in Et as (m & Em & Et).
      apply obind_inv in Et as (ty & Ety & Et). injection Et as _ _ Et. destruct ok; [|discriminate]. apply andb_true_iff in Et as [Et _].
      apply andb_true_iff in Et as [_ Et]. eapply kind_written; eauto.
  Qed.
  Lemma field_written s ps cases c fs t : In (RTy s ps cases) rs -> In (c, fs) cases -> In (Some t) fs -> written t = true.
  Proof.
    intros Hr Hc Hf. destruct (@item_out _ Hr) as (p & _ & E). cbn [check_item] in E. match type of E with context [forallb ?f cases] => destruct (forallb f cases) eqn:K; [|discriminate] end.
    rewrite forallb_forall in K. specialize (K _ Hc). rewrite forallb_forall in K. specialize (K _ Hf). exact (@kind_written _ _ K).
  Qed.

  Lemma type_decl s : T s = true <-> exists ps cases, In (RTy s ps cases) rs.
  Proof. rewrite (@is_type_spec _ _ shapes). apply rtypes_in. Qed.
  Lemma opaque_apart v : In (v, DType 0 CtorOpaque) all -> T v = false.
  Proof.
    intros H. destruct (T v) eqn:E; auto. apply type_decl in E as (ps & cases & E).
    assert (K : In (v, DType (length ps) (CtorList (map fst cases))) all) by (apply all_type; eauto).
    pose proof (@nodup_fun _ _ _ _ _ (ri_distinct HR) H K). discriminate.
  Qed.
  Lemma ctor_out c d : assoc c (ctors_of is) = Some d <-> exists fn, In (c, DCtor d fn) all.
  Proof.
    assert (K : forall d, In (c, d) (ctors_of is) <-> exists fn, In (c, DCtor d fn) all).
    { intros d'. rewrite (@ctors_shape _ _ shapes), in_flat_map. split.
      - intros (r & Hr & H). destruct r as [s ps cases|]; cbn in H; [|tauto]. apply in_map_iff in H as ([c' fs] & E & Hc). injection E as <- <-.
        exists (ctor_fn_ty s ps fs). apply all_ctor. exists s, ps, cases, fs. auto.
      - intros (fn & H). apply all_ctor in H as (s & ps & cases & fs & Hr & Hc & -> & ->). exists (RTy s ps cases). split; auto. cbn.
        apply in_map_iff. exists (c, fs). auto. }
    split; [intros H; apply K, assoc_in; auto|]. intros H. assert (H' := H). apply K in H. destruct (@in_assoc _ _ _ _ H) as [d' E]. rewrite E. f_equal.
    apply assoc_in in E. apply K in E as [fn' E]. destruct H' as [fn H']. pose proof (@nodup_fun _ _ _ _ _ (ri_distinct HR) H' E). congruence.
  Qed.
  Lemma ctor_def_for r c : In r rs -> ctor_def (defs_for r) c = assoc c (ctors_of is).
  Proof.
    intros Hr. unfold ctor_def. destruct (assoc c (ctors_of is)) as [d|] eqn:E.
    - apply ctor_out in E as [fn E]. assert (H : In (c, DCtor d fn) (defs_of rs)).
      { apply all_ctor in E as (s & ps & cases & fs & Hs & Hc & -> & ->). apply (@item_in rs _ Hs). cbn. right. apply in_or_app. right.
        apply in_map_iff. exists (c, fs). auto. }
      rewrite (@outer_for _ _ _ Hr H). auto.
    - destruct (assoc c (defs_for r)) as [[| |]|] eqn:E'; auto. apply assoc_in, (@for_all _ Hr) in E'. assert (Z : exists fn, In (c, DCtor c0 fn) all) by eauto.
      apply ctor_out in Z. congruence.
  Qed.
  Lemma match_defs_for r s cs : In r rs -> match_defs (defs_for r) s = Some (CtorList cs) ->
    T s = true /\ forall c d, assoc c (ctors_of is) = Some d -> dc_type d = s -> In c cs.
  Proof.
    intros Hr. unfold match_defs. destruct (assoc s (defs_for r)) as [[| |n cs']|] eqn:E; try discriminate. intros H. injection H as ->.
    apply assoc_in, (@for_all _ Hr) in E. assert (E' := E). apply all_type in E' as (ps & cases & Hs & -> & ->). split; [apply type_decl; eauto|].
    intros c d Hc Hd. apply ctor_out in Hc as [fn Hc]. apply all_ctor in Hc as (s' & ps' & cases' & fs & Hs' & Hc & -> & ->). cbn in Hd. subst s'.
    assert (K : In (s, DType (length ps') (CtorList (map fst cases'))) all) by (apply all_type; eauto).
    pose proof (@nodup_fun _ _ _ _ _ (ri_distinct HR) E K) as Z. injection Z as _ ->. apply in_map_iff. exists (c, fs). auto.
  Qed.
  Lemma fn_written s ps fs : (forall t, In (Some t) fs -> written t = true) -> written (ctor_fn_ty s ps fs) = true.
  Proof.
    intros H. assert (W : written (IrNamed s (map (fun p => IrNamed p []) ps)) = true) by (cbn; induction ps; cbn; auto).
    unfold ctor_fn_ty. induction fs as [|f fs IH]; cbn [fold_right]; auto. cbn [written]. rewrite IH by (intros; apply H; cbn; auto).
    destruct f; [rewrite H by (cbn; auto)|rewrite W]; auto.
  Qed.
  (** Declared types and their variables. *)
  Lemma poly_all y d : In (y, d) all -> match d with
    | DValue vars t => t <> IrInfer -> written t = true /\ apart T vars
    | DCtor c fn => written fn = true /\ apart T (dc_vars c)
    | DType _ _ => True
    end.
  Proof.
    intros H. destruct d as [vars t|c fn|]; auto.
    - intros N. destruct (@all_in _ _ _ H) as (r & Hr & H'). apply in_app_or in H' as [H'|H'].
      + destruct r as [s ps cases|x ann ex b]; cbn in H'.
        * destruct H' as [H'|H']; [discriminate|]. apply in_app_or in H' as [H'|H']; apply in_map_iff in H' as (? & E & _); discriminate.
        * destruct H' as [H'|H'].
          -- injection H' as -> H'. destruct ann as [[vars' t']|]; cbn in H'; [|injection H' as _ <-; congruence]. injection H' as -> ->.
             split; [eapply value_written; eauto|]. apply Forall_forall. intros v Hv. apply opaque_apart, defs_all, (@item_in rs _ Hr). cbn. right.
             apply in_map_iff. eauto.
          -- destruct ann as [[vars' t']|]; cbn in H'; [|tauto]. apply in_map_iff in H' as (? & E & _). discriminate.
      + destruct r as [s ps cases|x ann ex [b|e]]; cbn in H'; try tauto.
        destruct (@expr_defs_ann _ _ _ _ _ (@value_kinds _ _ _ _ Hr) H' N) as [W V]. split; auto. apply Forall_forall. intros v Hv.
        apply opaque_apart, (@item_all _ _ Hr). apply in_or_app. right. apply V. auto.
    - apply all_ctor in H as (s & ps & cases & fs & Hr & Hc & -> & ->). split.
      + apply fn_written. intros t Ht. eapply field_written; eauto.
      + cbn. apply Forall_forall. intros v Hv. apply opaque_apart, defs_all, (@item_in rs _ Hr). cbn. right. apply in_or_app. left. apply in_map_iff. eauto.
  Qed.

  (** ** One value *)
  Lemma omap_spec A B (f : A -> Unify.out B) l : forall l', omap f l = Done l' -> Forall2 (fun a b => f a = Done b) l l'.
  Proof.
    induction l as [|a l IH]; intros l' E; cbn in E; [injection E as <-; constructor|].
    apply obind_inv in E as (b & Eb & E). apply obind_inv in E as (bs & Es & E). injection E as <-. constructor; auto.
  Qed.
  Lemma res_list u (l : list (sym * idx)) : good u -> (forall x i, In (x, i) l -> i < length (slots u)) ->
    exists tl, Forall2 (fun p q => fst p = fst q /\ resolves u (snd p) (snd q)) l tl.
  Proof.
    intros G. induction l as [|[x i] l IH]; intros H; [exists []; constructor|]. destruct IH as [tl F]; [intros; eapply H; cbn; eauto|].
    destruct (good_res G (H x i ltac:(cbn; auto))) as [t R]. exists ((x, t) :: tl). constructor; auto.
  Qed.
  Lemma types_assoc (u : uni) (l : list (sym * idx)) (tl : list (sym * term)) (types : list (sym * irty)) x t :
    Forall2 (fun p q => fst p = fst q /\ resolves u (snd p) (snd q)) l tl ->
    Forall2 (fun p q => (t <~ final k u (snd p) ;; Done (fst p, t)) = Done q) l types ->
    assoc x tl = Some t -> exists ty, assoc x types = Some ty /\ ir_of t = Some ty.
  Proof.
    intros F. revert types. induction F as [|[a i] [b tm] l tl [E R] _ IH]; intros types F2; inversion F2 as [|? q ? types' Eq F3]; subst; cbn; [discriminate|].
    cbn in E. subst b. apply obind_inv in Eq as (ty & Et & Eq). injection Eq as <-. cbn. destruct (Nat.eqb a x); [|apply IH; auto].
    intros H. injection H as ->. exists ty. split; auto. eapply to_ir_inv; eauto.
  Qed.

  Section Value.
    Variable x : sym.
    Variable vars : list sym.
    Variable ty : irty.
    Variable ex : option bytes.
    Variable e : rexpr.
    Notation r := (RVal x (Some (vars, ty)) ex (inr e)).
    Notation D := (defs_for r).
    Hypothesis Hr : In r rs.
    Variable B : list sym.
    Hypothesis HB : incl B (flat_map rvalues rs).
    Hypothesis HS : rscoped (rctors rs) B e = true.
    Variable l : list (sym * idx).
    Variable u0 : uni.
    Hypothesis Hi : init_types D (expr_refs e ++ map fst (item_defs r ++ inner_defs r)) = (u0, l).
    Notation S_ := (symbol_type D l).

    Lemma local_for y d : In (y, d) (expr_defs e) -> assoc y D = Some d.
    Proof. intros H. apply assoc_for; auto. apply in_or_app. left. apply in_or_app. right. auto. Qed.
    Lemma local_known y vs t : In (y, DValue vs t) (expr_defs e) -> S_ y <> None.
    Proof.
      intros H. unfold symbol_type. rewrite (local_for _ _ H). destruct t; try discriminate.
      destruct (init_types_ok _ _ Hi) as [_ K]. specialize (K y). rewrite (local_for _ _ H) in K.
      assert (K' : assoc y l <> None). { apply K; auto. apply in_or_app. right. apply in_map_iff. exists (y, DValue vs IrInfer). split; auto. apply in_or_app. right. auto. }
      destruct (assoc y l); [discriminate|congruence].
    Qed.
    Lemma local_infer y : In (y, DValue [] IrInfer) (expr_defs e) -> exists i, S_ y = Some (NInfer i).
    Proof.
      intros H. pose proof (local_known _ _ _ H) as K. unfold symbol_type in *. rewrite (local_for _ _ H) in *. destruct (assoc y l); eauto. congruence.
    Qed.
    Lemma global_known y : In y (flat_map rvalues rs) -> S_ y <> None.
    Proof.
      intros H. apply in_flat_map in H as (q & Hq & H). pose proof HO as O. rewrite Forall_forall in O. specialize (O _ Hq). unfold symbol_type.
      destruct q as [s ps cases|z ann ex' b]; cbn in H.
      - apply in_map_iff in H as ([c fs] & <- & Hc). cbn [fst].
        rewrite (@outer_for r c (DCtor (mkDctor s ps fs) (ctor_fn_ty s ps fs)) Hr); [discriminate|].
        apply (@item_in rs _ Hq). cbn. right. apply in_or_app. right. apply in_map_iff. exists (c, fs). auto.
      - destruct H as [<-|[]]. destruct ann as [[vs t]|]; [|destruct O].
        rewrite (@outer_for r z (DValue vs t) Hr) by (apply (@item_in rs _ Hq); cbn; auto).
        pose proof (value_written _ _ _ _ _ Hq) as W. destruct t; discriminate.
    Qed.
    Lemma value_rok : TypeckSound.rok S_ (ctor_def D) e.
    Proof.
      apply (@rscoped_rok S_ (ctor_def D) (expr_defs e) (rctors rs)) with (B := B); auto.
      - apply local_known.
      - apply local_infer.
      - intros c Hc. rewrite (@ctor_def_for _ _ Hr). unfold rctors in Hc. apply in_flat_map in Hc as (q & Hq & Hc). destruct q as [s ps cases|]; cbn in Hc; [|tauto].
        apply in_map_iff in Hc as ([c' fs] & <- & Hc). cbn [fst]. assert (K : exists fn, In (c', DCtor (mkDctor s ps fs) fn) all).
        { exists (ctor_fn_ty s ps fs). apply all_ctor. exists s, ps, cases, fs. auto. }
        apply ctor_out in K. congruence.
      - apply incl_refl.
      - intros y Hy. apply global_known. auto.
    Qed.
    Lemma known_written y t vs : S_ y = Some (NInst t vs) -> written t = true /\ apart T vs.
    Proof.
      unfold symbol_type. destruct (assoc y D) as [d|] eqn:E; [|discriminate]. apply assoc_in, (@for_all _ Hr) in E. pose proof (poly_all _ _ E) as P.
      destruct d as [vs' t'|c fn|n cs]; try discriminate.
      - destruct t'; try (destruct (assoc y l); discriminate); intros H; injection H as <- <-; apply P; discriminate.
      - intros H. injection H as <- <-. auto.
    Qed.
    Lemma ctor_fields_written c d : ctor_def D c = Some d -> Forall (fun f => match f with Some t => written t = true | None => True end) (dc_fields d).
    Proof.
      rewrite (@ctor_def_for _ _ Hr). intros H. apply ctor_out in H as [fn H]. apply all_ctor in H as (s & ps & cases & fs & Hs & Hc & -> & _). cbn.
      apply Forall_forall. intros [t|] Ht; auto. eapply field_written; eauto.
    Qed.

    Variable u1 u : uni.
    Variable expected : idx.
    Variable ie : iexpr.
    Variable body : sexpr.
    Variable types : list (sym * irty).
    Hypothesis Hin : instantiate u0 ty [] = (u1, expected).
    Hypothesis Hc : check S_ (ctor_def D) k e expected u1 = Done (ie, true, u).
    Hypothesis Ha : annotate D S_ k u ie = Done body.
    Hypothesis Hm : matches_ok D k u ie = Done true.
    Hypothesis Ht : omap (fun p => t <~ final k u (snd p) ;; Done (fst p, t)) l = Done types.

    Lemma value_typed : exists tl, Forall2 (fun p q => fst p = fst q /\ resolves u (snd p) (snd q)) l tl /\
      has (ctx D l tl) C T body (scheme [] ty).
    Proof.
      destruct (init_types_ok _ _ Hi) as [[G0 I0] _].
      assert (W : written ty = true) by (eapply value_written; eauto).
      assert (Ei : cinst ty [] u0 = Done (expected, true, u1)) by (unfold cinst; rewrite Hin; auto).
      destruct (@inst_good u0 ty [] [] expected u1 G0 W ltac:(constructor) Ei) as (G1 & X1 & L1 & R1).
      assert (HS1 : forall y i, S_ y = Some (NInfer i) -> i < length (slots u0)).
      { intros y i H. apply infer_in, assoc_in in H. apply I0 in H. tauto. }
      destruct (@check_sound S_ (ctor_def D) k (length (slots u0)) HS1 (fun y t vs H => proj1 (known_written _ H)) ctor_fields_written e
        expected u1 ie u G1 (proj1 X1) L1 value_rok Hc) as (G2 & L2 & (t & R2 & Wt)).
      destruct (@res_list u l G2) as [tl F].
      { intros y i H. apply I0 in H. destruct X1 as [X1 _]. destruct L2 as [L2 _]. lia. }
      exists tl. split; auto. destruct L2 as [_ (f & Rf)]. apply Rf in R1. rewrite subst_scheme in R1. cbn in R1.
      rewrite (resolves_fun R1 R2). eapply (@annot_has D (expr_defs e) l k u tl C T); eauto.
      - intros y d. apply local_for.
      - intros c. apply ctor_def_for. auto.
      - intros s cs H. eapply match_defs_for; eauto.
      - eapply check_shape; eauto.
      - apply incl_refl.
      - apply value_kinds. auto.
    Qed.
    Lemma value_context tl : context_ok is (ctx D l tl).
    Proof.
      split.
      - intros y s H. apply assoc_in in H. rewrite (@decls_shape _ _ shapes) in H. apply in_flat_map in H as (q & Hq & H).
        unfold ctx, symbol_type. destruct q as [s0 ps cases|z [[vs t]|] ex' b]; cbn in H; [| |tauto].
        + apply in_map_iff in H as ([c fs] & E & Hf). injection E as <- <-. cbn [fst snd].
          rewrite (@outer_for r c (DCtor (mkDctor s0 ps fs) (ctor_fn_ty s0 ps fs)) Hr); [reflexivity|].
          apply (@item_in rs _ Hq). cbn. right. apply in_or_app. right. apply in_map_iff. exists (c, fs). auto.
        + destruct H as [E|[]]. injection E as <- <-.
          rewrite (@outer_for r z (DValue vs t) Hr) by (apply (@item_in rs _ Hq); cbn; auto).
          pose proof (value_written _ _ _ _ _ Hq) as W. destruct t; try discriminate; reflexivity.
      - intros y vs t H. unfold ctx in H. destruct (S_ y) as [[i|t' vs']|] eqn:E; [destruct (assoc y tl); discriminate| |discriminate].
        injection H as <- <-. eapply known_written; eauto.
    Qed.
    (** The type variables of local definitions. *)
    Lemma value_keeps tl : Forall2 (fun p q => fst p = fst q /\ resolves u (snd p) (snd q)) l tl ->
      forall e' s t L, incl (expr_defs e') (expr_defs e) -> (forall y, In y L -> exists vs t, In (y, DValue vs t) (expr_defs e)) ->
      sshape e' s -> has (ctx D l tl) C T s t -> keeps (expr_defs e) types L e' -> no_escape (ctx D l tl) L s.
    Proof.
      intros F.
      assert (M : forall y vs ty' s v, In (y, DValue vs ty') (expr_defs e) -> ctx D l tl y = Some s -> free_names s v -> mentions (expr_defs e) types y v).
      { intros y vs ty' s v Iy Gy Fv. unfold ctx in Gy. unfold mentions.
        assert (Ey : assoc y (expr_defs e) = Some (DValue vs ty')).
        { destruct (@in_assoc _ _ _ _ Iy) as [d E]. rewrite E. pose proof (local_for _ _ (assoc_in _ _ E)) as E1. pose proof (local_for _ _ Iy). congruence. }
        rewrite Ey. pose proof (local_for _ _ Iy) as Ed. unfold symbol_type in Gy. rewrite Ed in Gy.
        destruct ty'; try (injection Gy as <-; exact Fv).
        destruct (assoc y l); [|discriminate]. destruct (assoc y tl) as [tm|] eqn:Et; [|discriminate]. injection Gy as <-. cbn in Fv.
        destruct (@types_assoc u l tl types y tm F (omap_spec _ _ Ht) Et) as (z & Ez & Ir). exists z. split; auto. eapply ir_names; eauto. }
      induction e' using rexpr_ind'; intros se tt L I HL S Hh K; destruct se; cbn [sshape] in S; try contradiction; cbn [has keeps no_escape expr_defs] in *; auto;
        repeat match goal with J : incl (_ ++ _) _ |- _ => apply incl_app_inv in J as [? ?] | J : incl (_ :: _) _ |- _ => apply incl_cons_inv in J as [? ?] end.
      - destruct S, K, Hh as (ta & ? & ?). split; eauto.
      - destruct S as (? & ? & ?), K, Hh as (? & ? & ?). split; eauto.
      - destruct S, K, Hh as (ta & ? & ?). split; eauto.
      - destruct S as (-> & S1 & S2), K as (K0 & K1 & K2), Hh as (s' & Gs & Es & Q1 & Q2).
        assert (Iy : exists vs t, In (s0, DValue vs t) (expr_defs e)) by (destruct n as [[vs t]|]; cbn in *; eauto).
        split; [|split; [eauto|]].
        + intros v y sy Hv Hy Gy Fv. destruct (HL _ Hy) as (vs & t & Iy'). apply (K0 v y); auto; [|eapply M; eauto].
          rewrite Es in Hv. unfold ctx, symbol_type in Gs. match goal with J : In (s0, ann_def n) _ |- _ => rewrite (local_for _ _ J) in Gs end.
          destruct n as [[vs' t']|]; cbn [ann_def] in Gs.
          * destruct t'; try (injection Gs as <-; exact Hv). destruct (assoc s0 l); [|discriminate]. destruct (assoc s0 tl); [|discriminate]. injection Gs as <-. destruct Hv.
          * destruct (assoc s0 l); [|discriminate]. destruct (assoc s0 tl); [|discriminate]. injection Gs as <-. destruct Hv.
        + eapply IHe'2; eauto. intros y [<-|Hy]; auto.
      - destruct S as [S1 S2], K as [K1 K2], Hh as (s' & ts & rec & _ & Hd & _ & _ & Hcs). split; [eauto|].
        match goal with J : incl (flat_map _ _) _ |- _ => rename J into J2 end.
        clear S1 K1 Hd. revert cases S2 Hcs. induction H as [|[p b] cs Hb _ IHc]; intros [|[p' b'] cases] S2 Hcs; try contradiction; auto.
        destruct S2 as [[<- S2] S3], Hcs as [[_ Hb'] Hcs], K2 as [K2 K3]. cbn [flat_map fst snd] in *.
        apply incl_app_inv in J2 as [J2 J3]. apply incl_app_inv in J2 as [J1 J2]. split; [|apply IHc; auto].
        eapply Hb; eauto. intros y Hy. apply in_app_or in Hy as [Hy|Hy]; auto. exists [], IrInfer. apply J1. apply in_map_iff. eauto.
      - destruct S as (? & ? & ?), K as (? & ? & ?), Hh as (? & ? & ?). repeat split; eauto.
      - destruct S as (-> & -> & S), Hh as (a & rt & _ & _ & _ & Hb). eapply IHe'; eauto. intros y [<-|Hy]; eauto.
      - destruct S as (-> & -> & S), Hh as (a & rt & _ & _ & Hb). eapply IHe'; eauto. intros y [<-|Hy]; eauto.
      - eauto.
    Qed.
  End Value.

  (** ** The program *)
  Lemma rscoped_more K K' : incl K K' -> forall e B, rscoped K B e = true -> rscoped K' B e = true.
  Proof.
    intros I. induction e using rexpr_ind'; intros B R; cbn [rscoped] in *;
      repeat match goal with H : _ && _ = true |- _ => apply andb_true_iff in H as [] end; auto; try (apply andb_true_iff; auto).
    - split; auto. match goal with Q : forallb _ _ = true |- _ => revert Q end. induction H as [|[p b] cs Hb _ IH]; intros Q; cbn [forallb] in *; auto.
      apply andb_true_iff in Q as [Q1 Q2]. apply andb_true_iff in Q1 as [Q0 Q1]. rewrite IH; auto. cbn [fst snd] in *. rewrite Hb; auto.
      rewrite andb_true_r. apply andb_true_iff. split; auto. apply mem_In. apply I. apply mem_In. auto.
    - split; auto. apply andb_true_iff; auto.
  Qed.
  Lemma scope_of : forall l K B x ann ex e, ritems_scoped K B l = true -> In (RVal x ann ex (inr e)) l ->
    exists B', incl B' (flat_map rvalues l ++ B) /\ rscoped (rctors l ++ K) B' e = true.
  Proof.
    induction l as [|r l IH]; intros K B x ann ex e H Hr; cbn [ritems_scoped] in H; [destruct Hr|]. apply andb_true_iff in H as [H1 H2].
    destruct Hr as [->|Hr].
    - exists B. split; [apply incl_appr, incl_refl|]. apply rscoped_more with (K := K); auto. apply incl_appr, incl_refl.
    - destruct (IH _ _ _ _ _ _ H2 Hr) as (B' & I & R). exists B'. split.
      + intros y Hy. apply I in Hy. cbn. rewrite !in_app_iff in *. tauto.
      + revert R. apply rscoped_more. intros y Hy. unfold rctors in *. cbn [flat_map] in *. rewrite !in_app_iff in *. cbn in Hy. tauto.
  Qed.
  (** Every value is typed, whether or not its type variables stay where they belong. *)
  Lemma item_has r p : In r rs -> check_item k (defs_of rs) r = Done (Some p) ->
    match fst p with
    | IVal x vars t _ (inr s) => exists G, context_ok is G /\ has G C T s (scheme [] (irty_of t)) /\ (item_keeps r p -> no_escape G [] s)
    | _ => True
    end.
  Proof.
    intros Hr E. pose proof HO as O. rewrite Forall_forall in O. specialize (O _ Hr).
    pose proof (@shape_one _ _ _ _ O E) as Sh.
    destruct r as [s ps cases|x [[vars t]|] ex [b|e]]; cbn in O, Sh; try contradiction; [rewrite Sh; auto|rewrite Sh; auto|].
    destruct Sh as (body & Ep & Sh). rewrite Ep. rewrite irty_sty.
    destruct (@scope_of _ _ _ _ _ _ _ (ri_scoped HR) Hr) as (B & IB & HS). rewrite app_nil_r in IB, HS.
    cbn [check_item] in E. apply obind_inv in E as ([[body' types] ok] & Et & E). destruct ok; [|discriminate].
    injection E as E. rewrite <- E in Ep. cbn in Ep. injection Ep as ->. subst p. unfold type_check in Et.
    change ((x, ann_def (Some (vars, t))) :: ann_vars (Some (vars, t)) ++ expr_defs e) with
      (item_defs (RVal x (Some (vars, t)) ex (inr e)) ++ inner_defs (RVal x (Some (vars, t)) ex (inr e))) in Et.
    fold (defs_for (RVal x (Some (vars, t)) ex (inr e))) in Et.
    destruct (init_types _ _) as [u0 l] eqn:Hi. destruct (instantiate u0 t []) as [u1 exi] eqn:Hin.
    apply obind_inv in Et as ([[ie ok] u] & Ec & Et). apply obind_inv in Et as (body' & Eb & Et). apply obind_inv in Et as (m & Em & Et).
    apply obind_inv in Et as (ty & Ety & Et). injection Et as -> -> Ok. apply andb_true_iff in Ok as [Ok _]. apply andb_true_iff in Ok as [Ok _].
    apply andb_true_iff in Ok as [-> ->].
    destruct (@value_typed x vars t ex e Hr B IB HS l u0 Hi u1 u exi ie body Hin Ec Eb Em) as (tl & F & Hh).
    exists (ctx (defs_for (RVal x (Some (vars, t)) ex (inr e))) l tl). split; [apply value_context; auto|]. split; auto.
    intros Kp. eapply value_keeps; eauto; [apply incl_refl|intros y []].
  Qed.
  Lemma item_closed x vars t ex b : In (RVal x (Some (vars, t)) ex b) rs -> closed T vars t /\ apart T vars.
  Proof.
    intros Hr. pose proof (@value_written _ _ _ _ _ Hr) as W. split; [split; auto|].
    - pose proof (ri_types HR) as F. rewrite Forall_forall in F. specialize (F _ Hr). cbn in F. intros s Hs. apply F in Hs. apply in_app_or in Hs as [Hs|Hs]; auto.
      right. apply type_decl. apply rtypes_in. auto.
    - apply Forall_forall. intros v Hv. apply opaque_apart, defs_all, (@item_in rs _ Hr). cbn. right. apply in_map_iff. eauto.
  Qed.
  Lemma item_ok r p : In r rs -> check_item k (defs_of rs) r = Done (Some p) -> item_keeps r p -> item_typed is (fst p).
  Proof.
    intros Hr E Kp. pose proof HO as O. rewrite Forall_forall in O. specialize (O _ Hr).
    pose proof (@shape_one _ _ _ _ O E) as Sh. pose proof (@item_has _ _ Hr E) as Hh.
    destruct r as [s ps cases|x [[vars t]|] ex [b|e]]; cbn in O, Sh; try contradiction.
    - rewrite Sh. cbn. split; [|split].
      + assert (N : NoDup (map fst (item_defs (RTy s ps cases)))).
        { pose proof (ri_distinct HR) as N. apply in_split in Hr as (l1 & l2 & ->). unfold all_defs in N. rewrite flat_map_app in N. cbn [flat_map] in N.
          rewrite !map_app in N. apply NoDup_app_iff in N as (_ & N & _). apply NoDup_app_iff in N as (N & _). apply NoDup_app_iff in N as (N & _). auto. }
        cbn in N. inversion N as [|? ? _ N']. rewrite map_app, map_map in N'. apply NoDup_app_iff in N' as (N' & _). cbn in N'. rewrite map_id in N'. auto.
      + apply Forall_forall. intros v Hv. apply opaque_apart, defs_all, (@item_in rs _ Hr). cbn. right. apply in_or_app. left. apply in_map_iff. eauto.
      + intros c fs Hc. apply in_map_iff in Hc as ([c' fs'] & Ec & Hc). injection Ec as <- <-. rewrite map_length. split; [eapply O; eauto|].
        apply Forall_forall. intros f Hf. apply in_map_iff in Hf as ([t|] & <- & Hf); cbn; auto. rewrite irty_sty. split; [eapply field_written; eauto|].
        pose proof (ri_types HR) as F. rewrite Forall_forall in F. specialize (F _ Hr). cbn in F. intros z Hz. apply (F _ _ _ Hc Hf) in Hz.
        apply in_app_or in Hz as [Hz|Hz]; auto. right. apply type_decl. apply rtypes_in. auto.
    - rewrite Sh. cbn. rewrite irty_sty. destruct (@item_closed _ _ _ _ _ Hr). auto.
    - destruct Sh as (body & Ep & Sh). rewrite Ep in Hh |- *. cbn. rewrite irty_sty in Hh |- *. destruct (@item_closed _ _ _ _ _ Hr). split; auto. split; auto.
      destruct Hh as (G & H1 & H2 & H3). exists G. auto.
  Qed.
  Theorem accepted_typed : Forall2 item_keeps rs out -> program_typed is.
  Proof.
    intros K. constructor.
    - assert (Q : forall l o, incl l rs -> Forall2 (fun r p => check_item k (defs_of rs) r = Done (Some p)) l o -> Forall2 item_keeps l o ->
        Forall (item_typed is) (map fst o)).
      { intros l o I F. revert I. induction F as [|r p l o E _ IH]; intros I KF; cbn; constructor; inversion KF; subst; apply incl_cons_inv in I as [I1 I2]; auto.
        eapply item_ok; eauto. }
      eapply Q; eauto. apply incl_refl.
    - apply (NoDup_count_occ Nat.eq_dec). intros x. pose proof (ri_distinct HR) as N. apply (NoDup_count_occ Nat.eq_dec) with (x := x) in N || (rewrite (NoDup_count_occ Nat.eq_dec) in N; specialize (N x)).
      pose proof (@syms_count _ _ shapes x). lia.
    - eapply (@scoped_shape _ _ shapes). exact (ri_scoped HR).
  Qed.
  Lemma accepted_basic : Forall (fun i => match i with IImport _ => False | _ => True end) is.
  Proof. apply (@not_import _ _ shapes). Qed.

  (** Type variables are not types. *)
  Lemma annotate_tvars D S_ u D' : (forall y d, In (y, d) D' -> assoc y D = Some d) ->
    forall e ie s v, ishape e ie -> incl (expr_defs e) D' -> annotate D S_ k u ie = Done s -> In v (etvars s) ->
    exists y vs t, In (y, DValue vs t) D' /\ In v vs.
  Proof.
    intros HD. induction e using rexpr_ind'; intros ie se v I J E V; destruct ie; cbn [ishape] in I; try contradiction; cbn [annotate expr_defs] in *;
      repeat match goal with J : incl (_ ++ _) _ |- _ => apply incl_app_inv in J as [? ?] | J : incl (_ :: _) _ |- _ => apply incl_cons_inv in J as [? ?] end.
    - obi. destruct V.
    - destruct I. obi. cbn in V. apply in_app_or in V as [V|V]; eauto.
    - destruct I as (? & ? & ?). obi. cbn in V. apply in_app_or in V as [V|V]; eauto.
    - destruct I. obi. cbn in V. apply in_app_or in V as [V|V]; eauto.
    - destruct I as (-> & ? & ?). obi. cbn in V. apply in_app_or in V as [V|V]; [|apply in_app_or in V as [V|V]; eauto].
      unfold def_vars in V. match goal with J : In (s0, ann_def n) _ |- _ => rewrite (HD _ _ J) in V end. destruct n as [[vs t]|]; cbn in *; [eauto|destruct V].
    - destruct I as [I1 I2]. apply obind_inv in E as (d' & Ed & E). apply obind_inv in E as (t & Et & E). apply obind_inv in E as (f & Ef & E).
      apply obind_inv in E as (cs' & Ec & E). injection E as <-. cbn in V. apply in_app_or in V as [V|V]; [eauto|].
      match goal with J : incl (flat_map _ _) _ |- _ => rename J into J2 end. clear - H Ec I2 V J2 HD. revert cases cs' Ec I2 V.
      induction H as [|[p b] cs Hb _ IH]; intros [|[p' b'] cases] cs' Ec I2 V; try contradiction.
      + injection Ec as <-. destruct V.
      + apply obind_inv in Ec as (b2 & E1 & Ec). apply obind_inv in Ec as (bs & E2 & Ec). injection Ec as <-.
        destruct I2 as [[-> I2] I3]. cbn [snd fst flat_map] in *. apply incl_app_inv in J2 as [J2 J3]. apply incl_app_inv in J2 as [_ J2].
        apply in_app_or in V as [V|V]; [eauto|]. eapply IH; eauto.
    - destruct I as (? & ? & ?). obi. cbn in V. apply in_app_or in V as [V|V]; [eauto|]. apply in_app_or in V as [V|V]; eauto.
    - obi. destruct V.
    - obi. destruct V.
    - obi. destruct V.
    - destruct I as (? & ? & ?). obi. cbn in V. eauto.
    - destruct I as (? & -> & ?). obi. cbn in V. apply in_app_or in V as [V|V]; [|eauto].
      unfold def_vars in V. match goal with J : In (_, DValue [] IrInfer) _ |- _ => rewrite (HD _ _ J) in V end. destruct V.
    - obi. cbn in V. eauto.
    - obi. destruct V.
  Qed.
  Lemma infer_ann D : forall e y vars, expr_kinds_ok D e = true -> In (y, DValue vars IrInfer) (expr_defs e) -> vars = [].
  Proof.
    induction e using rexpr_ind'; intros y vars Q I; cbn [expr_defs expr_kinds_ok] in *; try (destruct I; fail);
      repeat match goal with H : _ && _ = true |- _ => apply andb_true_iff in H as [] end;
      repeat match goal with J : In _ (_ ++ _) |- _ => apply in_app_or in J as [J|J] end; eauto.
    - destruct I as [I|I].
      + injection I as <- I. destruct n as [[vars' t']|]; cbn in *; [|congruence]. injection I as -> ->. discriminate.
      + repeat match goal with J : In _ (_ ++ _) |- _ => apply in_app_or in J as [J|J] end; eauto.
        destruct n as [[vars' t']|]; cbn in I; [|tauto]. apply in_map_iff in I as (v & E & _). discriminate.
    - apply in_flat_map in I as (c & Hc & I). apply in_app_or in I as [I|I]; [apply in_map_iff in I as (v & E & _); congruence|].
      rewrite Forall_forall in H. match goal with J : forallb _ _ = true |- _ => rewrite forallb_forall in J; specialize (J _ Hc) end. eauto.
    - destruct I as [I|I]; [congruence|eauto].
  Qed.
  Theorem accepted_apart : forall y i, In i is -> In y (map fst (types_of is)) -> ~ In y (item_tvars i).
  Proof.
    intros y i Hi Hy Hv. assert (Ty : T y = true) by (apply (@is_type_spec _ _ shapes); rewrite <- (@types_shape _ _ shapes); auto).
    assert (N : In (y, DType 0 CtorOpaque) all -> False) by (intros K; apply opaque_apart in K; congruence).
    apply in_map_iff in Hi as (p & <- & Hp).
    assert (Q : exists r, In r rs /\ check_item k (defs_of rs) r = Done (Some p)).
    { pose proof HA as A. revert A. generalize (defs_of rs). clear - Hp. intros Gd A. induction A as [|r q rs out E _ IH]; [destruct Hp|].
      destruct Hp as [->|Hp]; [exists r; cbn; auto|]. destruct (IH Hp) as (r' & ? & ?). exists r'. cbn. auto. }
    destruct Q as (r & Hr & E). pose proof HO as O. rewrite Forall_forall in O. specialize (O _ Hr). pose proof (@shape_one _ _ _ _ O E) as Sh.
    destruct r as [s ps cases|x [[vars t]|] ex [b|e]]; cbn in O, Sh; try contradiction.
    - rewrite Sh in Hv. apply N, defs_all, (@item_in rs _ Hr). cbn. right. apply in_or_app. left. apply in_map_iff. eauto.
    - rewrite Sh in Hv. apply N, defs_all, (@item_in rs _ Hr). cbn. right. apply in_map_iff. eauto.
    - destruct Sh as (body & Ep & Sh). rewrite Ep in Hv. cbn in Hv. apply in_app_or in Hv as [Hv|Hv].
      { apply N, defs_all, (@item_in rs _ Hr). cbn. right. apply in_map_iff. eauto. }
      cbn [check_item] in E. apply obind_inv in E as ([[body' types] ok] & Et & E). destruct ok; [|discriminate].
      injection E as E. rewrite <- E in Ep. cbn in Ep. injection Ep as ->. unfold type_check in Et.
      change ((x, ann_def (Some (vars, t))) :: ann_vars (Some (vars, t)) ++ expr_defs e) with
        (item_defs (RVal x (Some (vars, t)) ex (inr e)) ++ inner_defs (RVal x (Some (vars, t)) ex (inr e))) in Et.
      fold (defs_for (RVal x (Some (vars, t)) ex (inr e))) in Et.
      destruct (init_types _ _) as [u0 l] eqn:Hi. destruct (instantiate u0 t []) as [u1 exi] eqn:Hin.
      apply obind_inv in Et as ([[ie ok] u] & Ec & Et). apply obind_inv in Et as (body' & Eb & Et). apply obind_inv in Et as (m & Em & Et).
      apply obind_inv in Et as (ty & Ety & Et). injection Et as -> -> Ok.
      destruct (@annotate_tvars (defs_for (RVal x (Some (vars, t)) ex (inr e))) _ u (expr_defs e)
        (fun y d H => proj2 (@assoc_for _ y d Hr) (in_or_app _ _ _ (or_introl (in_or_app _ _ _ (or_intror H))))) e ie body y
        (check_shape _ _ _ _ _ _ Ec) (incl_refl _) Eb Hv) as (z & vs & tz & Iz & Iv).
      assert (Z : tz = IrInfer \/ tz <> IrInfer) by (destruct tz; auto; right; discriminate). destruct Z as [->|Z].
      + rewrite (@infer_ann _ _ _ _ (@value_kinds _ _ _ _ Hr) Iz) in Iv. destruct Iv.
      + destruct (@expr_defs_ann _ _ _ _ _ (@value_kinds _ _ _ _ Hr) Iz Z) as [_ V]. apply N, (@item_all _ _ Hr). apply in_or_app. right. apply V. auto.
  Qed.
End Program.
(** A program without imports is its own list of items. *)
Lemma flat_basic is : Forall (fun i => match i with IImport _ => False | _ => True end) is -> flat is = is /\ reached is = [].
Proof.
  intros F. unfold flat, reached. generalize (@nil nat). induction F as [|i is Hi _ IH]; intros seen; cbn; auto.
  destruct i; try contradiction; cbn; destruct (IH seen) as [-> ->]; auto.
Qed.
Lemma typed_resolved is : program_typed is -> Forall (fun i => match i with IImport _ => False | _ => True end) is -> resolved is.
Proof.
  intros P B. destruct (flat_basic B) as [_ E]. constructor; rewrite E; cbn.
  - tauto.
  - split; [apply (pt_syms P)|tauto].
  - split; tauto.
  - split; [apply (pt_scoped P)|tauto].
Qed.
