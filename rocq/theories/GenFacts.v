(** Names in generated code: every binder is new and every use refers to the name made for its symbol. *)
From Verif Require Import GenSpec CompileStatic CompileCorrect VerifyNames.
Set Implicit Arguments.

Section SExprInd.
  Variable P : sexpr -> Prop.
  Hypothesis H1 : forall x i, P (SName x i).
  Hypothesis H2 : forall f a, P f -> P a -> P (SApply f a).
  Hypothesis H3 : forall a o b, P a -> P b -> P (SBinary a o b).
  Hypothesis H4 : forall a f, P a -> P f -> P (SPipe a f).
  Hypothesis H5 : forall x vs v e, P v -> P e -> P (SLet x vs v e).
  Hypothesis H6 : forall f d cs, P d -> Forall (fun c => P (snd c)) cs -> P (SMatch f d cs).
  Hypothesis H7 : forall c t e, P c -> P t -> P e -> P (SIf c t e).
  Hypothesis H8 : forall b, P (SBoolean b).
  Hypothesis H9 : forall n, P (SNumber n).
  Hypothesis H10 : forall s, P (SStr s).
  Hypothesis H11 : forall t x b, P b -> P (SFold t x b).
  Hypothesis H12 : forall x vs t b, P b -> P (SLam x vs t b).
  Hypothesis H13 : forall e, P e -> P (SParen e).
  Hypothesis H14 : forall m t, P (SHole m t).
  Fixpoint sexpr_ind' (e : sexpr) : P e :=
    match e with
    | SName x i => H1 x i
    | SApply f a => H2 (sexpr_ind' f) (sexpr_ind' a)
    | SBinary a o b => H3 o (sexpr_ind' a) (sexpr_ind' b)
    | SPipe a f => H4 (sexpr_ind' a) (sexpr_ind' f)
    | SLet x vs v e => H5 x vs (sexpr_ind' v) (sexpr_ind' e)
    | SMatch f d cs => H6 f (sexpr_ind' d)
        ((fix all (l : list (sym * list sym * sexpr)) : Forall (fun c => P (snd c)) l :=
            match l with [] => Forall_nil _ | x :: r => Forall_cons _ (sexpr_ind' (snd x)) (all r) end) cs)
    | SIf c t e => H7 (sexpr_ind' c) (sexpr_ind' t) (sexpr_ind' e)
    | SBoolean b => H8 b
    | SNumber n => H9 n
    | SStr s => H10 s
    | SFold t x b => H11 t x (sexpr_ind' b)
    | SLam x vs t b => H12 x vs t (sexpr_ind' b)
    | SParen e => H13 (sexpr_ind' e)
    | SHole m t => H14 m t
    end.
End SExprInd.

Lemma gbind_some {A B} (m : gen A) (f : A -> gen B) s b s' : gbind m f s = Some (b, s') ->
  exists a s1, m s = Some (a, s1) /\ f a s1 = Some (b, s').
Proof. unfold gbind. destruct (m s) as [[a s1]|]; [eauto|discriminate]. Qed.
Lemma gget_some {A} (f : gst -> option A) s a s' : gget f s = Some (a, s') -> f s = Some a /\ s' = s.
Proof. unfold gget. destruct (f s); intros H; [injection H as -> ->; auto|discriminate]. Qed.
Ltac gb := repeat match goal with
  | H : gbind _ _ _ = Some _ |- _ => let a := fresh "a" in let s := fresh "s" in let E := fresh "E" in
      apply gbind_some in H as (a & s & E & H)
  | H : gget _ _ = Some _ |- _ => let E := fresh "E" in apply gget_some in H as [E ->]
  | H : gen_ty _ _ = Some _ |- _ => unfold gen_ty in H
  | H : lookup_name _ _ = Some _ |- _ => unfold lookup_name in H
  | H : tv_of _ _ = Some _ |- _ => unfold tv_of in H
  | H : gret _ _ = Some _ |- _ => injection H as <- <-
  | H : gmod _ _ = Some _ |- _ => injection H as <- <-
  | H : fresh_name _ = Some _ |- _ => injection H as <- <-
  | H : fresh_tv _ = Some _ |- _ => injection H as <- <-
  | H : gfail _ = Some _ |- _ => discriminate H
  end.

(** A list of names that are different and new between two states. *)
Definition seg (lo hi : nat) (l : list name) : Prop := NoDup l /\ Forall (fun x => lo <= x < hi) l.
Lemma seg_nil a b : seg a b [].
Proof. split; constructor. Qed.
Lemma seg_app a b c l1 l2 : a <= b -> b <= c -> seg a b l1 -> seg b c l2 -> seg a c (l1 ++ l2).
Proof.
  intros Ha Hb [N1 F1] [N2 F2]. split.
  - apply NoDup_app_iff; split; [auto|split; [auto|]]. intros x H1 H2. rewrite Forall_forall in *. apply F1 in H1. apply F2 in H2. lia.
  - apply Forall_app; split; eapply Forall_impl; eauto; simpl; lia.
Qed.
Lemma seg_app' a b c l1 l2 : a <= b -> b <= c -> seg a b l1 -> seg b c l2 -> seg a c (l2 ++ l1).
Proof.
  intros Ha Hb [N1 F1] [N2 F2]. split.
  - apply NoDup_app_iff; split; [auto|split; [auto|]]. intros x H1 H2. rewrite Forall_forall in *. apply F1 in H2. apply F2 in H1. lia.
  - apply Forall_app; split; eapply Forall_impl; eauto; simpl; lia.
Qed.
Lemma seg_one a b x : a <= x < b -> seg a b [x].
Proof. intros H; split; repeat constructor; auto. lia. lia. Qed.
Lemma seg_wide a b a' b' l : a' <= a -> b <= b' -> seg a b l -> seg a' b' l.
Proof. intros Ha Hb [N F]. split; auto. eapply Forall_impl; [|exact F]. simpl. lia. Qed.

(** What generating an expression does to the state. *)
Record ext (B : list sym) (s s' : gst) : Prop := mkExt {
  e_nn : g_nn s <= g_nn s';
  e_nt : g_nt s <= g_nt s';
  e_names : exists L, g_names s' = L ++ g_names s /\
              Forall (fun p => In (fst p) B /\ g_nn s <= snd p < g_nn s') L;
  e_folded : g_folded s' = g_folded s;
  e_fields : g_fields s' = g_fields s;
  e_ctors : g_ctors s' = g_ctors s;
  e_tyctors : g_tyctors s' = g_tyctors s;
  e_emitted : g_emitted s' = g_emitted s;
  e_types : g_types s' = g_types s;
  e_defs : g_defs s' = g_defs s }.

Lemma ext_refl B s : ext B s s.
Proof. split; auto. exists []. auto. Qed.
Lemma ext_trans B s1 s2 s3 : ext B s1 s2 -> ext B s2 s3 -> ext B s1 s3.
Proof.
  intros [] []. split; try congruence; try lia.
  destruct e_names0 as (L1 & E1 & F1), e_names1 as (L2 & E2 & F2).
  exists (L2 ++ L1). split; [rewrite E2, E1, app_assoc; auto|]. apply Forall_app. split.
  - eapply Forall_impl; [|exact F2]. simpl. intros. intuition lia.
  - eapply Forall_impl; [|exact F1]. simpl. intros. intuition lia.
Qed.
Lemma ext_incl B B' s s' : (forall x, In x B -> In x B') -> ext B s s' -> ext B' s s'.
Proof.
  intros H []. split; auto. destruct e_names0 as (L & E & F). exists L. split; auto.
  eapply Forall_impl; [|exact F]. simpl. intuition auto.
Qed.
Lemma ext_fresh_name s : ext [] s (up_nn s (S (g_nn s))).
Proof. split; simpl; auto. exists []; auto. Qed.
Lemma ext_gen_name x s : ext [x] s (up_names (up_nn s (S (g_nn s))) ((x, g_nn s) :: g_names s)).
Proof. split; simpl; auto. exists [(x, g_nn s)]. split; auto. Qed.

Lemma gmap_ext {A C} (f : A -> gen C) B : (forall a s c s', f a s = Some (c, s') -> ext B s s') ->
  forall l s cs s', gmap f l s = Some (cs, s') -> ext B s s'.
Proof.
  intros Hf. induction l as [|a l IH]; simpl; intros s cs s' H; gb; [apply ext_refl|].
  eapply ext_trans; [eapply Hf; eauto|eapply IH; eauto].
Qed.
Lemma gmap_pure {A C} (f : A -> gst -> option C) l : forall s cs s',
  gmap (fun a => gget (f a)) l s = Some (cs, s') -> s' = s /\ Forall2 (fun a c => f a s = Some c) l cs.
Proof.
  induction l as [|a l IH]; simpl; intros s cs s' H; gb; auto.
  match goal with H : gmap _ _ _ = Some _ |- _ => apply IH in H as [-> F] end. auto.
Qed.
Lemma fresh_inst_ext vars s u s' : fresh_inst vars s = Some (u, s') -> ext [] s s' /\ g_nn s' = g_nn s /\ g_names s' = g_names s.
Proof.
  unfold fresh_inst. intros H. gb.
  revert s a E. induction vars as [|v vars IH]; simpl; intros s1 a E; gb.
  - split; auto using ext_refl.
  - match goal with H : gmap _ _ _ = Some _ |- _ => apply IH in H as (X & Y & Z) end. simpl in *. split; [|split; auto].
    eapply ext_trans; [|exact X]. split; simpl; auto. exists []; auto.
Qed.

Lemma inst_ty_ext vars t s t' s' : inst_ty vars t s = Some (t', s') -> ext [] s s' /\ g_nn s' = g_nn s /\ g_names s' = g_names s.
Proof.
  unfold inst_ty. intros H. gb. apply fresh_inst_ext in E as (X & Y & Z).
  change (gmap tv_of vars) with (gmap (fun v => gget (fun s => lookup v (g_tvs s))) vars) in *.
  match goal with H : gmap _ _ _ = Some _ |- _ => apply gmap_pure in H as [-> _] end. auto.
Qed.

(** The core names of symbols. *)
Definition img (s : gst) (D : list sym) : list name :=
  flat_map (fun x => match lookup x (g_names s) with Some n => [n] | None => [] end) D.
Lemma lookup_app_r {A} x (L l : list (name * A)) : ~ In x (map fst L) -> lookup x (L ++ l) = lookup x l.
Proof.
  induction L as [|[y v] L IH]; simpl; intros H; auto.
  destruct (Nat.eqb_spec x y); [subst; tauto|]. apply IH. tauto.
Qed.
Lemma ext_lookup B s s' x : ext B s s' -> ~ In x B -> lookup x (g_names s') = lookup x (g_names s).
Proof.
  intros [_ _ (L & -> & F) _ _ _ _ _ _ _] H. apply lookup_app_r. intros Hin. apply in_map_iff in Hin as (p & <- & Hp).
  rewrite Forall_forall in F. apply F in Hp. tauto.
Qed.
Lemma ext_img B s s' D : ext B s s' -> (forall x, In x D -> ~ In x B) -> img s' D = img s D.
Proof.
  intros H HD. induction D as [|x D IH]; simpl; auto. rewrite (@ext_lookup _ _ _ _ H (HD x (or_introl eq_refl))), IH; auto.
  intros y Hy. apply HD. right; auto.
Qed.
Lemma in_img s D x n : In x D -> lookup x (g_names s) = Some n -> In n (img s D).
Proof. intros Hx Hl. apply in_flat_map. exists x. rewrite Hl. simpl. auto. Qed.

(** A function whose name does not occur puts no condition on calls. *)
Lemma shape_other r k e : forall S tail, scoped S e = true -> ~ In r S -> ~ In r (binders e) ->
  shape None false e = true -> shape (Some (r, k)) tail e = true.
Proof.
  assert (L : forall es, Forall (fun e => forall S tail, scoped S e = true -> ~ In r S -> ~ In r (binders e) ->
             shape None false e = true -> shape (Some (r, k)) tail e = true) es ->
           forall S tail, forallb (scoped S) es = true -> ~ In r S -> ~ In r (flat_map binders es) ->
             forallb (shape None false) es = true -> forallb (shape (Some (r, k)) tail) es = true).
  { induction 1; simpl; intros S tail H1 H2 H3 H4; auto. rewrite in_app_iff in H3.
    apply andb_true_iff in H1 as [? ?]. apply andb_true_iff in H4 as [? ?].
    erewrite H, IHForall; eauto; tauto. }
  assert (LB : forall brs : list (name * list name * expr), Forall (fun br => forall S tail, scoped S (snd br) = true -> ~ In r S -> ~ In r (binders (snd br)) ->
             shape None false (snd br) = true -> shape (Some (r, k)) tail (snd br) = true) brs ->
           forall S tail, forallb (fun br => scoped (snd (fst br) ++ S) (snd br)) brs = true -> ~ In r S ->
             ~ In r (flat_map (fun br => snd (fst br) ++ binders (snd br)) brs) ->
             forallb (fun br => shape None false (snd br)) brs = true ->
             forallb (fun br => shape (Some (r, k)) tail (snd br)) brs = true).
  { induction 1 as [|x brs Hx _ IHb]; simpl; intros S tail H1 H2 H3 H4; auto. rewrite !in_app_iff in H3.
    apply andb_true_iff in H1 as [A1 A2]. apply andb_true_iff in H4 as [B1 B2].
    apply andb_true_iff. split; [|apply (IHb S tail A2 H2); [tauto|exact B2]].
    apply (Hx (snd (fst x) ++ S) tail A1); [rewrite in_app_iff; tauto|tauto|exact B1]. }
  induction e using expr_ind'; intros S tail HS HI HB HF; cbn [scoped binders shape] in *; auto;
    rewrite ?andb_true_iff, ?in_app_iff in *;
    repeat match goal with H : _ /\ _ |- _ => destruct H | H : ~ (_ \/ _) |- _ => apply Decidable.not_or in H end.
  - split; [split|]; [eapply IHe; eauto|eapply L; eauto|].
    destruct e; auto. match goal with H : scoped S (EName _) = true |- _ => simpl in H; apply mem_In in H end.
    destruct (tail && Nat.eqb r n) eqn:E; auto.
    apply andb_true_iff in E as [_ E]. apply Nat.eqb_eq in E. subst. tauto.
  - split; [split|]; [eapply IHe1|eapply IHe2|eapply IHe3]; eauto.
  - split; [eapply IHe1|eapply IHe2]; eauto.
  - split; auto. eapply L; eauto.
  - split; [eapply IHe; eauto|]. 
    eapply LB; eauto.
  - eapply L; eauto.
  - simpl in HB. apply Decidable.not_or in HB as [? HB]. rewrite in_app_iff in HB. apply Decidable.not_or in HB as [? ?].
    split; [eapply IHe1; eauto|eapply IHe2; eauto]. simpl. tauto.
  - simpl in HB. apply Decidable.not_or in HB as [? HB]. rewrite in_app_iff in HB. apply Decidable.not_or in HB as [? ?].
    split; [auto|eapply IHe2; eauto]. simpl. tauto.
  - eapply IHe; eauto.
  - eapply IHe; eauto.
Qed.
