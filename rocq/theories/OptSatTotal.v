(** The pass saturate terminates. *)
From Verif Require Import Compile Wf OptEv OptRel OptWalk OptGood OptPasses OptInline OptInlineOk OptInlineTotal OptSaturate OptSatRel OptSatOk.
Set Implicit Arguments.

Lemma list_sum_in {A} (f : A -> nat) l a : In a l -> f a <= list_sum (map f l).
Proof. induction l as [|b l IH]; simpl; [contradiction|]. intros [->|H]; [lia|]. specialize (IH H). lia. Qed.
Lemma kids_size e k : In k (kids e) -> isize (snd k) < isize e.
Proof.
  destruct e; cbn [kids isize]; intros Hk; try contradiction;
    repeat match goal with
    | H : In _ (_ :: _) |- _ => destruct H as [<-|H]
    | H : In _ [] |- _ => destruct H
    | H : In _ (map _ _) |- _ => apply in_map_iff in H as (? & <- & ?)
    end; cbn [fst snd] in *; try lia.
  - pose proof (list_sum_in isize _ _ H). lia.
  - pose proof (list_sum_in isize _ _ H). lia.
  - pose proof (list_sum_in (fun br : name * list name * expr => length (snd (fst br)) + isize (snd br) + 1) _ _ H). simpl in *. lia.
  - pose proof (list_sum_in isize _ _ H). lia.
Qed.
Lemma isize_lams gs f : isize (ELam (concat gs) f) <= isize (lams gs f) + 1.
Proof. induction gs as [|g gs IH]; cbn [lams fold_right isize concat] in *; [simpl; lia|]. rewrite app_length. fold (lams gs f). simpl in IH. lia. Qed.
Lemma isize_lams1 g gs f : isize (ELam (concat (g :: gs)) f) <= isize (lams (g :: gs) f).
Proof. pose proof (isize_lams gs f) as H. cbn [lams fold_right isize concat] in *. fold (lams gs f) in *. rewrite app_length. lia. Qed.
Lemma isize_under f a : isize (f (strip_pis a)) <= isize (strip_pis a) -> isize (under_pis f a) <= isize a.
Proof. induction a; simpl; auto. intros H. apply IHa in H. lia. Qed.
Lemma colrec_size e : isize (fst (colrec e)) <= isize e.
Proof.
  destruct e; simpl; auto. destruct (check_for_rewrite t e1) as [[[t' a'] rw]|] eqn:E; simpl; auto.
  destruct (check_some _ _ E) as (g & gs & f & E1 & E2 & _ & -> & _).
  assert (isize (under_pis collapse_lambdas e1) <= isize e1); [|lia]. apply isize_under.
  rewrite (lams_groups (strip_pis e1)) at 2. unfold collapse_lambdas. rewrite E1. cbn [lams fold_right lam_groups lam_body].
  apply isize_lams1.
Qed.

Lemma omap_total {A B} (f : A -> option B) l : (forall a, In a l -> exists b, f a = Some b) -> exists l', omap f l = Some l'.
Proof.
  induction l as [|a l IH]; simpl; intros H; [eauto|]. destruct (H a) as [b E]; auto. rewrite E. simpl.
  destruct IH as [l' E']; auto. rewrite E'. simpl. eauto.
Qed.
Lemma col_total n : forall e, isize e <= n -> exists r, col n e = Some r.
Proof.
  induction n as [|n IH]; intros e H; [destruct e; simpl in H; lia|]. cbn [col]. pose proof (colrec_size e) as Hs. destruct (colrec e) as [e1 w]. simpl in Hs.
  destruct (@omap_total _ _ (col n) (map snd (kids e1))) as [l El]; [|rewrite El; simpl; eauto].
  intros a Ha. apply in_map_iff in Ha as (k & <- & Hk). apply IH. apply kids_size in Hk. lia.
Qed.
Lemma rewrite_total n : forall s e, isize e <= n -> exists r, rewrite_walk n s e = Some r.
Proof.
  induction n as [|n IH]; intros s e H; [destruct e; simpl in H; lia|]. cbn [rewrite_walk].
  assert (HO : forall l, (forall a, In a l -> isize a <= n) -> forall s, exists r, omapS (rewrite_walk n) s l = Some r).
  { induction l as [|a l IHl]; intros Hl s0; simpl; [eauto|]. destruct (IH s0 a) as [[b s1] E]; [apply Hl; simpl; auto|]. rewrite E. cbn [obind].
    destruct (IHl (fun x Hx => Hl x (or_intror Hx)) s1) as [[bs s2] E2]. rewrite E2. cbn [obind]. eauto. }
  destruct (HO (map snd (kids e))) with (s := s) as [[l s1] E].
  - intros a Ha. apply in_map_iff in Ha as (k & <- & Hk). apply kids_size in Hk. lia.
  - rewrite E. cbn [obind]. eauto.
Qed.
Lemma collapse_more n : forall s e r, collapse_walk n s e = Some r -> collapse_walk (S n) s e = Some r.
Proof.
  induction n as [|n IH]; intros s e r E; [discriminate|]. remember (S n) as m eqn:Em. cbn [collapse_walk]. rewrite Em in E. cbn [collapse_walk] in E.
  destruct (collapse_rec s e) as [e1 s1]. destruct (omapS (collapse_walk n) s1 (map snd (kids e1))) as [[l s2]|] eqn:El; [|discriminate].
  subst m. rewrite (@omapS_some _ _ _ _ _ _ IH _ _ El). auto.
Qed.
Lemma rewrite_more n : forall s e r, rewrite_walk n s e = Some r -> rewrite_walk (S n) s e = Some r.
Proof.
  induction n as [|n IH]; intros s e r E; [discriminate|]. remember (S n) as m eqn:Em. cbn [rewrite_walk]. rewrite Em in E. cbn [rewrite_walk] in E.
  destruct (omapS (rewrite_walk n) s (map snd (kids e))) as [[l s2]|] eqn:El; [|discriminate].
  subst m. rewrite (@omapS_some _ _ _ _ _ _ IH _ _ El). auto.
Qed.
Lemma collapse_up n k s e r : n <= k -> collapse_walk n s e = Some r -> collapse_walk k s e = Some r.
Proof. induction 1; auto. intros E. apply collapse_more. auto. Qed.
Lemma rewrite_up n k s e r : n <= k -> rewrite_walk n s e = Some r -> rewrite_walk k s e = Some r.
Proof. induction 1; auto. intros E. apply rewrite_more. auto. Qed.
Lemma saturate_def_up n k s d r : n <= k -> saturate_def n s d = Some r -> saturate_def k s d = Some r.
Proof.
  unfold saturate_def. intros H E.
  destruct (match check_for_rewrite (vd_ty d) (vd_value d) with Some (t, v, rw) => (t, v, mkSst (s_nn s) (s_nt s) ((vd_name d, rw) :: s_rw s)) | None => (vd_ty d, vd_value d, s) end) as [[t v] s1].
  destruct (collapse_walk n s1 v) as [[v1 s2]|] eqn:E1; [|discriminate]. rewrite (collapse_up _ _ H E1). cbn [obind] in *.
  destruct (rewrite_walk n s2 v1) as [[v2 s3]|] eqn:E2; [|discriminate]. rewrite (rewrite_up _ _ H E2). auto.
Qed.
Lemma saturate_def_total s d : exists n r, saturate_def n s d = Some r.
Proof.
  unfold saturate_def.
  destruct (match check_for_rewrite (vd_ty d) (vd_value d) with Some (t, v, rw) => (t, v, mkSst (s_nn s) (s_nt s) ((vd_name d, rw) :: s_rw s)) | None => (vd_ty d, vd_value d, s) end) as [[t v] s1].
  destruct (@col_total (isize v) v (le_n _)) as [[v1 w] E1].
  assert (E1' : collapse_walk (isize v) s1 v = Some (v1, addrw w s1)) by (rewrite collapse_col, E1; auto).
  destruct (@rewrite_total (isize v1) (addrw w s1) v1 (le_n _)) as [[v2 s3] E2].
  exists (max (isize v) (isize v1)). rewrite (collapse_up _ _ (Nat.le_max_l _ _) E1'). cbn [obind]. rewrite (rewrite_up _ _ (Nat.le_max_r _ _) E2). cbn [obind]. eauto.
Qed.
Theorem saturate_up n k nn nt p r : n <= k -> saturate_fuel n nn nt p = Some r -> saturate_fuel k nn nt p = Some r.
Proof.
  unfold saturate_fuel. intros H E. destruct (omapS (saturate_def n) (mkSst nn nt []) (p_defs p)) as [[ds s]|] eqn:Eo; [|discriminate].
  rewrite (@omapS_some _ _ _ (saturate_def n) (saturate_def k) _ (fun s d r => saturate_def_up s d H) _ _ Eo). auto.
Qed.
Theorem saturate_total nn nt p : exists fuel r, saturate_fuel fuel nn nt p = Some r.
Proof.
  unfold saturate_fuel. generalize (mkSst nn nt []) as s.
  assert (HX : forall ds s, exists n r, omapS (saturate_def n) s ds = Some r).
  { induction ds as [|d ds IH]; intros s; [exists 0; simpl; eauto|]. destruct (saturate_def_total s d) as (n1 & [d1 s1] & E1). destruct (IH s1) as (n2 & [ds2 s2] & E2).
    exists (max n1 n2). simpl. rewrite (@saturate_def_up n1 (max n1 n2) _ _ _ (Nat.le_max_l _ _) E1). cbn [obind].
    rewrite (@omapS_some _ _ _ (saturate_def n2) (saturate_def (max n1 n2)) _ (fun s d r => saturate_def_up s d (Nat.le_max_r _ _)) _ _ E2). cbn [obind]. eauto. }
  intros s. destruct (HX (p_defs p) s) as (n & [ds s'] & E). exists n. rewrite E. cbn [obind]. eauto.
Qed.
