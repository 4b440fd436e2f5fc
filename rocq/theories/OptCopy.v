(** A copy with fresh names behaves like the original. *)
From Verif Require Import EvalFacts Orders Compile CompileStatic Wf Vm OptEv OptRel OptWalk OptGood OptPasses OptLaws OptInline.
Set Implicit Arguments.

Definition PS (S : list name) (f : name -> name) : pmap := fun a e => In a S /\ e = EName (f a).

Lemma PS_sub S S' f g : (forall a, In a S -> In a S' /\ f a = g a) -> forall a e, PS S f a e -> PS S' g a e.
Proof. intros H a e [Ha ->]. destruct (H _ Ha) as [Hb E]. split; congruence. Qed.
Lemma ext_PS S f x : (forall a, In a S -> f a <> f x) -> forall a e, PS (x :: S) f a e -> ext (PS S f) x (f x) a e.
Proof.
  intros H a e [[<-|Ha] ->]; [left; auto|]. right. repeat split; auto.
  - intros ->. eapply H; eauto.
  - simpl. intros [E|[]]. apply (H _ Ha E).
Qed.
Lemma exts_PS f xs : forall S, (forall x a, In x xs -> In a S -> f a <> f x) -> NoDup (map f xs) ->
  forall a e, PS (xs ++ S) f a e -> exts (PS S f) xs (map f xs) a e.
Proof.
  induction xs as [|x xs IH]; intros S H Hn a e Ha; simpl in *; auto.
  apply NoDup_cons_iff in Hn as [Hx Hn].
  eapply exts_sub with (P := PS (x :: S) f).
  - apply ext_PS. intros b Hb. apply H; auto.
  - apply IH; auto.
    + intros y b Hy [<-|Hb]; [|auto]. intros E. apply Hx. rewrite E. apply in_map; auto.
    + eapply PS_sub; [|exact Ha]. intros b Hb. simpl in Hb. rewrite !in_app_iff in *. simpl. intuition.
Qed.

(** ** Fresh names *)
Record copied (s : cst) (xs ys : list name) (s1 : cst) : Prop := {
  cp_nn : c_nn s1 = c_nn s + length xs;
  cp_ys : ys = seq (c_nn s) (length xs);
  cp_out : forall x, ~ In x xs -> ren (c_rn s1) x = ren (c_rn s) x;
  cp_in : NoDup xs -> map (ren (c_rn s1)) xs = ys
}.
Definition same_names (s s1 : cst) : Prop := c_nn s1 = c_nn s /\ c_rn s1 = c_rn s.

Lemma mapS_same {A B} (f : cst -> A -> B * cst) l : Forall (fun a => forall s b s', f s a = (b, s') -> same_names s s') l ->
  forall s bs s', mapS f s l = (bs, s') -> same_names s s'.
Proof.
  induction 1 as [|a l Ha _ IH]; simpl; intros s bs s' E; [injection E as <- <-; split; auto|].
  destruct (f s a) as [b s1] eqn:E1. destruct (mapS f s1 l) as [bs2 s2] eqn:E2. injection E as <- <-.
  destruct (Ha _ _ _ E1), (IH _ _ _ E2). split; congruence.
Qed.
Lemma copy_ty_names t : forall s t' s', copy_ty s t = (t', s') -> same_names s s'.
Proof.
  induction t using ty_ind'; simpl; intros s t' s' E; try (injection E as <- <-; split; auto; fail).
  - destruct (mapS copy_ty s args) as [l s1] eqn:E1. injection E as <- <-. eapply mapS_same; eauto.
  - destruct (mapS copy_ty s ps) as [l s1] eqn:E1. destruct (copy_ty s1 t) as [o s2] eqn:E2. injection E as <- <-.
    eapply mapS_same in E1; eauto. destruct E1, (IHt _ _ _ E2). split; congruence.
  - destruct (copy_ty (mkCst (c_nn s) (S (c_nt s)) (c_rn s) ((v, c_nt s) :: c_rt s)) t) as [o s2] eqn:E2. injection E as <- <-.
    destruct (IHt _ _ _ E2) as [H1 H2]. split; auto.
Qed.
Lemma copy_tys_names l s l' s' : mapS copy_ty s l = (l', s') -> same_names s s'.
Proof. apply mapS_same. apply Forall_forall. intros t _. apply copy_ty_names. Qed.

Lemma ren_cons x y m a : ren ((x, y) :: m) a = if Nat.eqb a x then y else ren m a.
Proof. unfold ren; simpl. destruct (Nat.eqb a x); auto. Qed.

Lemma map_ext_in' {A B} (f g : A -> B) l : (forall a, In a l -> f a = g a) -> map f l = map g l.
Proof. apply map_ext_in. Qed.

Lemma mapS_copied {A B} (f : cst -> A -> B * cst) (nm : A -> name) (nm' : B -> name) :
  (forall s a b s', f s a = (b, s') -> nm' b = c_nn s /\ c_nn s' = S (c_nn s) /\ c_rn s' = (nm a, c_nn s) :: c_rn s) ->
  forall l s l' s', mapS f s l = (l', s') -> copied s (map nm l) (map nm' l') s'.
Proof.
  intros Hf. induction l as [|a l IH]; simpl; intros s l' s' E; [injection E as <- <-; split; simpl; auto|].
  destruct (f s a) as [b s1] eqn:E1. destruct (mapS f s1 l) as [bs s2] eqn:E2. injection E as <- <-.
  destruct (Hf _ _ _ _ E1) as (N1 & N2 & N3). destruct (IH _ _ _ E2) as [H1 H2 H3 H4]. split; simpl.
  - rewrite H1, N2. rewrite map_length. lia.
  - rewrite N1, H2, N2. auto.
  - intros x Hx. rewrite H3, N3, ren_cons by tauto. destruct (Nat.eqb_spec x (nm a)); auto. subst; tauto.
  - intros Hn. apply NoDup_cons_iff in Hn as [Hn1 Hn2]. rewrite H4, N1 by auto. f_equal.
    rewrite H3, N3, ren_cons, Nat.eqb_refl; auto.
Qed.
Lemma copy_names_ok l s l' s' : mapS copy_name s l = (l', s') -> copied s l l' s'.
Proof.
  intros E. eapply (@mapS_copied _ _ copy_name (fun x => x) (fun x => x)) in E; [rewrite !map_id in E; auto|].
  unfold copy_name. intros s0 a b s1 H. injection H as <- <-. auto.
Qed.
Lemma copy_params_ok l s l' s' : mapS copy_param s l = (l', s') -> copied s (map fst l) (map fst l') s'.
Proof.
  apply mapS_copied. unfold copy_param, copy_name. intros s0 a b s1 H.
  destruct (copy_ty (mkCst (S (c_nn s0)) (c_nt s0) ((fst a, c_nn s0) :: c_rn s0) (c_rt s0)) (snd a)) as [t s2] eqn:E.
  injection H as <- <-. apply copy_ty_names in E as [N1 N2]. simpl in *. auto.
Qed.
Lemma cnt_seq x a n : cnt x (seq a n) = if (a <=? x) && (x <? a + n) then 1 else 0.
Proof.
  revert a. induction n as [|n IH]; intros a; simpl.
  - destruct ((a <=? x) && (x <? a + 0)) eqn:E; auto. rewrite andb_true_iff, Nat.leb_le, Nat.ltb_lt in E. lia.
  - change (cnt x (a :: seq (S a) n) = if (a <=? x) && (x <? a + S n) then 1 else 0). rewrite cnt_cons, IH.
    destruct (Nat.eq_dec a x); destruct (Nat.leb_spec (S a) x); destruct (Nat.leb_spec a x);
      destruct (Nat.ltb_spec x (S a + n)); destruct (Nat.ltb_spec x (a + S n)); simpl; lia.
Qed.

Definition rng (a b x : nat) : nat := if (a <=? x) && (x <? b) then 1 else 0.
Lemma rng_split a b c x : a <= b -> b <= c -> rng a b x + rng b c x = rng a c x.
Proof.
  intros. unfold rng. destruct (Nat.leb_spec a x); destruct (Nat.ltb_spec x b); destruct (Nat.leb_spec b x); destruct (Nat.ltb_spec x c); simpl; lia.
Qed.
Lemma rng_nil a x : rng a a x = 0.
Proof. unfold rng. destruct (Nat.leb_spec a x); destruct (Nat.ltb_spec x a); simpl; lia. Qed.
Lemma rng_one a x : rng a (S a) x = if Nat.eq_dec a x then 1 else 0.
Proof. unfold rng. destruct (Nat.leb_spec a x); destruct (Nat.ltb_spec x (S a)); destruct (Nat.eq_dec a x); simpl; lia. Qed.
Lemma rng_le a b x : rng a b x <= 1.
Proof. unfold rng. destruct (_ && _); lia. Qed.
Lemma rng_0 a b x : x < a \/ b <= x -> rng a b x = 0.
Proof. unfold rng. destruct (Nat.leb_spec a x); destruct (Nat.ltb_spec x b); simpl; lia. Qed.
Lemma rng_1 a b x : rng a b x = 1 -> a <= x < b.
Proof. unfold rng. destruct (Nat.leb_spec a x); destruct (Nat.ltb_spec x b); simpl; lia. Qed.

(** ** The copy *)
Definition fit (S : list name) (s : cst) (F B : list name) : Prop :=
  (forall x, In x F -> In x S) /\ (forall x, cnt x B <= 1) /\ (forall x, In x B -> ~ In x S) /\
  (forall a, In a S -> ren (c_rn s) a < c_nn s).
Definition fits (S : list name) (s : cst) (e : expr) : Prop := fit S s (fv e) (binders e).

Record copy_ok (s : cst) (e e' : expr) (s' : cst) : Prop := {
  k_nn : c_nn s <= c_nn s';
  k_out : forall x, ~ In x (binders e) -> ren (c_rn s') x = ren (c_rn s) x;
  k_cnt : forall x, cnt x (binders e') <= rng (c_nn s) (c_nn s') x;
  k_recs : forall m, recs m e = true -> recs m e' = true;
  k_rel : forall S, fits S s e -> rel (PS S (ren (c_rn s))) e e';
  k_fv : forall S, fits S s e -> forall z, In z (fv e') -> exists x, In x (fv e) /\ z = ren (c_rn s) x;
  k_isl : forall ps f, strip_pis e = ELam ps f -> exists ps' f', strip_pis e' = ELam ps' f';
  k_strip : forall S, fits S s e -> forall ps f, strip_pis e = ELam ps f -> exists ps' f' g,
    strip_pis e' = ELam ps' f' /\ map fst ps' = map g (map fst ps) /\ (forall a, In a S -> g a = ren (c_rn s) a) /\
    (forall x, In x (map fst ps) -> c_nn s <= g x) /\ NoDup (map g (map fst ps)) /\ rel (PS (map fst ps ++ S) g) f f'
}.

Lemma fit_sub S s F B F' B' : fit S s F B -> (forall x, In x F' -> In x F) -> (forall x, cnt x B' <= cnt x B) -> fit S s F' B'.
Proof.
  intros (F1 & F2 & F3 & F4) Hf Hb. repeat split; auto.
  - intros x. specialize (F2 x); specialize (Hb x); lia.
  - intros x Hx. apply F3. apply cnt_in. apply cnt_in in Hx. specialize (Hb x); lia.
Qed.
(** A later sibling is copied under the same renaming. *)
Lemma fit_later S s s1 F B B1 : fit S s F B -> c_nn s <= c_nn s1 -> (forall x, ~ In x B1 -> ren (c_rn s1) x = ren (c_rn s) x) ->
  (forall x, cnt x B1 <= cnt x B) -> fit S s1 F B /\ forall a, In a S -> ren (c_rn s1) a = ren (c_rn s) a.
Proof.
  intros (F1 & F2 & F3 & F4) Hn Hr Hc.
  assert (HS : forall a, In a S -> ren (c_rn s1) a = ren (c_rn s) a).
  { intros a Ha. apply Hr. intros Hi. apply (F3 a); auto. apply cnt_in. apply cnt_in in Hi. specialize (Hc a); lia. }
  split; auto. repeat split; auto. intros a Ha. rewrite HS by auto. specialize (F4 a Ha). lia.
Qed.
Lemma cnt_NoDup xs : (forall x, cnt x xs <= 1) -> NoDup xs.
Proof. apply (NoDup_count_occ Nat.eq_dec). Qed.
Lemma fit_bind S s F B xs ys s1 F' B' : fit S s F B -> copied s xs ys s1 ->
  (forall x, In x F' -> In x xs \/ In x F) -> (forall x, cnt x xs + cnt x B' <= cnt x B) ->
  fit (xs ++ S) s1 F' B' /\ map (ren (c_rn s1)) xs = ys /\ (forall a, In a S -> ren (c_rn s1) a = ren (c_rn s) a) /\
  (forall a, In a xs -> c_nn s <= ren (c_rn s1) a) /\ NoDup ys.
Proof.
  intros (F1 & F2 & F3 & F4) [C1 C2 C3 C4] Hf Hb.
  assert (Hn : NoDup xs) by (apply cnt_NoDup; intros x; specialize (F2 x); specialize (Hb x); lia).
  specialize (C4 Hn).
  assert (HS : forall a, In a S -> ren (c_rn s1) a = ren (c_rn s) a).
  { intros a Ha. apply C3. intros Hi. apply (F3 a); auto. apply cnt_in. apply cnt_in in Hi. specialize (Hb a); lia. }
  assert (HX : forall a, In a xs -> c_nn s <= ren (c_rn s1) a < c_nn s1).
  { intros a Ha. apply (in_map (ren (c_rn s1))) in Ha. rewrite C4, C2 in Ha. apply in_seq in Ha. lia. }
  split; [|split; [auto|split; [auto|split; [intros; apply HX; auto|subst ys; apply seq_NoDup]]]].
  repeat split.
  - intros x Hx. apply in_app_iff. destruct (Hf _ Hx); auto.
  - intros x. specialize (F2 x); specialize (Hb x); lia.
  - intros x Hx Hi. apply in_app_iff in Hi as [Hi|Hi].
    + apply cnt_in in Hx; apply cnt_in in Hi. specialize (F2 x); specialize (Hb x); lia.
    + apply (F3 x); auto. apply cnt_in. apply cnt_in in Hx. specialize (Hb x); lia.
  - intros a Ha. apply in_app_iff in Ha as [Ha|Ha]; [apply HX; auto|]. rewrite HS by auto. specialize (F4 a Ha). lia.
Qed.
Lemma fit_lt S s F B : fit S s F B -> forall a, In a S -> ren (c_rn s) a < c_nn s.
Proof. intros (_ & _ & _ & H). exact H. Qed.

(** Lists of expressions. *)
Record copyl_ok (s : cst) (es es' : list expr) (s' : cst) : Prop := {
  kl_nn : c_nn s <= c_nn s';
  kl_out : forall x, ~ In x (flat_map binders es) -> ren (c_rn s') x = ren (c_rn s) x;
  kl_cnt : forall x, cnt x (flat_map binders es') <= rng (c_nn s) (c_nn s') x;
  kl_recs : forall m, forallb (recs m) es = true -> forallb (recs m) es' = true;
  kl_rel : forall S, fit S s (flat_map fv es) (flat_map binders es) -> Forall2 (rel (PS S (ren (c_rn s)))) es es';
  kl_fv : forall S, fit S s (flat_map fv es) (flat_map binders es) -> forall z, In z (flat_map fv es') -> exists x, In x (flat_map fv es) /\ z = ren (c_rn s) x
}.

Lemma rel_PS S f g e e' : (forall a, In a S -> f a = g a) -> rel (PS S f) e e' -> rel (PS S g) e e'.
Proof. intros H. apply rel_sub. apply PS_sub. auto. Qed.

Lemma copyl_list es : Forall (fun e => forall s e' s', copy s e = (e', s') -> copy_ok s e e' s') es ->
  forall s es' s', mapS copy s es = (es', s') -> copyl_ok s es es' s'.
Proof.
  induction 1 as [|e es He _ IH]; simpl; intros s es' s' E.
  - injection E as <- <-. split; simpl; auto; try (intros; contradiction); intros; apply Nat.le_0_l.
  - destruct (copy s e) as [e1 s1] eqn:E1. destruct (mapS copy s1 es) as [es2 s2] eqn:E2. injection E as <- <-.
    apply He in E1 as [A1 A2 A3 A4 A5 A6 _ _]. apply IH in E2 as [B1 B2 B3 B4 B5 B6].
    assert (HF : forall S, fit S s (fv e ++ flat_map fv es) (binders e ++ flat_map binders es) ->
      fits S s e /\ fit S s1 (flat_map fv es) (flat_map binders es) /\ forall a, In a S -> ren (c_rn s1) a = ren (c_rn s) a).
    { intros S HS. split.
      - eapply fit_sub; [exact HS| |]; intros x; rewrite ?in_app_iff, ?cnt_app; auto; lia.
      - destruct (@fit_later _ _ s1 _ _ (binders e) HS) as [HS1 HR]; auto; [intros x; rewrite cnt_app; lia|].
        split; auto. eapply fit_sub; [exact HS1| |]; intros x; rewrite ?in_app_iff, ?cnt_app; auto; lia. }
    split; cbn [flat_map forallb].
    + lia.
    + intros x Hx. rewrite in_app_iff in Hx. rewrite B2, A2; tauto.
    + intros x. rewrite cnt_app, <- (@rng_split (c_nn s) (c_nn s1)) by lia. specialize (A3 x); specialize (B3 x); lia.
    + intros m. rewrite !andb_true_iff. intuition.
    + intros S HS. destruct (HF _ HS) as (H1 & H2 & H3). constructor; auto.
      eapply Forall2_weak; [|apply (B5 _ H2)]. intros a b. apply rel_PS; auto.
    + intros S HS z Hz. destruct (HF _ HS) as (H1 & H2 & H3). apply in_app_iff in Hz as [Hz|Hz].
      * destruct (A6 _ H1 _ Hz) as (x & Hx & ->). exists x. rewrite in_app_iff; auto.
      * destruct (B6 _ H2 _ Hz) as (x & Hx & ->). exists x. rewrite in_app_iff. split; auto. apply H3.
        destruct H2 as (H2 & _). auto.
Qed.

Lemma copyl_same s es es' s1 s2 : copyl_ok s es es' s1 -> same_names s1 s2 -> copyl_ok s es es' s2.
Proof. intros [A1 A2 A3 A4 A5 A6] [N1 N2]. split; rewrite ?N1, ?N2; auto. Qed.

Lemma copy_node s e e' s' es es' : copyl_ok s es es' s' ->
  fv e = flat_map fv es -> binders e = flat_map binders es -> fv e' = flat_map fv es' -> binders e' = flat_map binders es' ->
  (forall m, recs m e = forallb (recs m) es) -> (forall m, recs m e' = forallb (recs m) es') ->
  (forall P, Forall2 (rel P) es es' -> rel P e e') -> (forall ps f, strip_pis e <> ELam ps f) -> copy_ok s e e' s'.
Proof.
  intros [A1 A2 A3 A4 A5 A6] H1 H2 H3 H4 H5 H6 H7 H8.
  split; rewrite ?H1, ?H2, ?H3, ?H4; auto; unfold fits; rewrite ?H1, ?H2; auto.
  - intros m. rewrite H5, H6; auto.
  - intros ps f E. exfalso; eapply H8; eauto.
  - intros S _ ps f E. exfalso; eapply H8; eauto.
Qed.

Notation fvb := (flat_map (fun br : name * list name * expr => minus (fv (snd br)) (snd (fst br)))).
Notation bdb := (flat_map (fun br : name * list name * expr => snd (fst br) ++ binders (snd br))).
Definition copy_branch (s : cst) (br : name * list name * expr) :=
  let (xs, s1) := mapS copy_name s (snd (fst br)) in
  let (v, s2) := copy s1 (snd br) in ((fst (fst br), xs, v), s2).
Record copyb_ok (s : cst) (es es' : list (name * list name * expr)) (s' : cst) : Prop := {
  kb_nn : c_nn s <= c_nn s';
  kb_out : forall x, ~ In x (bdb es) -> ren (c_rn s') x = ren (c_rn s) x;
  kb_cnt : forall x, cnt x (bdb es') <= rng (c_nn s) (c_nn s') x;
  kb_recs : forall m, forallb (fun br => recs m (snd br)) es = true -> forallb (fun br => recs m (snd br)) es' = true;
  kb_ctors : map (fun br => fst (fst br)) es' = map (fun br => fst (fst br)) es;
  kb_rel : forall S, fit S s (fvb es) (bdb es) -> Forall2 (rel_br (PS S (ren (c_rn s)))) es es';
  kb_fv : forall S, fit S s (fvb es) (bdb es) -> forall z, In z (fvb es') -> exists x, In x (fvb es) /\ z = ren (c_rn s) x
}.

(** What a binding construct needs of its body. *)
Lemma copy_bound s xs ys s1 e e' s2 : copied s xs ys s1 -> copy_ok s1 e e' s2 ->
  c_nn s <= c_nn s2 /\
  (forall x, ~ In x (xs ++ binders e) -> ren (c_rn s2) x = ren (c_rn s) x) /\
  (forall x, cnt x (ys ++ binders e') <= rng (c_nn s) (c_nn s2) x) /\
  (forall S F B, fit S s F B -> (forall x, In x (minus (fv e) xs) -> In x F) -> (forall x, cnt x (xs ++ binders e) <= cnt x B) ->
     rel (exts (PS S (ren (c_rn s))) xs ys) e e' /\
     (forall z, In z (minus (fv e') ys) -> exists x, In x (minus (fv e) xs) /\ z = ren (c_rn s) x) /\
     rel (PS (xs ++ S) (ren (c_rn s1))) e e' /\ ys = map (ren (c_rn s1)) xs /\
     (forall a, In a S -> ren (c_rn s1) a = ren (c_rn s) a) /\ (forall x, In x xs -> c_nn s <= ren (c_rn s1) x) /\ NoDup ys).
Proof.
  intros HC HE. pose proof HC as [C1 C2 C3 C4]. destruct HE as [A1 A2 A3 A4 A5 A6 _ _].
  split; [lia|]. split; [intros x Hx; rewrite in_app_iff in Hx; rewrite A2, C3; tauto|]. split.
  - intros x. rewrite cnt_app, C2, cnt_seq, <- C1. specialize (A3 x). unfold rng at 1 in A3.
    rewrite <- (@rng_split (c_nn s) (c_nn s1)) by lia. unfold rng. lia.
  - intros S F B HS HF HB.
    destruct (@fit_bind _ _ _ _ _ _ _ (fv e) (binders e) HS HC) as (H1 & H2 & H3 & H4 & H5).
    { intros x Hx. destruct (in_dec Nat.eq_dec x xs); auto. right. apply HF. apply in_minus; auto. }
    { intros x. specialize (HB x). rewrite cnt_app in HB. lia. }
    assert (HD : forall x a, In x xs -> In a S -> ren (c_rn s1) a <> ren (c_rn s1) x).
    { intros x a Hx Ha. rewrite H3 by auto. pose proof (fit_lt HS a Ha). specialize (H4 x Hx). lia. }
    pose proof (A5 _ H1) as HR. repeat split; auto.
    + rewrite <- H2. eapply rel_sub; [|exact HR]. intros a e0 Ha. eapply exts_sub; [|apply exts_PS; [exact HD|rewrite H2; auto|exact Ha]].
      apply PS_sub. auto.
    + intros z Hz. apply in_minus in Hz as [Hz Hn]. destruct (A6 _ H1 _ Hz) as (x & Hx & ->).
      assert (Hxs : ~ In x xs) by (intros Hi; apply Hn; rewrite <- H2; apply in_map; auto).
      exists x. split; [apply in_minus; auto|]. apply C3; auto.
Qed.

Lemma copyb_list es : Forall (fun br => forall s e' s', copy s (snd br) = (e', s') -> copy_ok s (snd br) e' s') es ->
  forall s es' s', mapS copy_branch s es = (es', s') -> copyb_ok s es es' s'.
Proof.
  induction 1 as [|[[c xs] e] es He _ IH]; simpl; intros s es' s' E.
  - injection E as <- <-. split; simpl; auto; try (intros; contradiction); intros; apply Nat.le_0_l.
  - destruct (copy_branch s (c, xs, e)) as [br' s1] eqn:E1. destruct (mapS copy_branch s1 es) as [es2 s2] eqn:E2. injection E as <- <-.
    unfold copy_branch in E1. simpl in E1. destruct (mapS copy_name s xs) as [ys s0] eqn:E0. destruct (copy s0 e) as [e' s3] eqn:E3.
    injection E1 as <- <-. apply copy_names_ok in E0. apply He in E3. simpl in E3.
    destruct (copy_bound E0 E3) as (A1 & A2 & A3 & A4). apply IH in E2 as [B1 B2 B3 B4 B7 B5 B6].
    assert (HF : forall S, fit S s (fvb ((c, xs, e) :: es)) (bdb ((c, xs, e) :: es)) ->
      fit S s3 (fvb es) (bdb es) /\ forall a, In a S -> ren (c_rn s3) a = ren (c_rn s) a).
    { intros S HS. destruct (@fit_later _ _ s3 _ _ (xs ++ binders e) HS) as [HS1 HR]; auto; [intros x; cbn [flat_map snd fst]; rewrite (cnt_app x (xs ++ _)); lia|].
      split; auto. eapply fit_sub; [exact HS1| |]; intros x; cbn [flat_map snd fst]; rewrite ?in_app_iff, ?(cnt_app x (xs ++ _)); auto; lia. }
    assert (HA : forall S, fit S s (fvb ((c, xs, e) :: es)) (bdb ((c, xs, e) :: es)) ->
      rel (exts (PS S (ren (c_rn s))) xs ys) e e' /\ (forall z, In z (minus (fv e') ys) -> exists x, In x (minus (fv e) xs) /\ z = ren (c_rn s) x)).
    { intros S HS. destruct (A4 _ _ _ HS) as (H1 & H2 & _); auto; intros x; cbn [flat_map snd fst]; rewrite ?in_app_iff, ?(cnt_app x (xs ++ _)); auto; lia. }
    split; cbn [flat_map forallb map fst snd].
    + lia.
    + intros x Hx. rewrite in_app_iff in Hx. rewrite B2, A2; tauto.
    + intros x. rewrite (cnt_app x (ys ++ _)), <- (@rng_split (c_nn s) (c_nn s3)) by lia. specialize (A3 x); specialize (B3 x); lia.
    + intros m. rewrite !andb_true_iff. destruct E3. intuition.
    + congruence.
    + intros S HS. destruct (HF _ HS) as (H1 & H2). constructor; auto.
      * split; [auto|split]; simpl; [|apply HA; auto]. destruct E0 as [_ -> _ _]. rewrite seq_length; auto.
      * eapply Forall2_weak; [|apply (B5 _ H1)]. intros a b (R1 & R2 & R3). repeat split; auto.
        eapply rel_sub; [|exact R3]. apply exts_sub. apply PS_sub. auto.
    + intros S HS z Hz. destruct (HF _ HS) as (H1 & H2). apply in_app_iff in Hz as [Hz|Hz].
      * destruct (HA _ HS) as [_ H4]. destruct (H4 _ Hz) as (x & Hx & ->). exists x. rewrite in_app_iff; auto.
      * destruct (B6 _ H1 _ Hz) as (x & Hx & ->). exists x. rewrite in_app_iff. split; auto. apply H2.
        destruct H1 as (H1 & _). auto.
Qed.

Lemma copied_one s x s1 r : copy_name s x = (r, s1) -> copied s [x] [r] s1.
Proof. intros E. apply copy_names_ok. cbn [mapS]. rewrite E. auto. Qed.
Lemma copied_same s xs ys s1 s2 : copied s xs ys s1 -> same_names s1 s2 -> copied s xs ys s2.
Proof. intros [A1 A2 A3 A4] [N1 N2]. split; rewrite ?N1, ?N2; auto. Qed.

Theorem copy_all : forall e s e' s', copy s e = (e', s') -> copy_ok s e e' s'.
Proof.
  intros e. induction e using expr_ind'; intros s0 e' s' E.
  - injection E as <- <-. apply (@copy_node _ _ _ _ [] []); auto; try discriminate; try (intros; apply rel_bool). apply (@copyl_list []); auto.
  - injection E as <- <-. apply (@copy_node _ _ _ _ [] []); auto; try discriminate; try (intros; apply rel_int). apply (@copyl_list []); auto.
  - injection E as <- <-. apply (@copy_node _ _ _ _ [] []); auto; try discriminate; try (intros; apply rel_str). apply (@copyl_list []); auto.
  - injection E as <- <-. split; auto; try discriminate.
    + intros; apply Nat.le_0_l.
    + intros S HS. apply rel_name. split; auto. destruct HS as (HS & _). apply HS. simpl; auto.
    + intros S HS z [<-|[]]. exists n. simpl; auto.
  - cbn [copy] in E. destruct (copy s0 e) as [a' s1] eqn:E1. destruct (mapS copy s1 args) as [b' s2] eqn:E2. injection E as <- <-.
    apply (@copy_node _ _ _ _ (e :: args) (a' :: b')); auto; try discriminate.
    + apply copyl_list; [constructor; auto|]. simpl. rewrite E1, E2. auto.
    + intros P HP. inversion HP; subst. apply rel_call; auto.
  - cbn [copy] in E. destruct (copy s0 e1) as [a' s1] eqn:E1. destruct (copy s1 e2) as [b' s2] eqn:E2. destruct (copy s2 e3) as [c' s3] eqn:E3. injection E as <- <-.
    apply (@copy_node _ _ _ _ [e1; e2; e3] [a'; b'; c']); auto; try discriminate; simpl; rewrite ?app_nil_r; auto.
    + apply copyl_list; [repeat (apply Forall_cons; [auto|]); apply Forall_nil|]. simpl. rewrite E1, E2, E3. auto.
    + intros m. rewrite andb_true_r, andb_assoc; auto.
    + intros m. rewrite andb_true_r, andb_assoc; auto.
    + intros P HP. inversion_clear HP. inversion_clear H0. inversion_clear H2. apply rel_if; auto.
  - cbn [copy] in E. destruct (copy s0 e1) as [a' s1] eqn:E1. destruct (copy s1 e2) as [b' s2] eqn:E2. injection E as <- <-.
    apply (@copy_node _ _ _ _ [e1; e2] [a'; b']); auto; try discriminate; simpl; rewrite ?app_nil_r; auto.
    + apply copyl_list; [repeat (apply Forall_cons; [auto|]); apply Forall_nil|]. simpl. rewrite E1, E2. auto.
    + intros m. rewrite andb_true_r; auto.
    + intros m. rewrite andb_true_r; auto.
    + intros P HP. inversion_clear HP. inversion_clear H0. apply rel_op; auto.
  - cbn [copy] in E. destruct (mapS copy s0 args) as [b' s2] eqn:E2. injection E as <- <-.
    apply (@copy_node _ _ _ _ args b'); auto; try discriminate.
    + apply copyl_list; auto.
    + intros P HP. apply rel_intr; auto.
  - cbn [copy] in E. destruct (mapS copy_param s0 ps) as [ps' s1] eqn:E1. destruct (copy s1 e) as [a' s2] eqn:E2. injection E as <- <-.
    apply copy_params_ok in E1. apply IHe in E2. destruct (copy_bound E1 E2) as (A1 & A2 & A3 & A4).
    split; cbn [binders fv recs]; auto.
    + apply (k_recs E2).
    + intros S HS. destruct (A4 _ _ _ HS) as (H1 & _); auto. apply rel_lam; auto.
      destruct E1 as [_ C2 _ _]. apply (f_equal (@length _)) in C2. rewrite seq_length, !map_length in C2. auto.
    + intros S HS. destruct (A4 _ _ _ HS) as (_ & H2 & _); auto.
    + intros ps0 f0 Es. simpl. eauto.
    + intros S HS ps0 f0 Es. simpl in Es. injection Es as <- <-.
      destruct (A4 _ _ _ HS) as (_ & _ & H3 & H4 & H5 & H6 & H7); auto.
      exists ps', a', (ren (c_rn s1)). simpl. repeat split; auto. congruence.
  - cbn [copy] in E. change (fun s br => let (xs, s1) := mapS copy_name s (snd (fst br)) in let (v, s2) := copy s1 (snd br) in (fst (fst br), xs, v, s2)) with copy_branch in E.
    destruct (copy s0 e) as [a' s1] eqn:E1. destruct (mapS copy_branch s1 brs) as [b' s2] eqn:E2. injection E as <- <-.
    apply IHe in E1 as [A1 A2 A3 A4 A5 A6 _ _]. apply copyb_list in E2; auto. destruct E2 as [B1 B2 B3 B4 B7 B5 B6].
    assert (HF : forall S, fits S s0 (EMatch e brs) ->
      fits S s0 e /\ fit S s1 (fvb brs) (bdb brs) /\ forall a, In a S -> ren (c_rn s1) a = ren (c_rn s0) a).
    { intros S HS. split.
      - eapply fit_sub; [exact HS| |]; intros x; cbn [fv binders]; rewrite ?in_app_iff, ?cnt_app; auto; lia.
      - destruct (@fit_later _ _ s1 _ _ (binders e) HS) as [HS1 HR]; auto; [intros x; cbn [binders]; rewrite cnt_app; lia|].
        split; auto. eapply fit_sub; [exact HS1| |]; intros x; cbn [fv binders]; rewrite ?in_app_iff, ?cnt_app; auto; lia. }
    split; cbn [binders fv recs]; try discriminate.
    + lia.
    + intros x Hx. rewrite in_app_iff in Hx. rewrite B2, A2; tauto.
    + intros x. rewrite cnt_app, <- (@rng_split (c_nn s0) (c_nn s1)) by lia. specialize (A3 x); specialize (B3 x); lia.
    + intros m. rewrite !andb_true_iff, B7. intuition.
    + intros S HS. destruct (HF _ HS) as (H1 & H2 & H3). apply rel_match; auto.
      eapply Forall2_weak; [|apply (B5 _ H2)]. intros a b (R1 & R2 & R3). repeat split; auto.
      eapply rel_sub; [|exact R3]. apply exts_sub. apply PS_sub. auto.
    + intros S HS z Hz. destruct (HF _ HS) as (H1 & H2 & H3). apply in_app_iff in Hz as [Hz|Hz].
      * destruct (A6 _ H1 _ Hz) as (x & Hx & ->). exists x. rewrite in_app_iff; auto.
      * destruct (B6 _ H2 _ Hz) as (x & Hx & ->). exists x. rewrite in_app_iff. split; auto. apply H3.
        destruct H2 as (H2 & _). auto.
  - cbn [copy] in E. destruct (mapS copy s0 fs) as [b' s1] eqn:E1. destruct (mapS copy_ty s1 tys) as [t' s2] eqn:E2. injection E as <- <-.
    apply (@copy_node _ _ _ _ fs b'); auto; try discriminate.
    + eapply copyl_same; [apply copyl_list; eauto|]. eapply copy_tys_names; eauto.
    + intros P HP. apply rel_construct; auto.
  - cbn [copy] in E. destruct (copy_name s0 n) as [r s1] eqn:E0. destruct (copy s1 e1) as [a' s2] eqn:E1. destruct (copy s2 e2) as [b' s3] eqn:E2. injection E as <- <-.
    apply copied_one in E0. apply IHe1 in E1. apply IHe2 in E2.
    destruct E1 as [A1 A2 A3 A4 A5 A6 _ _]. destruct E2 as [B1 B2 B3 B4 B5 B6 _ _].
    pose proof E0 as [C1 C2 C3 C4]. simpl in C1, C2. injection C2 as C2.
    assert (HF : forall S, fits S s0 (ELet n e1 e2) ->
      fits S s1 e1 /\ fits (n :: S) s2 e2 /\ (forall a, In a S -> ren (c_rn s1) a = ren (c_rn s0) a) /\
      (forall a, In a (n :: S) -> ren (c_rn s2) a = ren (c_rn s1) a) /\ ren (c_rn s1) n = r).
    { intros S HS.
      destruct (@fit_bind _ _ _ _ _ _ _ (fv e2) (binders e1 ++ binders e2) HS E0) as (H1 & H2 & H3 & H4 & H5).
      { intros x Hx. cbn [fv]. rewrite in_app_iff, in_minus. destruct (in_dec Nat.eq_dec x [n]); auto. }
      { intros x. cbn [binders]. rewrite !cnt_cons, cnt_nil. lia. }
      destruct (@fit_later _ _ s2 _ _ (binders e1) H1) as [H6 H7]; auto; [intros x; rewrite cnt_app; lia|].
      split; [|split; [|split; [|split]]]; auto.
      - destruct (@fit_later _ _ s1 _ _ [n] HS) as [H8 _]; auto; [lia|intros x; cbn [binders]; rewrite !cnt_cons, cnt_nil; lia|].
        eapply fit_sub; [exact H8| |]; intros x; cbn [fv binders]; rewrite ?in_app_iff, ?cnt_cons, ?cnt_app; auto; lia.
      - eapply fit_sub; [exact H6| |]; intros x; rewrite ?cnt_app; auto; lia.
      - simpl in H2. congruence. }
    split; cbn [binders fv recs]; try discriminate.
    + lia.
    + intros x Hx. simpl in Hx. rewrite in_app_iff in Hx. rewrite B2, A2, C3; simpl; tauto.
    + intros x. rewrite cnt_cons, cnt_app, <- (@rng_split (c_nn s0) (c_nn s1)), <- (@rng_split (c_nn s1) (c_nn s2)) by lia.
      specialize (A3 x); specialize (B3 x). rewrite C1, Nat.add_1_r, rng_one, C2, <- C2 in *. lia.
    + intros m. rewrite !andb_true_iff. intuition.
    + intros S HS. destruct (HF _ HS) as (H1 & H2 & H3 & H4 & H5). apply rel_let; auto.
      * eapply rel_PS; [|apply A5; auto]. auto.
      * eapply rel_sub; [|apply (B5 _ H2)]. intros a e0 Ha. subst r. rewrite <- H5. eapply ext_sub; [|apply ext_PS].
        -- apply PS_sub. intros b Hb. split; [exact Hb|apply H3; auto].
        -- intros b Hb. rewrite H5, H3 by auto. pose proof (fit_lt HS b Hb). lia.
        -- eapply PS_sub; [|exact Ha]. intros b Hb. split; auto.
    + intros S HS z Hz. destruct (HF _ HS) as (H1 & H2 & H3 & H4 & H5). apply in_app_iff in Hz as [Hz|Hz].
      * destruct (A6 _ H1 _ Hz) as (x & Hx & ->). exists x. rewrite in_app_iff; split; auto. apply H3. destruct H1 as (H1 & _). auto.
      * apply in_minus in Hz as [Hz Hn]. destruct (B6 _ H2 _ Hz) as (x & Hx & ->). destruct H2 as (H2 & _).
        assert (Hxn : x <> n) by (intros ->; apply Hn; rewrite H4, H5; simpl; auto).
        exists x. rewrite in_app_iff, in_minus. split; [right; split; auto; simpl; intuition|]. rewrite H4 by auto. apply H3.
        destruct (H2 _ Hx); [congruence|auto].
  - cbn [copy] in E. destruct (copy_name s0 n) as [r s1'] eqn:E0. destruct (copy_ty s1' t) as [t' s1] eqn:Et. destruct (copy s1 e1) as [a' s2] eqn:E1. destruct (copy s2 e2) as [b' s3] eqn:E2. injection E as <- <-.
    apply copied_one in E0. apply copy_ty_names in Et. apply (fun a => copied_same a Et) in E0. clear s1' Et.
    apply IHe1 in E1. apply IHe2 in E2.
    destruct E1 as [A1 A2 A3 A4 A5 A6 A7 A8]. destruct E2 as [B1 B2 B3 B4 B5 B6 _ _].
    pose proof E0 as [C1 C2 C3 C4]. simpl in C1, C2. injection C2 as C2.
    assert (HF : forall S, fits S s0 (ELetRec n t e1 e2) ->
      fits (n :: S) s1 e1 /\ fits (n :: S) s2 e2 /\ (forall a, In a S -> ren (c_rn s1) a = ren (c_rn s0) a) /\
      (forall a, In a (n :: S) -> ren (c_rn s2) a = ren (c_rn s1) a) /\ ren (c_rn s1) n = r).
    { intros S HS.
      destruct (@fit_bind _ _ _ _ _ _ _ (fv e1 ++ fv e2) (binders e1 ++ binders e2) HS E0) as (H1 & H2 & H3 & H4 & H5).
      { intros x Hx. cbn [fv]. rewrite in_minus. destruct (in_dec Nat.eq_dec x [n]); auto. }
      { intros x. cbn [binders]. rewrite !cnt_cons, cnt_nil. lia. }
      destruct (@fit_later _ _ s2 _ _ (binders e1) H1) as [H6 H7]; auto; [intros x; rewrite cnt_app; lia|].
      split; [|split; [|split; [|split]]]; auto.
      - eapply fit_sub; [exact H1| |]; intros x; rewrite ?in_app_iff, ?cnt_app; auto; lia.
      - eapply fit_sub; [exact H6| |]; intros x; rewrite ?in_app_iff, ?cnt_app; auto; lia.
      - simpl in H2. congruence. }
    split; cbn [binders fv recs]; try discriminate.
    + lia.
    + intros x Hx. simpl in Hx. rewrite in_app_iff in Hx. rewrite B2, A2, C3; simpl; tauto.
    + intros x. rewrite cnt_cons, cnt_app, <- (@rng_split (c_nn s0) (c_nn s1)), <- (@rng_split (c_nn s1) (c_nn s2)) by lia.
      specialize (A3 x); specialize (B3 x). rewrite C1, Nat.add_1_r, rng_one, C2, <- C2 in *. lia.
    + intros m. rewrite !andb_true_iff. intros [[H1 H2] H3]. repeat split; auto.
      destruct (strip_pis e1) eqn:Es; try discriminate. destruct (A7 _ _ eq_refl) as (? & ? & ->). auto.
    + intros S HS. destruct (HF _ HS) as (H1 & H2 & H3 & H4 & H5). subst r.
      destruct (strip_pis e1) as [| | | | | | | |ps f| | | | | | |] eqn:Es; try (apply rel_letrec_bad; intros ? ?; rewrite Es; discriminate).
      destruct (A8 _ H1 _ _ eq_refl) as (ps' & f' & g & Es' & K1 & K2 & K3 & K4 & K5).
      eapply rel_letrec; [exact Es|exact Es'| | |].
      * apply (f_equal (@length _)) in K1. rewrite !map_length in K1. auto.
      * eapply rel_sub; [|exact K5]. intros a e0 Ha. rewrite K1.
        assert (Hgn : g n = c_nn s0) by (rewrite K2 by (simpl; auto); auto). rewrite <- Hgn.
        assert (HD : forall b, In b S -> g b < c_nn s0) by (intros b Hb; rewrite K2, H3 by (simpl; auto); apply (fit_lt HS b Hb)).
        eapply ext_sub with (P := PS (map fst ps ++ S) g).
        -- intros b e3 Hb. eapply exts_sub; [|apply exts_PS; [|exact K4|exact Hb]].
           ++ apply PS_sub. intros c Hc. split; [exact Hc|]. rewrite K2, H3 by (simpl; auto). auto.
           ++ intros x c Hx Hc. specialize (K3 x Hx). specialize (HD c Hc). lia.
        -- apply ext_PS.
           ++ intros b Hb. apply in_app_iff in Hb as [Hb|Hb]; [specialize (K3 b Hb); lia|specialize (HD b Hb); lia].
           ++ eapply PS_sub; [|exact Ha]. intros b Hb. split; auto. rewrite in_app_iff in Hb. simpl in *. rewrite in_app_iff. intuition.
      * eapply rel_sub; [|apply (B5 _ H2)]. intros a e0 Ha. rewrite <- H5. eapply ext_sub; [|apply ext_PS].
        -- apply PS_sub. intros b Hb. split; [exact Hb|apply H3; auto].
        -- intros b Hb. rewrite H5, H3 by auto. pose proof (fit_lt HS b Hb). lia.
        -- eapply PS_sub; [|exact Ha]. intros b Hb. split; auto.
    + intros S HS z Hz. destruct (HF _ HS) as (H1 & H2 & H3 & H4 & H5). apply in_minus in Hz as [Hz Hn]. apply in_app_iff in Hz as [Hz|Hz].
      * destruct (A6 _ H1 _ Hz) as (x & Hx & ->). destruct H1 as (H1 & _).
        assert (Hxn : x <> n) by (intros ->; apply Hn; rewrite H5; simpl; auto).
        exists x. rewrite in_minus, in_app_iff. split; [split; auto; simpl; intuition|]. apply H3. destruct (H1 _ Hx); [congruence|auto].
      * destruct (B6 _ H2 _ Hz) as (x & Hx & ->). destruct H2 as (H2 & _).
        assert (Hxn : x <> n) by (intros ->; apply Hn; rewrite H4, H5; simpl; auto).
        exists x. rewrite in_minus, in_app_iff. split; [split; auto; simpl; intuition|]. rewrite H4 by auto. apply H3.
        destruct (H2 _ Hx); [congruence|auto].
  - cbn [copy] in E. destruct (copy_tyvar s0 v) as [w s1] eqn:E0. destruct (copy s1 e) as [b' s2] eqn:E1. injection E as <- <-.
    unfold copy_tyvar in E0. injection E0 as <- <-. apply IHe in E1 as [A1 A2 A3 A4 A5 A6 A7 A8]. simpl in *.
    split; simpl; auto. intros S HS. apply rel_pi_l, rel_pi_r. apply A5; auto.
  - cbn [copy] in E. destruct (copy s0 e) as [a' s1] eqn:E1. destruct (copy_ty s1 t) as [t' s2] eqn:E2. injection E as <- <-.
    apply (@copy_node _ _ _ _ [e] [a']); auto; try discriminate; simpl; rewrite ?app_nil_r; auto.
    + eapply copyl_same; [apply copyl_list; [apply Forall_cons; [auto|apply Forall_nil]|simpl; rewrite E1; eauto]|]. eapply copy_ty_names; eauto.
    + intros m. rewrite andb_true_r; auto.
    + intros m. rewrite andb_true_r; auto.
    + intros P HP. inversion_clear HP. apply rel_piapp_l, rel_piapp_r; auto.
  - cbn [copy] in E. destruct (copy_ty s0 t) as [t' s1] eqn:E1. injection E as <- <-.
    apply (@copy_node _ _ _ _ [] []); auto; try discriminate; try (intros; apply rel_trap).
    eapply copyl_same; [apply (@copyl_list []); [constructor|reflexivity]|]. eapply copy_ty_names; eauto.
Qed.

(** The copies made by the pass. *)
Lemma create_copy_ok s d d' s' : create_copy s d = (d', s') -> (forall x, In x (fv d) -> x < i_nn s) -> uq d ->
  i_nn s <= i_nn s' /\ i_map s' = i_map s /\ (forall x, cnt x (binders d') <= rng (i_nn s) (i_nn s') x) /\
  (forall m, recs m d = true -> recs m d' = true) /\ (forall x, In x (fv d') -> In x (fv d)) /\ lr d d'.
Proof.
  unfold create_copy. intros E Hl (U1 & U2 & U3). destruct (copy _ d) as [e c] eqn:Ec. injection E as <- <-.
  apply copy_all in Ec as [A1 A2 A3 A4 A5 A6 _ _]. simpl in *.
  assert (HS : fits (fv d) (mkCst (i_nn s) (i_nt s) [] []) d) by (repeat split; auto).
  repeat split; auto.
  - intros x Hx. destruct (A6 _ HS _ Hx) as (y & Hy & ->). auto.
  - unfold lr. eapply rel_sub; [|apply (A5 _ HS)]. intros a e0 [_ ->]. reflexivity.
Qed.
