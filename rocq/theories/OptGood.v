(** What a rewriting step has to satisfy, and that the optimiser's traversals then satisfy it. *)
From Verif Require Import EvalFacts Orders Compile CompileStatic Wf Vm OptEv OptRel OptWalk.
Set Implicit Arguments.

(** ** Relations preserved by every constructor *)
Record cong (R : expr -> expr -> Prop) : Prop := {
  c_refl : forall e, R e e;
  c_trans : forall a b c, R a b -> R b c -> R a c;
  c_call : forall f f' es es', R f f' -> Forall2 R es es' -> R (ECall f es) (ECall f' es');
  c_if : forall a b c a' b' c', R a a' -> R b b' -> R c c' -> R (EIf a b c) (EIf a' b' c');
  c_op : forall a o b a' b', R a a' -> R b b' -> R (EOp a o b) (EOp a' o b');
  c_intr : forall i es es', Forall2 R es es' -> R (EIntr i es) (EIntr i es');
  c_construct : forall c ts ts' es es', Forall2 R es es' -> R (EConstruct c ts es) (EConstruct c ts' es');
  c_lam : forall ps ps' b b', map fst ps = map fst ps' -> R b b' -> R (ELam ps b) (ELam ps' b');
  c_match : forall d d' brs brs', R d d' -> Forall2 (fun br br' => fst br = fst br' /\ R (snd br) (snd br')) brs brs' ->
    R (EMatch d brs) (EMatch d' brs');
  c_let : forall x a a' b b', R a a' -> R b b' -> R (ELet x a b) (ELet x a' b');
  c_letrec : forall x t t' a a' ps ps' f f' b b', strip_pis a = ELam ps f -> strip_pis a' = ELam ps' f' ->
    map fst ps = map fst ps' -> R f f' -> R b b' -> R (ELetRec x t a b) (ELetRec x t' a' b');
  c_pi : forall t t' e e', R e e' -> R (EPi t e) (EPi t' e');
  c_piapp : forall t t' e e', R e e' -> R (EPiApp e t) (EPiApp e' t');
  c_trap : forall m t t', R (ETrap m t) (ETrap m t')
}.

Definition lr (e e' : expr) : Prop := rel idP e e'.
Definition eqv (e e' : expr) : Prop := lr e e' /\ lr e' e.

Lemma cong_lr : cong lr.
Proof.
  split; unfold lr; intros; auto using rel_refl, rel_call, rel_if, rel_op, rel_intr, rel_construct, cong_match, cong_let, cong_pi, cong_piapp, rel_trap.
  - eapply rel_trans; eauto.
  - apply rel_lam; [rewrite <- (map_length fst ps), H, map_length; auto|]. rewrite <- H. eapply rel_sub; [|exact H0]. apply idP_exts.
  - eapply cong_letrec; eauto.
Qed.

Lemma F2_and {A B} (R S : A -> B -> Prop) l l' : Forall2 (fun a b => R a b /\ S a b) l l' -> Forall2 R l l' /\ Forall2 S l l'.
Proof. induction 1 as [|? ? ? ? []]; intuition. Qed.
Lemma F2_flip {A B} (R : A -> B -> Prop) l l' : Forall2 R l l' -> Forall2 (fun b a => R a b) l' l.
Proof. induction 1; auto. Qed.
Lemma F2_eqv es es' : Forall2 eqv es es' -> Forall2 lr es es' /\ Forall2 lr es' es.
Proof. intros H. apply F2_and in H as [H1 H2]. split; auto. apply F2_flip in H2. auto. Qed.

Lemma cong_eqv : cong eqv.
Proof.
  destruct cong_lr. split; intros;
    repeat match goal with H : Forall2 eqv _ _ |- _ => apply F2_eqv in H as [? ?] | H : eqv _ _ |- _ => destruct H end;
    try (split; auto; fail).
  - split; eapply c_trans0; eauto.
  - assert (HH : Forall2 (fun br br' => fst br = fst br' /\ lr (snd br) (snd br')) brs brs' /\
                 Forall2 (fun br br' => fst br = fst br' /\ lr (snd br) (snd br')) brs' brs).
    { clear - H0. induction H0 as [|? ? ? ? [? []] _ [IH1 IH2]]; split; auto. }
    destruct HH. split; auto.
  - split; eapply c_letrec0; eauto.
Qed.

(** ** Bound and free names *)
Definition cnt (x : name) (l : list name) : nat := count_occ Nat.eq_dec l x.
Lemma cnt_app x a b : cnt x (a ++ b) = cnt x a + cnt x b.
Proof. apply count_occ_app. Qed.
Lemma cnt_in x l : In x l <-> 1 <= cnt x l.
Proof. apply count_occ_In. Qed.
Lemma cnt_cons x y l : cnt x (y :: l) = (if Nat.eq_dec y x then 1 else 0) + cnt x l.
Proof. unfold cnt; simpl. destruct (Nat.eq_dec y x); auto. Qed.
Lemma cnt_nil x : cnt x [] = 0. Proof. reflexivity. Qed.

(** Recursive definitions are (type abstracted) functions and, if [m], no match has two branches for the
    same constructor. *)
Fixpoint recs (m : bool) (e : expr) : bool :=
  match e with
  | EBool _ | EInt _ | EString _ | ETrap _ _ | EName _ => true
  | ECall f args => recs m f && forallb (recs m) args
  | EIf c t e => recs m c && recs m t && recs m e
  | EOp a _ b => recs m a && recs m b
  | EIntr _ args => forallb (recs m) args
  | ELam _ b => recs m b
  | EMatch d brs => recs m d && forallb (fun br => recs m (snd br)) brs && (negb m || nodupb (map (fun br => fst (fst br)) brs))
  | EConstruct _ _ fs => forallb (recs m) fs
  | ELet _ v e => recs m v && recs m e
  | ELetRec _ _ v e => match strip_pis v with ELam _ _ => true | _ => false end && recs m v && recs m e
  | EPi _ e => recs m e
  | EPiApp e _ => recs m e
  end.

Definition uq (e : expr) : Prop :=
  (forall x, cnt x (binders e) <= 1) /\ (forall x, In x (binders e) -> ~ In x (fv e)) /\ recs false e = true.
Record tame (e e' : expr) : Prop := {
  t_cnt : forall x, cnt x (binders e') <= cnt x (binders e);
  t_fv : forall x, In x (fv e') -> In x (fv e);
  t_rec : forall m, recs m e = true -> recs m e' = true
}.

Lemma tame_refl e : tame e e. Proof. split; auto. Qed.
Lemma tame_trans a b c : tame a b -> tame b c -> tame a c.
Proof. intros [A1 A2 A3] [B1 B2 B3]. split; auto. intros x. specialize (A1 x); specialize (B1 x); lia. Qed.
Lemma uq_tame e e' : uq e -> tame e e' -> uq e'.
Proof.
  intros (U1 & U2 & U3) [T1 T2 T3]. repeat split; auto.
  - intros x. specialize (T1 x); specialize (U1 x); lia.
  - intros x Hx Hf. apply (U2 x); auto. apply cnt_in in Hx. apply cnt_in. specialize (T1 x); lia.
Qed.

(** ** Subexpressions *)
Definition child (c e : expr) : Prop :=
  match e with
  | EBool _ | EInt _ | EString _ | EName _ | ETrap _ _ => False
  | ECall a b => c = a \/ In c b
  | EIntr _ b => In c b
  | EOp a _ b | ELet _ a b | ELetRec _ _ a b => c = a \/ c = b
  | EIf a b d => c = a \/ c = b \/ c = d
  | ELam _ a | EPi _ a | EPiApp a _ => c = a
  | EMatch a bs => c = a \/ In c (map snd bs)
  | EConstruct _ _ xs => In c xs
  end.

Lemma cnt_flat {A} (f : A -> list name) x a l : In a l -> cnt x (f a) <= cnt x (flat_map f l).
Proof.
  induction l as [|b l IH]; simpl; intros []; subst; rewrite cnt_app; [lia|]. specialize (IH H); lia.
Qed.

Lemma uq_child c e : child c e -> uq e -> uq c.
Proof.
  intros Hc (U1 & U2 & U3).
  assert (HC : (forall x, cnt x (binders c) <= cnt x (binders e)) /\
               (forall x, In x (fv c) -> In x (fv e) \/ (In x (binders e) /\ ~ In x (binders c))) /\ recs false c = true).
  { assert (HL : forall l, In c l -> (forall x, cnt x (binders c) <= cnt x (flat_map binders l)) /\
                    (forall x, In x (fv c) -> In x (flat_map fv l)) /\ (forall m, forallb (recs m) l = true -> recs m c = true)).
    { intros l Hl. split; [intros; apply cnt_flat; auto|]. split.
      - intros x Hx. apply in_flat_map. eauto.
      - intros m Hf. rewrite forallb_forall in Hf. auto. }
    destruct e; simpl in Hc; try contradiction.
    - cbn [binders fv recs] in *. apply andb_true_iff in U3 as [R1 R2]. destruct Hc as [->|Hc].
      + split; [intros; rewrite cnt_app; lia|]. split; auto. intros x Hx; left; apply in_or_app; auto.
      + destruct (HL _ Hc) as (H1 & H2 & H3). split; [intros; rewrite cnt_app; specialize (H1 x); lia|]. split; auto.
        intros x Hx; left; apply in_or_app; auto.
    - cbn [binders fv recs] in *. rewrite !andb_true_iff in U3. destruct U3 as [[? ?] ?].
      destruct Hc as [->|[->| ->]]; (split; [intros; rewrite !cnt_app; lia|]; split; auto; intros x Hx; left; rewrite !in_app_iff; auto).
    - cbn [binders fv recs] in *. rewrite !andb_true_iff in U3. destruct U3 as [? ?].
      destruct Hc as [->| ->]; (split; [intros; rewrite !cnt_app; lia|]; split; auto; intros x Hx; left; rewrite !in_app_iff; auto).
    - cbn [binders fv recs] in *. destruct (HL _ Hc) as (H1 & H2 & H3). auto.
    - subst. cbn [binders fv recs] in *. split; [intros; rewrite cnt_app; lia|]. split; auto.
      intros x Hx. destruct (in_dec Nat.eq_dec x (map fst ps)) as [Hi|Hi]; [right|left; apply in_minus; auto].
      split; [apply in_or_app; auto|]. intros Hb. specialize (U1 x). rewrite cnt_app in U1.
      apply cnt_in in Hi; apply cnt_in in Hb. lia.
    - cbn [binders fv recs] in *. rewrite !andb_true_iff in U3. destruct U3 as [[R1 R2] _]. destruct Hc as [->|Hc].
      + split; [intros; rewrite cnt_app; lia|]. split; auto. intros x Hx; left; apply in_or_app; auto.
      + apply in_map_iff in Hc as ([[cc bs] b] & <- & Hin). simpl.
        set (F := fun br : name * list name * expr => snd (fst br) ++ binders (snd br)) in *.
        assert (HF : forall x, cnt x bs + cnt x (binders b) <= cnt x (flat_map F brs)).
        { intros x. pose proof (@cnt_flat _ F x _ _ Hin) as H. unfold F at 1 in H. simpl in H. rewrite cnt_app in H. auto. }
        split; [intros; rewrite cnt_app; specialize (HF x); lia|]. split.
        * intros x Hx. destruct (in_dec Nat.eq_dec x bs) as [Hi|Hi].
          -- right. specialize (HF x). apply cnt_in in Hi. split.
             ++ apply cnt_in. rewrite cnt_app. lia.
             ++ intros Hb. apply cnt_in in Hb. specialize (U1 x). rewrite cnt_app in U1. lia.
          -- left. apply in_or_app. right. apply in_flat_map. eexists; split; eauto. simpl. apply in_minus; auto.
        * rewrite forallb_forall in R2. apply (R2 _ Hin).
    - cbn [binders fv recs] in *. destruct (HL _ Hc) as (H1 & H2 & H3). auto.
    - cbn [binders fv recs] in *. apply andb_true_iff in U3 as [R1 R2]. destruct Hc as [->| ->].
      + split; [intros; rewrite cnt_cons, cnt_app; lia|]. split; auto. intros x Hx; left; apply in_or_app; auto.
      + split; [intros; rewrite cnt_cons, cnt_app; lia|]. split; auto. intros x Hx.
        destruct (Nat.eq_dec n x) as [<-|Hn].
        * right. split; [left; auto|]. intros Hb. apply cnt_in in Hb. specialize (U1 n). rewrite cnt_cons, cnt_app in U1.
          destruct (Nat.eq_dec n n); [lia|congruence].
        * left. apply in_or_app. right. apply in_minus. split; auto. simpl; intuition.
    - cbn [binders fv recs] in *. rewrite !andb_true_iff in U3. destruct U3 as [[_ R1] R2].
      assert (HN : forall x, In x (fv e1 ++ fv e2) -> ~ In x (binders c) \/ x <> n -> In x (minus (fv e1 ++ fv e2) [n]) \/ (In x (n :: binders e1 ++ binders e2) /\ ~ In x (binders c))).
      { intros x Hx Ho. destruct (Nat.eq_dec n x) as [<-|Hn]; [right; split; [left; auto|tauto]|].
        left. apply in_minus. split; auto. simpl; intuition. }
      assert (Hnb : ~ In n (binders e1) /\ ~ In n (binders e2)).
      { specialize (U1 n). rewrite cnt_cons, cnt_app in U1. destruct (Nat.eq_dec n n); [|congruence].
        rewrite !cnt_in. lia. }
      destruct Hc as [->| ->]; (split; [intros; rewrite cnt_cons, cnt_app; lia|]; split; auto; intros x Hx;
        apply HN; [apply in_or_app; auto|]; destruct (Nat.eq_dec x n) as [->|]; tauto).
    - subst. cbn [binders fv recs] in *. auto.
    - subst. cbn [binders fv recs] in *. auto. }
  destruct HC as (C1 & C2 & C3). repeat split; auto.
  - intros x. specialize (C1 x); specialize (U1 x); lia.
  - intros x Hb Hx. destruct (C2 _ Hx) as [H|[_ H]]; auto.
    apply (U2 x); auto. apply cnt_in. apply cnt_in in Hb. specialize (C1 x). lia.
Qed.

(** ** Good steps *)
Section Good.
  Variable R : expr -> expr -> Prop.
  Hypothesis HR : cong R.

  Definition good (e e' : expr) : Prop :=
    R e e' /\ tame e e' /\
    (forall ps b, strip_pis e = ELam ps b -> exists ps' b', strip_pis e' = ELam ps' b' /\ map fst ps = map fst ps' /\ R b b').

  Lemma good_refl e : good e e.
  Proof. split; [apply (c_refl HR)|split; [apply tame_refl|]]. intros ps b E. exists ps, b. repeat split; auto. apply (c_refl HR). Qed.
  Lemma good_trans a b c : good a b -> good b c -> good a c.
  Proof.
    intros (A1 & A2 & A3) (B1 & B2 & B3). split; [eapply (c_trans HR); eauto|split; [apply (tame_trans A2 B2)|]].
    intros ps x E. destruct (A3 _ _ E) as (p2 & b2 & E2 & M2 & H2). destruct (B3 _ _ E2) as (p3 & b3 & E3 & M3 & H3).
    exists p3, b3. repeat split; [auto|congruence|]. eapply (c_trans HR); eauto.
  Qed.
  (** A step that does not start from a function only needs the first two parts. *)
  Lemma good_head e e' : R e e' -> tame e e' -> (forall ps b, strip_pis e <> ELam ps b) -> good e e'.
  Proof. intros H1 H2 H3. split; [auto|split; [auto|]]. intros ps b E. exfalso. eapply H3; eauto. Qed.

  Lemma tame_list es es' : Forall2 tame es es' ->
    (forall x, cnt x (flat_map binders es') <= cnt x (flat_map binders es)) /\
    (forall x, In x (flat_map fv es') -> In x (flat_map fv es)) /\ (forall m, forallb (recs m) es = true -> forallb (recs m) es' = true).
  Proof.
    induction 1 as [|e e' es es' [T1 T2 T3] _ (I1 & I2 & I3)]; simpl; auto. split; [|split].
    - intros x. rewrite !cnt_app. specialize (T1 x); specialize (I1 x); lia.
    - intros x. rewrite !in_app_iff. intros []; auto.
    - intros m; rewrite !andb_true_iff. intros []; auto.
  Qed.

  Definition Good (g : expr -> option expr) (e : expr) : Prop := forall e', uq e -> g e = Some e' -> good e e'.

  Lemma omap_F2 {A B} (g : A -> option B) l : forall l', omap g l = Some l' -> Forall2 (fun a b => g a = Some b) l l'.
  Proof.
    induction l as [|a l IH]; simpl; intros l' H; [injection H as <-; auto|].
    destruct (g a) eqn:E; simpl in H; [|discriminate]. destruct (omap g l) eqn:E2; simpl in H; [|discriminate].
    injection H as <-. auto.
  Qed.

  Lemma good_list g e es es' : (forall c, In c es -> child c e) -> uq e -> (forall c, child c e -> Good g c) ->
    omap g es = Some es' -> Forall2 good es es'.
  Proof.
    intros Hc Hu Hg H. apply omap_F2 in H.
    assert (Hx : forall c c', In c es -> g c = Some c' -> good c c') by (intros c c' Hin E; apply Hg; eauto using uq_child).
    clear - H Hx. induction H; auto. constructor; [apply Hx; simpl; auto|]. apply IHForall2. intros; apply Hx; simpl; auto.
  Qed.
  Lemma goods_R es es' : Forall2 good es es' -> Forall2 R es es' /\ Forall2 tame es es'.
  Proof. intros H. split; eapply Forall2_weak; try exact H; intros a b (? & ? & ?); auto. Qed.

  Ltac step H := match type of H with obind ?r _ = Some _ =>
    let E := fresh "E" in destruct r eqn:E; simpl in H; [|discriminate H] end.

  Lemma children_good g e e' : uq e -> (forall c, child c e -> Good g c) -> children g e = Some e' -> good e e'.
  Proof.
    intros Hu Hg H.
    assert (HG1 : forall c c', child c e -> g c = Some c' -> good c c') by (intros c c' Hc E; apply Hg; eauto using uq_child).
    destruct e; simpl in H; try (injection H as <-; apply good_refl).
    - step H. step H. injection H as <-. destruct (HG1 _ _ (or_introl eq_refl) E) as (A1 & A2 & _).
      eapply (@good_list g (ECall e args)) in E0; auto; [|simpl; auto]. apply goods_R in E0 as [B1 B2].
      apply tame_list in B2 as (C1 & C2 & C3). destruct A2 as [A2 A3 A4].
      apply good_head; [apply (c_call HR); auto| |discriminate]. split; simpl.
      + intros x. rewrite !cnt_app. specialize (A2 x); specialize (C1 x); lia.
      + intros x. rewrite !in_app_iff. intros []; auto.
      + intros m; rewrite !andb_true_iff. intros []; auto.
    - step H. step H. step H. injection H as <-.
      destruct (HG1 _ _ (or_introl eq_refl) E) as (A1 & [A2 A3 A4] & _).
      destruct (HG1 _ _ (or_intror (or_introl eq_refl)) E0) as (B1 & [B2 B3 B4] & _).
      destruct (HG1 _ _ (or_intror (or_intror eq_refl)) E1) as (C1 & [C2 C3 C4] & _).
      apply good_head; [apply (c_if HR); auto| |discriminate]. split; simpl.
      + intros x. rewrite !cnt_app. specialize (A2 x); specialize (B2 x); specialize (C2 x); lia.
      + intros x. rewrite !in_app_iff. intuition.
      + intros m; rewrite !andb_true_iff. intuition.
    - step H. step H. injection H as <-.
      destruct (HG1 _ _ (or_introl eq_refl) E) as (A1 & [A2 A3 A4] & _).
      destruct (HG1 _ _ (or_intror eq_refl) E0) as (B1 & [B2 B3 B4] & _).
      apply good_head; [apply (c_op HR); auto| |discriminate]. split; simpl.
      + intros x. rewrite !cnt_app. specialize (A2 x); specialize (B2 x); lia.
      + intros x. rewrite !in_app_iff. intuition.
      + intros m; rewrite !andb_true_iff. intuition.
    - step H. injection H as <-. eapply (@good_list g (EIntr i args)) in E; auto. apply goods_R in E as [B1 B2].
      apply tame_list in B2 as (C1 & C2 & C3).
      apply good_head; [apply (c_intr HR); auto| |discriminate]. split; simpl; auto.
    - step H. injection H as <-. destruct (HG1 _ _ eq_refl E) as (A1 & [A2 A3 A4] & A5).
      split; [apply (c_lam HR); auto|]. split.
      + split; simpl; auto.
        * intros x. rewrite !cnt_app. specialize (A2 x); lia.
        * intros x. rewrite !in_minus. intuition.
      + simpl. intros ps' b' Eq. injection Eq as <- <-. eauto.
    - step H. step H. injection H as <-. destruct (HG1 _ _ (or_introl eq_refl) E) as (A1 & [A2 A3 A4] & _).
      apply omap_F2 in E0.
      assert (HB : Forall2 (fun br br' => fst br = fst br' /\ good (snd br) (snd br')) brs l).
      { assert (Hx : forall br c', In br brs -> g (snd br) = Some c' -> good (snd br) c').
        { intros br c' Hin Eg. apply HG1; auto. simpl. right. apply in_map; auto. }
        clear - E0 Hx. induction E0 as [|br br' l l' Hb _ IH]; auto. constructor.
        - destruct (g (snd br)) eqn:Eg; simpl in Hb; [|discriminate]. injection Hb as <-. simpl. split; auto. apply Hx; simpl; auto.
        - apply IH. intros; apply Hx; simpl; auto. }
      apply good_head; [| |discriminate].
      + apply (c_match HR); auto. eapply Forall2_weak; [|exact HB]. intros a b [? [? ?]]; auto.
      + assert (HT : (forall x, cnt x (flat_map (fun br => snd (fst br) ++ binders (snd br)) l) <= cnt x (flat_map (fun br => snd (fst br) ++ binders (snd br)) brs)) /\
           (forall x, In x (flat_map (fun br => minus (fv (snd br)) (snd (fst br))) l) -> In x (flat_map (fun br => minus (fv (snd br)) (snd (fst br))) brs)) /\
           (forall m, forallb (fun br => recs m (snd br)) brs = true -> forallb (fun br => recs m (snd br)) l = true)).
        { clear - HB. induction HB as [|br br' l l' [Eq (_ & [T1 T2 T3] & _)] _ (I1 & I2 & I3)]; simpl; auto. split; [|split].
          - intros x. rewrite !cnt_app, Eq. specialize (T1 x); specialize (I1 x); lia.
          - intros x. rewrite !in_app_iff, Eq. intros [Hm|]; auto. left. apply in_minus in Hm as []. apply in_minus; auto.
          - intros m; rewrite !andb_true_iff. intros []; auto. }
        destruct HT as (C1 & C2 & C3).
        assert (HM : map (fun br => fst (fst br)) l = map (fun br : name * list name * expr => fst (fst br)) brs).
        { clear - HB. induction HB as [|br br' l l' [Eq _] _ IH]; simpl; congruence. }
        split; cbn [binders fv recs].
        * intros x. rewrite !cnt_app. specialize (A2 x); specialize (C1 x); lia.
        * intros x. rewrite !in_app_iff. intros []; auto.
        * intros m; rewrite !andb_true_iff, HM. intros [[] ]; auto.
    - step H. injection H as <-. eapply (@good_list g (EConstruct c tys fields)) in E; auto. apply goods_R in E as [B1 B2].
      apply tame_list in B2 as (C1 & C2 & C3).
      apply good_head; [apply (c_construct HR); auto| |discriminate]. split; simpl; auto.
    - step H. step H. injection H as <-.
      destruct (HG1 _ _ (or_introl eq_refl) E) as (A1 & [A2 A3 A4] & _).
      destruct (HG1 _ _ (or_intror eq_refl) E0) as (B1 & [B2 B3 B4] & _).
      apply good_head; [apply (c_let HR); auto| |discriminate]. split; cbn [binders fv recs].
      + intros x. rewrite !cnt_cons, !cnt_app. specialize (A2 x); specialize (B2 x); lia.
      + intros x. rewrite !in_app_iff, !in_minus. intuition.
      + intros m; rewrite !andb_true_iff. intuition.
    - step H. step H. injection H as <-.
      destruct (HG1 _ _ (or_introl eq_refl) E) as (A1 & [A2 A3 A4] & A5).
      destruct (HG1 _ _ (or_intror eq_refl) E0) as (B1 & [B2 B3 B4] & _).
      destruct Hu as (_ & _ & Hu). cbn [recs] in Hu. rewrite !andb_true_iff in Hu. destruct Hu as [[Hu _] _].
      destruct (strip_pis e1) as [| | | | | | | |ps f| | | | | | |] eqn:Es; try discriminate.
      destruct (A5 _ _ eq_refl) as (ps' & f' & Es' & Hm & Hf).
      apply good_head; [eapply (c_letrec HR); eauto| |discriminate]. split; cbn [binders fv recs].
      + intros x. rewrite !cnt_cons, !cnt_app. specialize (A2 x); specialize (B2 x); lia.
      + intros x. rewrite !in_minus, !in_app_iff. intuition.
      + intros m. rewrite Es, Es', !andb_true_iff. intuition.
    - step H. injection H as <-. destruct (HG1 _ _ eq_refl E) as (A1 & [A2 A3 A4] & A5).
      split; [apply (c_pi HR); auto|]. split; [split; simpl; auto|]. simpl. auto.
    - step H. injection H as <-. destruct (HG1 _ _ eq_refl E) as (A1 & [A2 A3 A4] & A5).
      apply good_head; [apply (c_piapp HR); auto| |discriminate]. split; simpl; auto.
  Qed.

  (** ** The traversals *)
  Lemma child_ind (P : expr -> Prop) : (forall e, (forall c, child c e -> P c) -> P e) -> forall e, P e.
  Proof.
    intros HP e. induction e using expr_ind'; apply HP; simpl; intros cc Hc; try contradiction; subst; auto.
    - destruct Hc as [->|Hc]; auto. rewrite Forall_forall in H; auto.
    - destruct Hc as [->|[->| ->]]; auto.
    - destruct Hc as [->| ->]; auto.
    - rewrite Forall_forall in H; auto.
    - destruct Hc as [->|Hc]; auto. rewrite Forall_forall in H. apply in_map_iff in Hc as (br & <- & Hin). auto.
    - rewrite Forall_forall in H; auto.
    - destruct Hc as [->| ->]; auto.
    - destruct Hc as [->| ->]; auto.
  Qed.

  Lemma post_eq f e : post f e = (do e' <- children (post f) e ; f e').
  Proof. destruct e; reflexivity. Qed.

  Theorem post_good f : (forall e e', uq e -> f e = Some e' -> good e e') -> forall e, Good (post f) e.
  Proof.
    intros Hf e. induction e as [e IH] using child_ind. intros e' Hu H. rewrite post_eq in H.
    destruct (children (post f) e) as [e1|] eqn:E; simpl in H; [|discriminate].
    assert (Hg : good e e1) by (eapply children_good; eauto).
    eapply good_trans; [exact Hg|]. apply Hf; auto. eapply uq_tame; [exact Hu|apply Hg].
  Qed.

  Theorem pre_good f (Inv : expr -> Prop) : (forall c e, child c e -> Inv e -> Inv c) ->
    (forall e e', uq e -> Inv e -> f e = Some e' -> good e e' /\ Inv e') ->
    forall n e e', Inv e -> uq e -> pre_fuel f n e = Some e' -> good e e'.
  Proof.
    intros Hc Hf n. induction n as [|n IH]; intros e e' Hi Hu H; simpl in H.
    - injection H as <-. apply good_refl.
    - destruct (f e) as [e1|] eqn:E; simpl in H; [|discriminate].
      destruct (Hf _ _ Hu Hi E) as [Hg Hi1]. eapply good_trans; [exact Hg|].
      assert (Hu1 : uq e1) by (eapply uq_tame; [exact Hu|apply Hg]).
      eapply children_good; eauto. intros c Hcc c' Hcu Hce. apply IH; auto. eapply Hc; eauto.
  Qed.
End Good.
