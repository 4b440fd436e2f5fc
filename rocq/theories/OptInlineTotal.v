(** The pass inline terminates. *)
From Verif Require Import EvalFacts Orders Compile CompileStatic Wf Vm OptEv OptRel OptWalk OptGood OptPasses OptLaws OptProg OptInline OptCopy OptRelD OptInlineOk.
Set Implicit Arguments.

(** The size an expression can grow to when every name is replaced by what it stands for. *)
Definition upd (ρ : name -> nat) (xs : list name) (w : nat) : name -> nat := fun y => if mem y xs then w else ρ y.
Fixpoint wt (ρ : name -> nat) (e : expr) : nat :=
  match e with
  | EBool _ | EInt _ | EString _ | ETrap _ _ => 1
  | EName n => S (ρ n)
  | ECall f args => S (wt ρ f + list_sum (map (wt ρ) args))
  | EIf a b c => S (wt ρ a + wt ρ b + wt ρ c)
  | EOp a _ b => S (wt ρ a + wt ρ b)
  | EIntr _ args => S (list_sum (map (wt ρ) args))
  | ELam ps b => S (wt (upd ρ (map fst ps) 0) b)
  | EMatch a bs => S (wt ρ a + list_sum (map (fun br => wt (upd ρ (snd (fst br)) 0) (snd br)) bs))
  | EConstruct _ _ args => S (list_sum (map (wt ρ) args))
  | ELet n a b => S (wt ρ a + wt (upd ρ [n] (wt ρ a)) b)
  | ELetRec n _ a b => S (wt (upd ρ [n] 0) a + wt (upd ρ [n] 0) b)
  | EPi _ a | EPiApp a _ => S (wt ρ a)
  end.
Definition upto (S : list name) (ρ ρ' : name -> nat) : Prop := forall x, In x S -> ρ x <= ρ' x.

Lemma list_sum_le {A} (f g : A -> nat) l : (forall a, In a l -> f a <= g a) -> list_sum (map f l) <= list_sum (map g l).
Proof. induction l as [|a l IH]; simpl; intros H; auto. pose proof (H a (or_introl eq_refl)). assert (list_sum (map f l) <= list_sum (map g l)) by (apply IH; auto). lia. Qed.

Lemma upd_le S ρ ρ' xs w w' l : (forall x, In x (minus l xs) -> In x S) -> upto S ρ ρ' -> w <= w' -> upto l (upd ρ xs w) (upd ρ' xs w').
Proof.
  intros H Hu Hw x Hx. unfold upd. destruct (mem x xs) eqn:E; auto. apply Hu, H. apply in_minus. split; auto.
  intros Hi. apply mem_In in Hi. congruence.
Qed.
Lemma wt_le e : forall ρ ρ', upto (fv e) ρ ρ' -> wt ρ e <= wt ρ' e.
Proof.
  assert (HL : forall es, Forall (fun e => forall ρ ρ', upto (fv e) ρ ρ' -> wt ρ e <= wt ρ' e) es -> forall ρ ρ', upto (flat_map fv es) ρ ρ' ->
    list_sum (map (wt ρ) es) <= list_sum (map (wt ρ') es)).
  { intros es HF ρ ρ' Hu. apply list_sum_le. intros a Ha. rewrite Forall_forall in HF. apply HF; auto. intros x Hx. apply Hu. apply in_flat_map. eauto. }
  assert (HU : forall a b ρ ρ', upto (a ++ b) ρ ρ' -> upto a ρ ρ' /\ upto b ρ ρ').
  { intros a b ρ ρ' H. split; intros x Hx; apply H; apply in_or_app; auto. }
  induction e using expr_ind'; intros ρ ρ' Hu; cbn [wt fv] in *; auto.
  - specialize (Hu n (or_introl eq_refl)). lia.
  - apply HU in Hu as [H1 H2]. specialize (IHe _ _ H1). specialize (HL _ H _ _ H2). lia.
  - apply HU in Hu as [H1 H2]. apply HU in H2 as [H2 H3]. specialize (IHe1 _ _ H1). specialize (IHe2 _ _ H2). specialize (IHe3 _ _ H3). lia.
  - apply HU in Hu as [H1 H2]. specialize (IHe1 _ _ H1). specialize (IHe2 _ _ H2). lia.
  - specialize (HL _ H _ _ Hu). lia.
  - apply le_n_S. apply IHe. eapply upd_le; eauto.
  - apply HU in Hu as [H1 H2]. specialize (IHe _ _ H1).
    assert (list_sum (map (fun br => wt (upd ρ (snd (fst br)) 0) (snd br)) brs) <= list_sum (map (fun br => wt (upd ρ' (snd (fst br)) 0) (snd br)) brs)); [|lia].
    apply list_sum_le. intros br Hbr. rewrite Forall_forall in H. apply H; auto. eapply upd_le; [|exact H2|auto].
    intros x Hx. apply in_flat_map; eauto.
  - specialize (HL _ H _ _ Hu). lia.
  - apply HU in Hu as [H1 H2]. specialize (IHe1 _ _ H1).
    assert (wt (upd ρ [n] (wt ρ e1)) e2 <= wt (upd ρ' [n] (wt ρ' e1)) e2); [|lia]. apply IHe2. eapply upd_le; eauto.
  - assert (wt (upd ρ [n] 0) e1 <= wt (upd ρ' [n] 0) e1).
    { apply IHe1. eapply upd_le; [|exact Hu|auto]. intros x Hx. apply in_minus in Hx as [Hx Hn]. apply in_minus. split; auto. apply in_or_app; auto. }
    assert (wt (upd ρ [n] 0) e2 <= wt (upd ρ' [n] 0) e2); [|lia].
    { apply IHe2. eapply upd_le; [|exact Hu|auto]. intros x Hx. apply in_minus in Hx as [Hx Hn]. apply in_minus. split; auto. apply in_or_app; auto. }
  - specialize (IHe _ _ Hu). lia.
  - specialize (IHe _ _ Hu). lia.
Qed.
Lemma wt_pos ρ e : 1 <= wt ρ e.
Proof. destruct e; simpl; lia. Qed.
Lemma wt_ext e ρ ρ' : (forall x, In x (fv e) -> ρ x = ρ' x) -> wt ρ e = wt ρ' e.
Proof. intros H. apply Nat.le_antisymm; apply wt_le; intros x Hx; rewrite H; auto. Qed.

(** ** Copies weigh the same *)
Definition wcopy (s : cst) (e e' : expr) : Prop := forall S ρ ρ', fits S s e -> (forall a, In a S -> ρ' (ren (c_rn s) a) = ρ a) -> wt ρ' e' = wt ρ e.
Definition wcopyl (s : cst) (es es' : list expr) : Prop := forall S ρ ρ', fit S s (flat_map fv es) (flat_map binders es) ->
  (forall a, In a S -> ρ' (ren (c_rn s) a) = ρ a) -> map (wt ρ') es' = map (wt ρ) es.
Lemma wcopyl_list es : Forall (fun e => forall s e' s', copy s e = (e', s') -> wcopy s e e') es ->
  forall s es' s', mapS copy s es = (es', s') -> wcopyl s es es'.
Proof.
  induction 1 as [|e es He _ IH]; cbn [mapS]; intros s es' s' E S ρ ρ' HS Hρ; cbn [flat_map] in HS.
  - injection E as <- <-. auto.
  - destruct (copy s e) as [e1 s1] eqn:E1. destruct (mapS copy s1 es) as [es2 s2] eqn:E2. injection E as <- <-.
    destruct (copy_all _ _ E1) as [A1 A2 _ _ _ _ _ _]. cbn [map]. f_equal.
    + eapply He; eauto. eapply fit_sub; [exact HS| |]; intros x; rewrite ?in_app_iff, ?cnt_app; auto; lia.
    + destruct (@fit_later _ _ s1 _ _ (binders e) HS) as [HS1 HR]; auto; [intros x; rewrite cnt_app; lia|].
      eapply IH; eauto; [eapply fit_sub; [exact HS1| |]; intros x; rewrite ?in_app_iff, ?cnt_app; auto; lia|].
      intros a Ha. rewrite HR; auto.
Qed.
Lemma upd_copied S s F B xs ys s1 ρ ρ' w : fit S s F B -> copied s xs ys s1 -> (forall x, cnt x xs <= cnt x B) ->
  (forall a, In a S -> ρ' (ren (c_rn s) a) = ρ a) -> forall a, In a (xs ++ S) -> upd ρ' ys w (ren (c_rn s1) a) = upd ρ xs w a.
Proof.
  intros HS HC HB Hρ a Ha.
  destruct (@fit_bind _ _ _ _ _ _ _ [] [] HS HC) as (H1 & H2 & H3 & H4 & H5); [intros x []|intros x; specialize (HB x); rewrite cnt_nil; lia|].
  unfold upd. destruct (mem a xs) eqn:E.
  - apply mem_In in E. assert (E' : mem (ren (c_rn s1) a) ys = true) by (apply mem_In; rewrite <- H2; apply in_map; auto). rewrite E'. auto.
  - assert (Hna : ~ In a xs) by (intros Hi; apply mem_In in Hi; congruence).
    apply in_app_iff in Ha as [Ha|Ha]; [tauto|]. rewrite H3 by auto.
    destruct (mem (ren (c_rn s) a) ys) eqn:E'; auto. apply mem_In in E'.
    destruct HC as [_ C2 _ _]. rewrite C2 in E'. apply in_seq in E'. pose proof (fit_lt HS a Ha). lia.
Qed.
Lemma wcopy_bound S s F B xs ys s1 e e' ρ ρ' w : fit S s F B -> copied s xs ys s1 -> wcopy s1 e e' ->
  (forall x, In x (minus (fv e) xs) -> In x F) -> (forall x, cnt x (xs ++ binders e) <= cnt x B) ->
  (forall a, In a S -> ρ' (ren (c_rn s) a) = ρ a) -> wt (upd ρ' ys w) e' = wt (upd ρ xs w) e.
Proof.
  intros HS HC He HF HB Hρ.
  destruct (@fit_bind _ _ _ _ _ _ _ (fv e) (binders e) HS HC) as (H1 & _).
  { intros x Hx. destruct (in_dec Nat.eq_dec x xs); auto. right. apply HF. apply in_minus; auto. }
  { intros x. specialize (HB x). rewrite cnt_app in HB. lia. }
  apply (He (xs ++ S)); auto. eapply upd_copied; eauto. intros x. specialize (HB x). rewrite cnt_app in HB. lia.
Qed.

Lemma wcopy_brs es : Forall (fun br => forall s e' s', copy s (snd br) = (e', s') -> wcopy s (snd br) e') es ->
  forall s es' s', mapS copy_branch s es = (es', s') ->
  forall S ρ ρ', fit S s (fvb es) (bdb es) -> (forall a, In a S -> ρ' (ren (c_rn s) a) = ρ a) ->
  map (fun br => wt (upd ρ' (snd (fst br)) 0) (snd br)) es' = map (fun br => wt (upd ρ (snd (fst br)) 0) (snd br)) es.
Proof.
  induction 1 as [|[[c xs] e] es He _ IH]; cbn [mapS]; intros s es' s' E S ρ ρ' HS Hρ.
  - injection E as <- <-. auto.
  - destruct (copy_branch s (c, xs, e)) as [br' s1] eqn:E1. destruct (mapS copy_branch s1 es) as [es2 s2] eqn:E2. injection E as <- <-.
    unfold copy_branch in E1. simpl in E1. destruct (mapS copy_name s xs) as [ys s0] eqn:E0. destruct (copy s0 e) as [e' s3] eqn:E3.
    injection E1 as <- <-. apply copy_names_ok in E0.
    destruct (copy_bound E0 (copy_all _ _ E3)) as (A1 & A2 & _). cbn [map fst snd flat_map] in *. f_equal.
    + eapply wcopy_bound; [exact HS|exact E0|eapply He; eauto| | |auto].
      * intros x Hx. apply in_or_app; auto.
      * intros x. rewrite (cnt_app x (xs ++ binders e)). lia.
    + destruct (@fit_later _ _ s3 _ _ (xs ++ binders e) HS) as [HS1 HR]; auto; [intros x; rewrite (cnt_app x (xs ++ _)); lia|].
      eapply IH; eauto; [eapply fit_sub; [exact HS1| |]; intros x; rewrite ?in_app_iff, ?(cnt_app x (xs ++ _)); auto; lia|].
      intros a Ha. rewrite HR; auto.
Qed.

Lemma copy_wt e : forall s e' s', copy s e = (e', s') -> wcopy s e e'.
Proof.
  induction e using expr_ind'; intros s0 e' s' E S ρ ρ' HS Hρ; cbn [copy] in E; unfold fits in HS; cbn [fv binders] in HS.
  - injection E as <- <-. auto.
  - injection E as <- <-. auto.
  - injection E as <- <-. auto.
  - injection E as <- <-. cbn [wt]. f_equal. apply Hρ. apply HS. simpl; auto.
  - destruct (copy s0 e) as [a' s1] eqn:E1. destruct (mapS copy s1 args) as [b' s2] eqn:E2. injection E as <- <-.
    assert (HX : map (wt ρ') (a' :: b') = map (wt ρ) (e :: args)).
    { eapply wcopyl_list with (es := e :: args) (s := s0); eauto. cbn [mapS]. rewrite E1, E2. eauto. }
    cbn [map] in HX. injection HX as H1 H2. cbn [wt]. congruence.
  - destruct (copy s0 e1) as [a' s1] eqn:E1. destruct (copy s1 e2) as [b' s2] eqn:E2. destruct (copy s2 e3) as [c' s3] eqn:E3. injection E as <- <-.
    assert (HX : map (wt ρ') [a'; b'; c'] = map (wt ρ) [e1; e2; e3]).
    { eapply wcopyl_list with (es := [e1; e2; e3]) (s := s0); [| | |exact Hρ].
      - repeat (apply Forall_cons; [auto|]); apply Forall_nil.
      - cbn [mapS]. rewrite E1, E2, E3. eauto.
      - cbn [flat_map]. rewrite !app_nil_r. eauto. }
    cbn [map] in HX. injection HX as H1 H2 H3. cbn [wt]. congruence.
  - destruct (copy s0 e1) as [a' s1] eqn:E1. destruct (copy s1 e2) as [b' s2] eqn:E2. injection E as <- <-.
    assert (HX : map (wt ρ') [a'; b'] = map (wt ρ) [e1; e2]).
    { eapply wcopyl_list with (es := [e1; e2]) (s := s0); [| | |exact Hρ].
      - repeat (apply Forall_cons; [auto|]); apply Forall_nil.
      - cbn [mapS]. rewrite E1, E2. eauto.
      - cbn [flat_map]. rewrite !app_nil_r. eauto. }
    cbn [map] in HX. injection HX as H1 H2. cbn [wt]. congruence.
  - destruct (mapS copy s0 args) as [b' s2] eqn:E2. injection E as <- <-. cbn [wt]. do 2 f_equal. eapply wcopyl_list; eauto.
  - destruct (mapS copy_param s0 ps) as [ps' s1] eqn:E1. destruct (copy s1 e) as [a' s2] eqn:E2. injection E as <- <-.
    cbn [wt]. f_equal. eapply wcopy_bound; [exact HS|eapply copy_params_ok; eauto|eapply IHe; eauto| | |]; auto.
  - destruct (copy s0 e) as [a' s1] eqn:E1.
    match type of E with context [mapS ?f s1 brs] => change f with copy_branch in E end.
    destruct (mapS copy_branch s1 brs) as [b' s2] eqn:E2. injection E as <- <-.
    destruct (copy_all _ _ E1) as [A1 A2 _ _ _ _ _ _]. cbn [wt]. f_equal. f_equal; [|f_equal].
    + eapply IHe; eauto. eapply fit_sub; [exact HS| |]; intros x; rewrite ?in_app_iff, ?cnt_app; auto; lia.
    + destruct (@fit_later _ _ s1 _ _ (binders e) HS) as [HS1 HR]; auto; [intros x; rewrite cnt_app; lia|].
      eapply wcopy_brs; eauto; [eapply fit_sub; [exact HS1| |]; intros x; rewrite ?in_app_iff, ?cnt_app; auto; lia|].
      intros a Ha. rewrite HR; auto.
  - destruct (mapS copy s0 fs) as [b' s2] eqn:E2. destruct (mapS copy_ty s2 tys) as [t' s3]. injection E as <- <-. cbn [wt]. do 2 f_equal. eapply wcopyl_list; eauto.
  - destruct (copy_name s0 n) as [r s1] eqn:E0. destruct (copy s1 e1) as [a' s2] eqn:E1. destruct (copy s2 e2) as [b' s3] eqn:E2. injection E as <- <-.
    apply copied_one in E0. destruct (copy_all _ _ E1) as [A1 A2 _ _ _ _ _ _].
    assert (HB : forall x, cnt x [n] + cnt x (binders e1 ++ binders e2) <= cnt x (n :: binders e1 ++ binders e2)) by (intros x; rewrite !cnt_cons, cnt_nil; lia).
    destruct (@fit_bind _ _ _ _ _ _ _ (fv e1 ++ fv e2) (binders e1 ++ binders e2) HS E0) as (H1 & H2 & H3 & H4 & H5); auto.
    { intros x Hx. apply in_app_iff in Hx. destruct (in_dec Nat.eq_dec x [n]); auto. right. apply in_app_iff. rewrite in_minus. tauto. }
    destruct (@fit_later _ _ s2 _ _ (binders e1) H1) as [H6 H7]; auto; [intros x; rewrite cnt_app; lia|].
    assert (Hρ1 := @upd_copied _ _ _ _ _ _ _ ρ ρ' (wt ρ e1) HS E0 ltac:(intros x; specialize (HB x); lia) Hρ).
    assert (Hn1 : ~ In n (fv e1)).
    { intros Hi. destruct HS as (F1 & _ & F3 & _). apply (F3 n); simpl; auto. apply F1. apply in_or_app; auto. }
    assert (Ha : wt ρ' a' = wt ρ e1).
    { eapply (IHe1 _ _ _ E1 S); [|intros a Ha; rewrite H3; auto]. destruct HS as (F1 & F2 & F3 & F4). split; [|split; [|split]].
      - intros x Hx. apply F1. apply in_or_app; auto.
      - intros x. specialize (F2 x). rewrite cnt_cons, cnt_app in F2. lia.
      - intros x Hx. apply F3. right. apply in_or_app; auto.
      - intros a Ha. rewrite H3 by auto. pose proof (F4 a Ha). destruct E0 as [C1 _ _ _]. lia. }
    cbn [wt]. rewrite Ha. do 2 f_equal. eapply (IHe2 _ _ _ E2 (n :: S)).
    + eapply fit_sub; [exact H6| |]; intros x; rewrite ?in_app_iff, ?cnt_app; auto; lia.
    + intros a Ha'. rewrite H7 by auto. apply Hρ1. auto.
  - destruct (copy_name s0 n) as [r s1] eqn:E0. destruct (copy_ty s1 t) as [t' s1'] eqn:Et. destruct (copy s1' e1) as [a' s2] eqn:E1. destruct (copy s2 e2) as [b' s3] eqn:E2. injection E as <- <-.
    apply copied_one in E0. apply copy_ty_names in Et. apply (fun a => copied_same a Et) in E0. clear s1 Et. rename s1' into s1.
    destruct (copy_all _ _ E1) as [A1 A2 _ _ _ _ _ _].
    assert (HB : forall x, cnt x [n] + cnt x (binders e1 ++ binders e2) <= cnt x (n :: binders e1 ++ binders e2)) by (intros x; rewrite !cnt_cons, cnt_nil; lia).
    destruct (@fit_bind _ _ _ _ _ _ _ (fv e1 ++ fv e2) (binders e1 ++ binders e2) HS E0) as (H1 & H2 & H3 & H4 & H5); auto.
    { intros x Hx. destruct (in_dec Nat.eq_dec x [n]); auto. right. rewrite in_minus. tauto. }
    destruct (@fit_later _ _ s2 _ _ (binders e1) H1) as [H6 H7]; auto; [intros x; rewrite cnt_app; lia|].
    assert (Hρ1 := @upd_copied _ _ _ _ _ _ _ ρ ρ' 0 HS E0 ltac:(intros x; specialize (HB x); lia) Hρ).
    cbn [wt]. f_equal. f_equal.
    + eapply (IHe1 _ _ _ E1 (n :: S)); auto. eapply fit_sub; [exact H1| |]; intros x; rewrite ?in_app_iff, ?cnt_app; auto; lia.
    + eapply (IHe2 _ _ _ E2 (n :: S)).
      * eapply fit_sub; [exact H6| |]; intros x; rewrite ?in_app_iff, ?cnt_app; auto; lia.
      * intros a Ha'. rewrite H7 by auto. apply Hρ1. auto.
  - match type of E with context [copy_tyvar s0 ?v] => destruct (copy_tyvar s0 v) as [t' s1] eqn:Et end.
    destruct (copy s1 e) as [a' s2] eqn:E2. injection E as <- <-. unfold copy_tyvar in Et. injection Et as <- <-.
    cbn [wt]. f_equal. eapply IHe; eauto.
  - destruct (copy s0 e) as [a' s2] eqn:E2. match type of E with context [copy_ty s2 ?v] => destruct (copy_ty s2 v) as [t' s1] eqn:Et end.
    injection E as <- <-. cbn [wt]. f_equal. eapply IHe; eauto.
  - match type of E with context [copy_ty s0 ?v] => destruct (copy_ty s0 v) as [t' s1] eqn:Et end. injection E as <- <-. auto.
Qed.

(** ** The walk *)
Section Walk.
  Variable m : bool.
  Definition WInv (ρ : name -> nat) (S : list name) (s : ist) : Prop := forall x E, In x S -> idx s x = Some E -> wt ρ E <= ρ x.
  Definition Total (n : nat) (w : ist -> expr -> option (expr * ist)) : Prop :=
    forall S s e ρ, Inv m S s -> Pre S s (fv e) (binders e) -> recs m e = true -> WInv ρ S s -> wt ρ e <= n ->
    exists e' s', w s e = Some (e', s') /\ wt ρ e' <= wt ρ e.

  Lemma WInv_upd ρ S s xs w : WInv ρ S s -> closedI S (idx s) -> (forall x, In x xs -> idx s x = None /\ ~ In x S) -> WInv (upd ρ xs w) (xs ++ S) s.
  Proof.
    intros HW Hc Hx x E Hi HE. apply in_app_iff in Hi as [Hi|Hi]; [destruct (Hx x Hi); congruence|].
    assert (HS : forall y, In y S -> upd ρ xs w y = ρ y).
    { intros y Hy. unfold upd. destruct (mem y xs) eqn:Em; auto. apply mem_In in Em. destruct (Hx y Em); tauto. }
    rewrite HS by auto. rewrite (@wt_ext E _ ρ); [apply HW; auto|]. intros y Hy. apply HS. eapply Hc; eauto.
  Qed.

  Definition kwt (ρ : name -> nat) (k : list name * expr) : nat := wt (upd ρ (fst k) 0) (snd k).

  Lemma kids_total n w : Walk m w -> Total n w -> forall ks S0 S s ρ,
    (forall k, In k ks -> recs m (snd k) = true /\ Inv m (fst k ++ S0) s /\ (forall x, In x (fv (snd k)) -> In x (fst k ++ S0)) /\
       WInv (upd ρ (fst k) 0) (fst k ++ S0) s /\ kwt ρ k <= n) ->
    (forall k x, In k ks -> In x (flat_map binders (map snd ks)) -> ~ In x (fst k)) ->
    (forall x, In x S <-> In x S0) -> Inv m S s ->
    Pre S s [] (flat_map binders (map snd ks)) ->
    exists l s', omapS w s (map snd ks) = Some (l, s') /\ length l = length ks /\ list_sum (map (kwt ρ) (combine (map fst ks) l)) <= list_sum (map (kwt ρ) ks).
  Proof.
    intros Hw Ht ks S0 S. induction ks as [|[xs e] ks IH]; intros s ρ Hk Hd HSS HI HP; [exists [], s; simpl; auto|].
    cbn [map snd flat_map] in *.
    destruct (Hk (xs, e)) as (K1 & K2 & K3 & K4 & K5); [simpl; auto|]. cbn [fst snd] in *.
    assert (P1 : Pre (xs ++ S0) s (fv e) (binders e)).
    { destruct HP as [Q1 Q2 Q3]. split; auto.
      - intros x. specialize (Q2 x). rewrite cnt_app in Q2. lia.
      - intros x Hx. destruct (Q3 x) as (Q4 & Q5 & Q6); [apply in_or_app; auto|]. repeat split; auto.
        intros Hi. apply in_app_iff in Hi as [Hi|Hi]; [|apply Q4, HSS; auto]. apply (Hd (xs, e) x); simpl; auto. apply in_or_app; auto. }
    destruct (Ht _ _ _ (upd ρ xs 0) K2 P1 K1 K4 K5) as (e' & s1 & E1 & W1).
    destruct (Hw _ _ _ _ _ K2 P1 K1 E1) as [R1 R2 R3 R4 R5 R6].
    destruct (@new_binders m S s s1 [] (binders e ++ flat_map binders (map snd ks)) (binders e') HI HP) as [N1 N2]; auto.
    { intros x. rewrite cnt_app. specialize (R4 x). lia. }
    assert (Hdis : forall x, In x (flat_map binders (map snd ks)) -> ~ In x (binders e')).
    { intros x Hx Hx'. apply cnt_in in Hx, Hx'. destruct HP as [_ Q2 Q3]. specialize (Q2 x). rewrite cnt_app in Q2.
      specialize (R4 x). destruct (Q3 x) as (_ & _ & Q4); [apply in_or_app; right; apply cnt_in; auto|].
      rewrite rng_0 in R4 by lia. lia. }
    assert (Hcl : forall k, In k ks -> forall x, In x (binders e') -> ~ In x (fst k ++ S0)).
    { intros k Hkk x Hx Hi. apply in_app_iff in Hi as [Hi|Hi]; [|apply (N1 x Hx); apply HSS; auto].
      destruct (Hk k) as (_ & K6 & _); [simpl; auto|].
      apply cnt_in in Hx. specialize (R4 x). destruct (Nat.eq_dec (cnt x (binders e)) 0) as [E0|E0].
      - assert (Hr : rng (i_nn s) (i_nn s1) x = 1) by (pose proof (rng_le (i_nn s) (i_nn s1) x); lia). apply rng_1 in Hr.
        assert (x < i_nn s) by (apply (v_lt K6); apply in_or_app; auto). lia.
      - apply (Hd k x); simpl; auto. apply in_or_app; left. apply cnt_in; lia. }
    destruct (@Inv_later m S s s1 (binders e') HI) as [HI1 HS1]; auto; [intros x Hx; destruct (N1 x Hx) as (? & ? & ?); auto|].
    destruct (IH s1 ρ) as (l & s2 & E2 & L2 & W2); auto.
    + intros k Hkk. destruct (Hk k) as (J1 & J2 & J3 & J4 & J5); [simpl; auto|]. split; auto. split; [|split; [auto|split; [|auto]]].
      * apply (@Inv_later _ _ s s1 (binders e') J2); auto. intros x Hx. split; [eapply Hcl; eauto|]. apply N1; auto.
      * intros x E Hx HE. rewrite R6 in HE; [apply J4; auto|]. intros Hx'. eapply Hcl; eauto.
    + intros k x Hkk Hx. apply (Hd k); simpl; auto. apply in_or_app; auto.
    + eapply Pre_later; [eapply Pre_sub; [exact HP|contradiction|intros x; rewrite cnt_app; lia]|auto|exact R6|exact Hdis].
    + exists (e' :: l), s2. cbn [omapS]. rewrite E1. cbn [obind]. rewrite E2. split; [reflexivity|]. split; [simpl; auto|].
      cbn [map fst combine list_sum]. unfold kwt at 1 3. cbn [fst snd]. unfold list_sum in *. simpl. lia.
  Qed.

  Definition is_let (e : expr) : bool := match e with ELet _ _ _ => true | _ => false end.
  Lemma sum_nil ρ (l : list expr) : map (kwt ρ) (map (fun x => ([], x)) l) = map (wt ρ) l.
  Proof. rewrite map_map. apply map_ext. intros e. unfold kwt. cbn [fst snd]. apply wt_ext. intros; unfold upd; simpl; auto. Qed.
  Lemma kwt_nil ρ e : kwt ρ ([], e) = wt ρ e.
  Proof. unfold kwt. cbn [fst snd]. apply wt_ext. intros; unfold upd; simpl; auto. Qed.
  Definition base (ρ : name -> nat) (e : expr) : nat := match e with EName n => S (ρ n) | _ => 1 end.
  Lemma wt_kids ρ e : is_let e = false -> wt ρ e = base ρ e + list_sum (map (kwt ρ) (kids e)).
  Proof.
    destruct e; cbn [is_let wt base kids map]; intros Hl; try discriminate; rewrite ?sum_nil, ?kwt_nil; cbn [list_sum fold_right]; rewrite ?kwt_nil; unfold kwt; cbn [fst snd]; try lia.
    - unfold list_sum; simpl. lia.
    - rewrite map_map. cbn [fst snd]. unfold list_sum. lia.
  Qed.
  Lemma wt_rebuild ρ e l : is_let e = false -> length l = length (kids e) -> wt ρ (rebuild e l) = base ρ e + list_sum (map (kwt ρ) (combine (map fst (kids e)) l)).
  Proof.
    intros Hl Hn. destruct (kids_rebuild e l Hn) as (K1 & _ & _). rewrite <- K1, wt_kids.
    - f_equal. destruct e; cbn [kids length] in Hn; rewrite ?map_length in Hn; lens Hn; auto.
    - destruct e; cbn [kids length] in Hn; rewrite ?map_length in Hn; lens Hn; auto.
  Qed.

  Lemma node_total n w S s e ρ : Walk m w -> Total n w -> Inv m S s -> Pre S s (fv e) (binders e) -> recs m e = true -> WInv ρ S s ->
    is_let e = false -> wt ρ e <= Datatypes.S n -> exists l s', omapS w s (map snd (kids e)) = Some (l, s') /\ wt ρ (rebuild e l) <= wt ρ e.
  Proof.
    intros Hw Ht HI HP Hr HW Hl Hn.
    assert (Hown : forall k x, In k (kids e) -> In x (fst k) -> In x (binders e)).
    { intros k x Hk Hx. apply cnt_in. rewrite kids_cnt. pose proof (kids_own _ _ _ Hk Hx) as Ho. apply cnt_in in Ho. lia. }
    rewrite wt_kids in Hn by auto.
    assert (Hb : 1 <= base ρ e) by (destruct e; simpl; lia).
    destruct (@kids_total n w Hw Ht (kids e) S S s ρ) as (l & s' & E & L & W).
    - intros k Hk. split; [eapply kids_recs; eauto|]. split; [eapply Inv_under; eauto|]. split; [|split].
      + intros x. apply fv_kids with (e := e); auto. apply (p_fv HP).
      + apply WInv_upd; auto; [apply (v_fv HI)|]. intros x Hx. destruct (p_bs HP x) as (? & ? & ?); auto. eapply Hown; eauto.
      + assert (kwt ρ k <= list_sum (map (kwt ρ) (kids e))); [|lia]. revert Hk. generalize (kids e). clear.
        induction l as [|a l IH]; simpl; [contradiction|]. unfold list_sum in *. intros [->|H]; [lia|]. specialize (IH H). lia.
    - intros k x Hk Hx Hi. pose proof (kids_own _ _ _ Hk Hi) as Ho. apply cnt_in in Hx, Ho.
      pose proof (p_cnt HP x). rewrite kids_cnt in H. lia.
    - tauto.
    - auto.
    - eapply Pre_sub; [exact HP|contradiction|]. intros x. rewrite kids_cnt. lia.
    - exists l, s'. split; auto. rewrite wt_rebuild, wt_kids by auto. lia.
  Qed.

  Lemma put_head_wt ρ d e : forall n c, head_calls e = Some (n, c) -> wt ρ d <= ρ n -> wt ρ (put_head d e) <= wt ρ e.
  Proof.
    induction e; simpl; intros x cc H Hd; try discriminate.
    - injection H as <- <-. lia.
    - destruct (head_calls e) as [[y q]|]; simpl in H; [|discriminate]. injection H as <- <-. specialize (IHe y q eq_refl Hd). lia.
    - specialize (IHe _ _ H Hd). lia.
  Qed.
  Lemma create_copy_wt S s d d' s' ρ : Inv m S s -> uq d -> (forall x, In x (fv d) -> In x S) -> create_copy s d = (d', s') -> wt ρ d' = wt ρ d.
  Proof.
    unfold create_copy. intros HI (U1 & U2 & U3) Hf E. destruct (copy _ d) as [e c] eqn:Ec. injection E as <- <-.
    apply (@copy_wt d _ _ _ Ec (fv d)); auto. repeat split; auto. intros a Ha. simpl. unfold ren; simpl. apply (v_lt HI). auto.
  Qed.

  Lemma iwalk_total n : Total n (iwalk n).
  Proof.
    induction n as [|n IH]; intros S s e ρ HI HP Hr HW Hn; [pose proof (wt_pos ρ e); lia|].
    pose proof (@iwalk_ok m n) as Hw.
    assert (Hlet : (exists x a b, e = ELet x a b) \/ is_let e = false) by (destruct e; auto; left; eauto).
    destruct Hlet as [(x & a & b & ->)|Hnl].
    - cbn [wt] in Hn.
      pose proof Hr as Hr'. cbn [recs] in Hr'. apply andb_true_iff in Hr' as [Hra Hrb].
      assert (HPa : Pre S s (fv a) (binders a)).
      { eapply Pre_sub; [exact HP| |]. - intros y Hy. apply (p_fv HP). cbn [fv]. apply in_or_app; auto.
        - intros y. cbn [binders]. rewrite cnt_cons, cnt_app. lia. }
      pose proof (wt_pos (upd ρ [x] (wt ρ a)) b).
      destruct (IH S s a ρ HI HPa Hra HW ltac:(lia)) as (a' & s1 & E1 & W1).
      destruct (Hw _ _ _ _ _ HI HPa Hra E1) as [R1 R2 R3 R4 R5 R6].
      destruct (@let_facts m S s x a b a' s1 HI HP (Hw _ _ _ _ _ HI HPa Hra E1)) as (HI2 & HPb & Hi2x & Hi2).
      set (s2 := note_let s1 (ELet x a' b)) in *.
      assert (Hx : ~ In x S) by (apply (p_bs HP); simpl; auto).
      assert (HW2 : WInv (upd ρ [x] (wt ρ a')) (x :: S) s2).
      { assert (HS : forall y, In y S -> upd ρ [x] (wt ρ a') y = ρ y).
        { intros y Hy. unfold upd. simpl. destruct (Nat.eqb_spec y x); auto. subst; tauto. }
        assert (HU : upd ρ [x] (wt ρ a') x = wt ρ a') by (unfold upd; simpl; rewrite Nat.eqb_refl; auto).
        intros y E [<-|Hy] HE.
        - rewrite HU. destruct Hi2x as [Hc|Hc]; rewrite Hc in HE; [discriminate|]. injection HE as <-.
          rewrite (@wt_ext a' _ ρ); auto.
        - rewrite Hi2 in HE by auto. rewrite HS by auto. rewrite (@wt_ext E _ ρ); [apply HW; auto|]. intros z Hz. apply HS. eapply (v_fv HI); eauto. }
      assert (Hwb : wt (upd ρ [x] (wt ρ a')) b <= wt (upd ρ [x] (wt ρ a)) b).
      { apply wt_le. intros y _. unfold upd. destruct (mem y [x]); auto. }
      destruct (IH (x :: S) s2 b (upd ρ [x] (wt ρ a')) HI2 HPb Hrb HW2 ltac:(lia)) as (b' & s3 & E3 & W3).
      exists (ELet x a' b'), s3. cbn [iwalk]. rewrite E1. cbn [obind]. change (inline_functions s1 (ELet x a' b)) with (ELet x a' b, s2). cbn iota beta.
      rewrite E3. split; [reflexivity|]. cbn [wt]. lia.
    - assert (E' : iwalk (Datatypes.S n) s e = (let (e2, s2) := inline_functions s e in
          match e2 with
          | ELet x a b => do (b', s3) <- iwalk n s2 b ; Some (ELet x a b', s3)
          | _ => do (l, s3) <- omapS (iwalk n) s2 (map snd (kids e2)) ; Some (rebuild e2 l, s3)
          end)).
      { destruct e; try reflexivity. discriminate. }
      rewrite E'. clear E'. destruct (inline_functions s e) as [e2 s2] eqn:Ef.
      assert (Hrest : Inv m S s2 -> Pre S s2 (fv e2) (binders e2) -> recs m e2 = true -> WInv ρ S s2 -> wt ρ e2 <= wt ρ e ->
         exists e' s', match e2 with
          | ELet x a b => do (b', s3) <- iwalk n s2 b ; Some (ELet x a b', s3)
          | _ => do (l, s3) <- omapS (iwalk n) s2 (map snd (kids e2)) ; Some (rebuild e2 l, s3)
          end = Some (e', s') /\ wt ρ e' <= wt ρ e).
      { clear Ef HI HP Hr HW. intros HI HP Hr HW We.
        assert (Hlet : (exists x a b, e2 = ELet x a b) \/ is_let e2 = false) by (destruct e2; auto; left; eauto).
        destruct Hlet as [(x & a & b & ->)|Hnl2].
        - cbn [wt] in We. assert (Hx : ~ In x S /\ idx s2 x = None) by (destruct (p_bs HP x) as (? & ? & ?); simpl; auto). destruct Hx as [Hx1 Hx2].
          assert (HI2 : Inv m (x :: S) s2) by (apply (@Inv_under m S s2 _ _ [x] HI HP); intros y [<-|[]]; simpl; auto).
          assert (HPb : Pre (x :: S) s2 (fv b) (binders b)).
          { apply (@Pre_under S s2 _ _ [x] _ _ HP).
            - intros y Hy. apply (fv_kids (ELet x a b) S (p_fv HP) ([x], b)); simpl; auto.
            - intros y. cbn [binders]. rewrite !cnt_cons, cnt_app, cnt_nil. lia. }
          cbn [recs] in Hr. apply andb_true_iff in Hr as [Hra Hrb].
          destruct (IH (x :: S) s2 b (upd ρ [x] (wt ρ a)) HI2 HPb Hrb) as (b' & s3 & E3 & W3); [|lia|].
          { apply (@WInv_upd ρ S s2 [x]); auto; [apply (v_fv HI)|]. intros y [<-|[]]; auto. }
          exists (ELet x a b'), s3. rewrite E3. split; [reflexivity|]. cbn [wt]. lia.
        - destruct (@node_total n (iwalk n) S s2 e2 ρ Hw IH HI HP Hr HW Hnl2 ltac:(lia)) as (l & s3 & E3 & W3).
          exists (rebuild e2 l), s3. split; [|lia]. rewrite E3. destruct e2; try reflexivity. discriminate. }
      destruct (@inline_step_ok m S s e e2 s2 HI HP Hr) as [[-> ->]|(H1 & H2 & H3 & H4 & H5 & H6 & H7 & H8)]; auto.
      { intros x a b ->. discriminate. }
      apply Hrest; auto.
      + intros x E Hx. unfold idx. rewrite H6. apply HW; auto.
      + unfold inline_functions in Ef. assert (En : note_let s e = s) by (destruct e; auto; discriminate). rewrite En in Ef.
        destruct (head_calls e) as [[y calls]|] eqn:Eh; [|injection Ef as <- <-; auto].
        destruct (lookup y (i_map s)) as [[d c]|] eqn:El; [|injection Ef as <- <-; auto].
        destruct (c <=? calls); [|injection Ef as <- <-; auto].
        destruct (create_copy s d) as [d' s3] eqn:Ec. injection Ef as <- <-.
        destruct (head_in _ Eh) as [Hy _]. assert (HyS : In y S) by (apply (p_fv HP); auto).
        assert (Hd : idx s y = Some d) by (unfold idx; rewrite El; auto).
        destruct (@v_def _ _ _ HI _ _ HyS Hd) as [Hu _].
        eapply put_head_wt; eauto. rewrite (@create_copy_wt S s d d' s3 ρ); auto. apply (@v_fv _ _ _ HI _ _ HyS Hd).
  Qed.
End Walk.

(** ** More fuel gives the same result *)
Lemma omapS_some {St A B} (f g : St -> A -> option (B * St)) l : (forall s a r, f s a = Some r -> g s a = Some r) -> forall s r, omapS f s l = Some r -> omapS g s l = Some r.
Proof.
  intros H. induction l as [|a l IH]; simpl; intros s r E; auto.
  destruct (f s a) as [[b s1]|] eqn:E1; simpl in E; [|discriminate]. rewrite (H _ _ _ E1). simpl.
  destruct (omapS f s1 l) as [[bs s2]|] eqn:E2; simpl in E; [|discriminate]. rewrite (IH _ _ E2). auto.
Qed.
Lemma iwalk_more n : forall s e r, iwalk n s e = Some r -> iwalk (S n) s e = Some r.
Proof.
  induction n as [|n IH]; intros s e r E; [discriminate|].
  assert (Hrest : forall e2 s2 r, match e2 with
      | ELet x a b => do (b', s3) <- iwalk n s2 b ; Some (ELet x a b', s3)
      | _ => do (l, s3) <- omapS (iwalk n) s2 (map snd (kids e2)) ; Some (rebuild e2 l, s3) end = Some r ->
      match e2 with
      | ELet x a b => do (b', s3) <- iwalk (S n) s2 b ; Some (ELet x a b', s3)
      | _ => do (l, s3) <- omapS (iwalk (S n)) s2 (map snd (kids e2)) ; Some (rebuild e2 l, s3) end = Some r).
  { clear - IH. intros e2 s2 r E.
    assert (HO : forall q, (do (l, s3) <- omapS (iwalk n) s2 (map snd (kids e2)) ; Some (rebuild e2 l, s3)) = Some q ->
       (do (l, s3) <- omapS (iwalk (S n)) s2 (map snd (kids e2)) ; Some (rebuild e2 l, s3)) = Some q).
    { intros q Eq. destruct (omapS (iwalk n) s2 (map snd (kids e2))) as [[l s3]|] eqn:El; [|discriminate].
      rewrite (@omapS_some _ _ _ _ _ _ IH _ _ El). auto. }
    destruct e2; auto.
    destruct (iwalk n s2 e2_2) as [[b' s3]|] eqn:Eb; [|discriminate]. rewrite (IH _ _ _ Eb). auto. }
  assert (EU : forall k, iwalk (S k) s e = do (e1, s1) <- match e with
                   | ELet x a b => do (a', s1) <- iwalk k s a ; Some (ELet x a' b, s1)
                   | _ => Some (e, s)
                   end ;
    let (e2, s2) := inline_functions s1 e1 in
    match e2 with
    | ELet x a b => do (b', s3) <- iwalk k s2 b ; Some (ELet x a b', s3)
    | _ => do (l, s3) <- omapS (iwalk k) s2 (map snd (kids e2)) ; Some (rebuild e2 l, s3)
    end) by reflexivity.
  rewrite EU in *. clear EU.
  assert (HF : forall q, match e with
                   | ELet x a b => do (a', s1) <- iwalk n s a ; Some (ELet x a' b, s1)
                   | _ => Some (e, s)
                   end = Some q -> match e with
                   | ELet x a b => do (a', s1) <- iwalk (S n) s a ; Some (ELet x a' b, s1)
                   | _ => Some (e, s)
                   end = Some q).
  { intros q Eq. destruct e; auto. destruct (iwalk n s e1) as [[a' s1]|] eqn:Ea; [|discriminate]. rewrite (IH _ _ _ Ea). auto. }
  destruct (match e with
                   | ELet x a b => do (a', s1) <- iwalk n s a ; Some (ELet x a' b, s1)
                   | _ => Some (e, s)
                   end) as [[e1 s1]|]; [|discriminate].
  rewrite (HF _ eq_refl). cbn [obind] in *. destruct (inline_functions s1 e1) as [e2 s2]. apply Hrest. exact E.
Qed.
Lemma iwalk_up n k s e r : n <= k -> iwalk n s e = Some r -> iwalk k s e = Some r.
Proof. induction 1; auto. intros E. apply iwalk_more. auto. Qed.
Lemma inline_def_up n k s d r : n <= k -> inline_def n s d = Some r -> inline_def k s d = Some r.
Proof.
  unfold inline_def. intros H E. destruct (iwalk n s (vd_value d)) as [[v s1]|] eqn:Ew; [|discriminate].
  rewrite (iwalk_up _ _ H Ew). auto.
Qed.
Theorem inline_up n k nn nt p r : n <= k -> inline_fuel n nn nt p = Some r -> inline_fuel k nn nt p = Some r.
Proof.
  unfold inline_fuel. intros H E. destruct (omapS (inline_def n) (mkIst nn nt []) (p_defs p)) as [[ds s]|] eqn:Eo; [|discriminate].
  rewrite (@omapS_some _ _ _ (inline_def n) (inline_def k) _ (fun s d r => inline_def_up s d H) _ _ Eo). auto.
Qed.

(** ** Programs *)
Lemma inline_defs_total m ds : forall S s ρ, Inv m S s -> scoped_defs S ds = true -> forallb (fun d => recs m (vd_value d)) ds = true ->
  (forall x, cnt x (bnd ds) <= 1) -> (forall x, In x (bnd ds) -> ~ In x S /\ idx s x = None /\ x < i_nn s) -> WInv ρ S s ->
  exists fuel ds' s', omapS (inline_def fuel) s ds = Some (ds', s').
Proof.
  induction ds as [|d ds IH]; intros S s ρ HI Hs Hr Hc Hb HW; [exists 0, [], s; auto|].
  simpl in Hs, Hr. apply andb_true_iff in Hs as [Hs1 Hs2]. apply andb_true_iff in Hr as [Hr1 Hr2].
  assert (Hcc : forall x, cnt x [vd_name d] + cnt x (binders (vd_value d)) + cnt x (bnd ds) <= 1) by (intros x; rewrite <- bnd_cons; auto).
  assert (Hbb : forall x, In x [vd_name d] \/ In x (binders (vd_value d)) \/ In x (bnd ds) -> ~ In x S /\ idx s x = None /\ x < i_nn s).
  { intros x Hx. apply Hb. apply cnt_in. rewrite bnd_cons. destruct Hx as [Hx|[Hx|Hx]]; apply cnt_in in Hx; lia. }
  assert (HP : Pre S s (fv (vd_value d)) (binders (vd_value d))).
  { split; [apply scoped_fv; auto|intros x; specialize (Hcc x); lia|]. intros x Hx. apply Hbb; auto. }
  destruct (@iwalk_total m (wt ρ (vd_value d)) S s (vd_value d) ρ HI HP Hr1 HW (le_n _)) as (v & s1 & Ew & Wv).
  pose proof (@iwalk_ok m _ S s (vd_value d) v s1 HI HP Hr1 Ew) as HR.
  destruct (@def_facts m S s d ds v s1 HI) as (HI2 & Hb2 & Hi2x & Hi2); auto.
  set (s2 := match (match check_inlinable v false with Some c => Some c | None => check_small v end) with Some c => set_inl s1 (vd_name d) v c | None => s1 end) in *.
  set (x := vd_name d) in *.
  assert (Hx : ~ In x S) by (apply Hbb; simpl; auto).
  destruct (IH (x :: S) s2 (upd ρ [x] (wt ρ v))) as (fuel & ds2 & s3 & E2); auto.
  - intros y. specialize (Hcc y). lia.
  - assert (HS : forall y, In y S -> upd ρ [x] (wt ρ v) y = ρ y).
    { intros y Hy. unfold upd. simpl. destruct (Nat.eqb_spec y x); auto. subst; tauto. }
    assert (HU : upd ρ [x] (wt ρ v) x = wt ρ v) by (unfold upd; simpl; rewrite Nat.eqb_refl; auto).
    intros y E [<-|Hy] HE.
    + rewrite HU. destruct Hi2x as [Hd|Hd]; rewrite Hd in HE; [discriminate|]. injection HE as <-.
      rewrite (@wt_ext v _ ρ); auto. intros z Hz. apply HS. apply (r_fv HR); auto.
    + rewrite Hi2 in HE by auto. rewrite HS by auto. rewrite (@wt_ext E _ ρ); [apply HW; auto|]. intros z Hz. apply HS. eapply (v_fv HI); eauto.
  - set (k := max fuel (wt ρ (vd_value d))). exists k. simpl.
    assert (Ed : inline_def k s d = Some (mkValDef (vd_name d) (vd_export d) (vd_ty d) v, s2)).
    { unfold inline_def. rewrite (@iwalk_up _ k _ _ _ (Nat.le_max_r _ _) Ew). reflexivity. }
    rewrite Ed. simpl.
    rewrite (@omapS_some _ _ _ (inline_def fuel) (inline_def k) _ (fun s d r => inline_def_up s d (Nat.le_max_l _ _)) _ _ E2). simpl. eauto.
Qed.

Theorem inline_total nn nt p : ok_names p -> names_below nn p -> exists fuel r, inline_fuel fuel nn nt p = Some r.
Proof.
  intros (O1 & O2 & O3) Hb.
  destruct (@inline_defs_total false (p_defs p) [] (mkIst nn nt []) (fun _ => 0)) as (fuel & ds & s & E); auto.
  - split; simpl; try contradiction; [intros ? ? []|auto].
  - intros x. apply (NoDup_count_occ Nat.eq_dec) with (x := x) in O2. exact O2.
  - intros x E [].
  - exists fuel. unfold inline_fuel. rewrite E. simpl. eauto.
Qed.
