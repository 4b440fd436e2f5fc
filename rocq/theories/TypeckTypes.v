(** Typing of checked expressions in a state of the unifier, and its stability. *)
From Verif Require Export SrcTyping UnifyProofs UnifyFacts.
From Verif Require Export Typeck.
Set Implicit Arguments.

Lemma iexpr_ind' (P : iexpr -> Prop) :
  (forall s l, P (INm s l)) -> (forall f a, P f -> P a -> P (IAp f a)) -> (forall a o b, P a -> P b -> P (IBin a o b)) ->
  (forall a f, P a -> P f -> P (IPipe a f)) -> (forall s v e, P v -> P e -> P (ILt s v e)) ->
  (forall i d cs, P d -> Forall (fun c => P (snd c)) cs -> P (IMt i d cs)) ->
  (forall c t e, P c -> P t -> P e -> P (IIf c t e)) -> (forall b, P (IBo b)) -> (forall n, P (INu n)) -> (forall s, P (ISt s)) ->
  (forall i x b, P b -> P (IFo i x b)) -> (forall x b, P b -> P (ILa x b)) -> (forall e, P e -> P (IPa e)) ->
  (forall t i, P (IHo t i)) -> forall e, P e.
Proof.
  intros H1 H2 H3 H4 H5 H6 H7 H8 H9 H10 H11 H12 H13 H14. fix IH 1. intros [].
  - apply H1. - apply H2; apply IH. - apply H3; apply IH. - apply H4; apply IH. - apply H5; apply IH.
  - apply H6; [apply IH|]. induction cases as [|c r IHr]; constructor; [apply IH|apply IHr].
  - apply H7; apply IH. - apply H8. - apply H9. - apply H10. - apply H11; apply IH. - apply H12; apply IH.
  - apply H13; apply IH. - apply H14.
Qed.
Lemma rexpr_ind' (P : rexpr -> Prop) :
  (forall s, P (RName s)) -> (forall f a, P f -> P a -> P (RApply f a)) -> (forall a o b, P a -> P b -> P (RBinary a o b)) ->
  (forall a f, P a -> P f -> P (RPipe a f)) -> (forall s n v e, P v -> P e -> P (RLet s n v e)) ->
  (forall d cs, P d -> Forall (fun c => P (snd c)) cs -> P (RMatch d cs)) ->
  (forall c t e, P c -> P t -> P e -> P (RIf c t e)) -> (forall b, P (RBoolean b)) -> (forall n, P (RNumber n)) -> (forall s, P (RStr s)) ->
  (forall f x b, P b -> P (RLam f x b)) -> (forall e, P e -> P (RParen e)) ->
  (forall t, P (RHole t)) -> forall e, P e.
Proof.
  intros H1 H2 H3 H4 H5 H6 H7 H8 H9 H10 H11 H12 H13. fix IH 1. intros [].
  - apply H1. - apply H2; apply IH. - apply H3; apply IH. - apply H4; apply IH. - apply H5; apply IH.
  - apply H6; [apply IH|]. induction cases as [|c r IHr]; constructor; [apply IH|apply IHr].
  - apply H7; apply IH. - apply H8. - apply H9. - apply H10. - apply H11; apply IH. - apply H12; apply IH.
  - apply H13.
Qed.

Section Wt.
  Variable S_ : sym -> option nty.
  Variable C_ : sym -> option dctor.
  Definition mono (u : uni) (x : sym) (t : term) : Prop := exists i, S_ x = Some (NInfer i) /\ resolves u i t.
  Definition bound (u : uni) (x : sym) (t : term) : Prop :=
    match S_ x with
    | Some (NInfer i) => resolves u i t
    | Some (NInst ty _) => t = scheme [] ty
    | None => False
    end.
  Definition used (u : uni) (x : sym) (insts : list idx) (t : term) : Prop :=
    match S_ x with
    | Some (NInfer i) => resolves u i t
    | Some (NInst ty vars) => exists ts, Forall2 (resolves u) insts ts /\ length ts = length vars /\ t = scheme (combine vars ts) ty
    | None => False
    end.
  (** A pattern [c xs] for values of type [td]. *)
  Definition pat (u : uni) (td : term) (c : sym) (xs : list sym) : Prop :=
    exists d ts rec, C_ c = Some d /\ length ts = length (dc_vars d) /\
      (td = data (dc_type d) ts /\ rec = td \/ td = TNode NFolded (data (dc_type d) ts) rec) /\
      Forall2 (fun x f => mono u x (field_term rec (combine (dc_vars d) ts) f)) xs (dc_fields d).

  Fixpoint wt (u : uni) (e : iexpr) (t : term) {struct e} : Prop :=
    match e with
    | INm x insts => used u x insts t
    | IAp f a | IPipe a f => exists ta, wt u f (TNode NFn ta t) /\ wt u a ta
    | IBin a o b => wt u a (TLeaf LInt) /\ wt u b (TLeaf LInt) /\ t = op_term o
    | ILt x v e => exists tx, bound u x tx /\ wt u v tx /\ wt u e t
    | IMt ti d cases =>
      exists td, resolves u ti td /\ wt u d td /\
        (fix go (l : list (sym * list sym * iexpr)) : Prop :=
           match l with [] => True | (p, b) :: r => (pat u td (fst p) (snd p) /\ wt u b t) /\ go r end) cases
    | IIf c a b => wt u c (TLeaf LBool) /\ wt u a t /\ wt u b t
    | IBo _ => t = TLeaf LBool
    | INu _ => t = TLeaf LInt
    | ISt _ => t = TLeaf LString
    | IFo ti x b => exists a r, t = TNode NFn a r /\ resolves u ti t /\ mono u x (TNode NFolded a r) /\ wt u b r
    | ILa x b => exists a r, t = TNode NFn a r /\ mono u x a /\ wt u b r
    | IPa e => wt u e t
    | IHo _ ti => resolves u ti t
    end.

  Definition refines (f : idx -> term) (u u' : uni) : Prop := forall i t, resolves u i t -> resolves u' i (subst f t).

  Lemma subst_data f s ts : subst f (data s ts) = data s (map (subst f) ts).
  Proof.
    unfold data. change (TLeaf (LNamed s)) with (subst f (TLeaf (LNamed s))) at 2. generalize (TLeaf (LNamed s)).
    induction ts as [|a ts IH]; intros h; cbn; auto. rewrite IH. reflexivity.
  Qed.
  Lemma assoc_map_snd A B (g : A -> B) x l : assoc x (map (fun p => (fst p, g (snd p))) l) = option_map g (assoc x l).
  Proof. induction l as [|[y a] l IH]; cbn; auto. destruct (Nat.eqb y x); auto. Qed.
  Lemma subst_scheme f vs t : subst f (scheme vs t) = scheme (map (fun p => (fst p, subst f (snd p))) vs) t.
  Proof.
    induction t as [| | |s args IH|a b IHa IHb| | |a b IHa IHb] using irty_ind'; cbn; auto; try congruence.
    rewrite assoc_map_snd.
    assert (E : subst f match assoc s vs with Some x => x | None => TLeaf (LNamed s) end =
                match option_map (subst f) (assoc s vs) with Some x => x | None => TLeaf (LNamed s) end)
      by (destruct (assoc s vs); auto).
    revert E. generalize (match assoc s vs with Some x => x | None => TLeaf (LNamed s) end).
    generalize (match option_map (subst f) (assoc s vs) with Some x => x | None => TLeaf (LNamed s) end).
    induction IH as [|a args Ha _ IH]; intros h' h E; cbn; auto. apply IH. cbn. congruence.
  Qed.
  Lemma map_combine_snd A B (g : A -> B) (vs : list sym) ts :
    map (fun p => (fst p, g (snd p))) (combine vs ts) = combine vs (map g ts).
  Proof. revert ts. induction vs as [|v vs IH]; intros [|t ts]; cbn; f_equal; auto. Qed.

  Lemma mono_ref f u u' x t : refines f u u' -> mono u x t -> mono u' x (subst f t).
  Proof. intros H (i & E & R). exists i. auto. Qed.
  Lemma bound_ref f u u' x t : refines f u u' -> bound u x t -> bound u' x (subst f t).
  Proof.
    intros H. unfold bound. destruct (S_ x) as [[i|ty vs]|]; auto. intros ->. rewrite subst_scheme. reflexivity.
  Qed.
  Lemma used_ref f u u' x l t : refines f u u' -> used u x l t -> used u' x l (subst f t).
  Proof.
    intros H. unfold used. destruct (S_ x) as [[i|ty vs]|]; auto. intros (ts & F & L & ->).
    exists (map (subst f) ts). split; [|split].
    - clear -F H. induction F; cbn; constructor; auto.
    - rewrite map_length. auto.
    - rewrite subst_scheme, map_combine_snd. reflexivity.
  Qed.
  Lemma pat_ref f u u' td c xs : refines f u u' -> pat u td c xs -> pat u' (subst f td) c xs.
  Proof.
    intros H (d & ts & rec & E & L & O & F). exists d, (map (subst f) ts), (subst f rec). split; auto.
    split; [rewrite map_length; auto|]. split.
    - rewrite <- subst_data. destruct O as [[-> ->]| ->]; cbn; auto.
    - clear -F H. induction F as [|x fd xs fs M F IH]; constructor; auto. destruct fd as [t|]; cbn in *.
      + rewrite <- map_combine_snd, <- subst_scheme. eapply mono_ref; eauto.
      + eapply mono_ref; eauto.
  Qed.
  Lemma wt_ref f u u' : refines f u u' -> forall e t, wt u e t -> wt u' e (subst f t).
  Proof.
    intros H. induction e using iexpr_ind'; intros T; cbn [wt].
    - apply used_ref; auto.
    - intros (ta & A & B). exists (subst f ta). split; [apply (IHe1 _ A)|auto].
    - intros (A & B & ->). split; [apply (IHe1 _ A)|]. split; [apply (IHe2 _ B)|]. unfold op_term. destruct (is_cmp o); auto.
    - intros (ta & A & B). exists (subst f ta). split; [apply (IHe2 _ A)|auto].
    - intros (tx & A & B & C). exists (subst f tx). split; [eapply bound_ref; eauto|]. auto.
    - intros (td & A & B & C). exists (subst f td). split; auto. split; auto.
      induction H0 as [|[p b] cs Hb _ IH]; auto. destruct C as ((C1 & C2) & C3).
      split; [split; [eapply pat_ref; eauto|apply (Hb _ C2)]|apply (IH C3)].
    - intros (A & B & C). split; [apply (IHe1 _ A)|]. auto.
    - intros ->. auto.
    - intros ->. auto.
    - intros ->. auto.
    - intros (a & r & -> & A & B & C). exists (subst f a), (subst f r). split; auto. split; [apply (H _ _ A)|].
      split; auto. apply (mono_ref H B).
    - intros (a & r & -> & B & C). exists (subst f a), (subst f r). split; auto. split; auto. eapply mono_ref; eauto.
    - apply IHe.
    - apply H.
  Qed.
End Wt.

(** States without error types, between two operations. *)
Definition good (u : uni) : Prop := ureach u /\ forall i t, resolves u i t -> error_free t.
Definition le (u u' : uni) : Prop := length (slots u) <= length (slots u') /\ exists f, refines f u u'.

Lemma subst_id t : subst TUnknown t = t.
Proof. induction t; cbn; congruence. Qed.
Lemma subst_comp f g t : subst g (subst f t) = subst (fun v => subst g (f v)) t.
Proof. induction t; cbn; congruence. Qed.
Lemma le_refl u : le u u.
Proof. split; auto. exists TUnknown. intros i t. rewrite subst_id. auto. Qed.
Lemma le_trans u v w : le u v -> le v w -> le u w.
Proof.
  intros [L1 (f & F)] [L2 (g & G)]. split; [lia|]. exists (fun v => subst g (f v)). intros i t R.
  rewrite <- subst_comp. auto.
Qed.
Lemma ext_le u u' : ext u u' -> le u u'.
Proof. intros [A B]. split; auto. exists TUnknown. intros i t. rewrite subst_id. auto. Qed.
Lemma good_res u i : good u -> i < length (slots u) -> exists t, resolves u i t.
Proof. intros [H _] Hi. destruct (ureach_inv H) as [_ I]. apply (inv_acyc I Hi). Qed.
Lemma res_lt u i t : good u -> resolves u i t -> i < length (slots u).
Proof. intros [H _] R. destruct (ureach_inv H) as [_ I]. inversion R; eapply get_lt; eauto. Qed.

(** Facts that later operations keep. *)
Definition node_at (n : node) (u : uni) (i a b : idx) : Prop :=
  exists ta tb, resolves u a ta /\ resolves u b tb /\ resolves u i (TNode n ta tb).
Definition same (u : uni) (i j : idx) : Prop := exists t, resolves u i t /\ resolves u j t.
Lemma node_le n u u' i a b : le u u' -> node_at n u i a b -> node_at n u' i a b.
Proof. intros [_ (f & F)] (ta & tb & A & B & C). exists (subst f ta), (subst f tb). split; auto. split; auto. apply (F _ _ C). Qed.
Lemma same_le u u' i j : le u u' -> same u i j -> same u' i j.
Proof. intros [_ (f & F)] (t & A & B). exists (subst f t). auto. Qed.
Lemma leaf_le u u' i l : le u u' -> resolves u i (TLeaf l) -> resolves u' i (TLeaf l).
Proof. intros [_ (f & F)] A. apply (F _ _ A). Qed.
Definition wti S_ C_ (u : uni) (e : iexpr) (i : idx) : Prop := exists t, resolves u i t /\ wt S_ C_ u e t.
Lemma wti_le S_ C_ u u' e i : le u u' -> wti S_ C_ u e i -> wti S_ C_ u' e i.
Proof. intros [_ (f & F)] (t & A & B). exists (subst f t). split; auto. eapply wt_ref; eauto. Qed.
