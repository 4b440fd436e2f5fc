(** Programs whose functions call nothing but themselves, in tail position: they never have more than
    one activation live, however often their loops run. *)
From Verif Require Import StackSpec.

(** [only_loops self tail inside e]: every call of [e] that lies inside a function body is a call, in
    tail position, of the recursive function [self] that this body belongs to.  [inside] says whether [e]
    lies inside a function body. *)
Fixpoint only_loops (self : option name) (tail inside : bool) (e : expr) {struct e} : bool :=
  match e with
  | EBool _ | EInt _ | EString _ | EName _ | ETrap _ _ => true
  | ECall f args =>
    (negb inside || self_call self tail f) &&
    only_loops self false inside f && forallb (only_loops self false inside) args
  | EIf c t e => only_loops self false inside c && only_loops self tail inside t && only_loops self tail inside e
  | EIntr _ xs => forallb (only_loops self false inside) xs
  | EOp a _ b => only_loops self false inside a && only_loops self false inside b
  | ELam _ body => only_loops None true true body
  | EMatch d brs => only_loops self false inside d && forallb (fun b => only_loops self tail inside (snd b)) brs
  | EConstruct _ _ fields => forallb (only_loops self false inside) fields
  | ELet _ v e => only_loops self false inside v && only_loops self tail inside e
  | ELetRec n _ v e =>
    match v with
    | ELam _ body => only_loops (Some n) true true body
    | _ => false
    end && only_loops self tail inside e
  | EPi _ e | EPiApp e _ => only_loops self tail inside e
  end.
Definition only_loops_program (p : program) (exprs : list expr) : bool :=
  forallb (fun d => only_loops None false false (vd_value d)) (p_defs p) &&
  forallb (only_loops None false false) exprs.

Inductive lv : value -> Prop :=
| lv_bool b : lv (VBool b)
| lv_int i : lv (VInt i)
| lv_str s : lv (VStr s)
| lv_fn cenv rec ps body : only_loops rec true true body = true ->
    (forall x v, In (x, v) cenv -> lv v) -> lv (VFn cenv rec ps body)
| lv_comp c fs : (forall v, In v fs -> lv v) -> lv (VComp c fs).
Definition le_env (en : env) : Prop := forall x v, In (x, v) en -> lv v.

Definition few {A} (P : A -> Prop) (k : nat) (r : dres A) : Prop :=
  snd r <= k /\ match fst r with Ok a => P a | _ => True end.

Lemma few_ret {A} (P : A -> Prop) k a : P a -> few P k (dret (Ok a)).
Proof. split; simpl; auto; lia. Qed.
Lemma few_stop {A} (P : A -> Prop) k (r : res A) : (forall a, r <> Ok a) -> few P k (dret r).
Proof. intros H. split; simpl; [lia|]. destruct r; auto. destruct (H a eq_refl). Qed.
Lemma few_bind {A B} (P : A -> Prop) (Q : B -> Prop) k r f :
  few P k r -> (forall a, P a -> few Q k (f a)) -> few Q k (dbind r f).
Proof.
  unfold few, dbind. intros [H1 H2] H. destruct (fst r) as [a| | |] eqn:E; simpl; auto.
  destruct (H a H2). split; auto. lia.
Qed.
Lemma few_any {A} k (r : res A) : few (fun _ => True) k (dret r).
Proof. split; simpl; [lia|]. destruct r; auto. Qed.
Lemma few_mapM {A B} (P : B -> Prop) k (f : A -> dres B) l :
  Forall (fun a => few P k (f a)) l -> few (Forall P) k (dmapM f l).
Proof.
  induction 1; simpl; [apply few_ret; auto|].
  eapply few_bind; eauto. intros. eapply few_bind; eauto. intros. apply few_ret; auto.
Qed.
Lemma few_le {A} (P : A -> Prop) j k r : j <= k -> few P j r -> few P k r.
Proof. intros H [H1 H2]. split; auto. lia. Qed.

Lemma lookup_lv n en v : le_env en -> lookup n en = Some v -> lv v.
Proof.
  intros H. induction en as [|[x w] en IH]; simpl; [discriminate|].
  destruct (Nat.eqb n x); intros E.
  - injection E as <-. eapply H; left; eauto.
  - apply IH; auto. intros y u Hy. eapply H. right; eauto.
Qed.
Lemma cons_lv n v en : lv v -> le_env en -> le_env ((n, v) :: en).
Proof. intros Hv He x w [E|E]; [injection E as <- <-; auto|eapply He; eauto]. Qed.
Lemma add_all_lv bs : forall vs en, le_env en -> Forall lv vs -> le_env (add_all en bs vs).
Proof.
  induction bs as [|b bs IH]; intros [|v vs] en He Hv; simpl; auto.
  inversion Hv; subst. apply IH; auto. apply cons_lv; auto.
Qed.
Lemma call_env_lv cenv rec ps body vs : lv (VFn cenv rec ps body) -> Forall lv vs ->
  le_env (call_env cenv rec ps body vs).
Proof.
  intros H Hv. inversion H as [| | |? ? ? ? Hb Hc|]; subst.
  assert (He : le_env (add_all cenv ps vs)) by (apply add_all_lv; auto).
  unfold call_env. destruct rec; auto. apply cons_lv; auto.
Qed.

Definition b2n (inside : bool) : nat := if inside then 0 else 1.

Lemma few_intr go i xs k : Forall (fun e => few lv k (go e)) xs -> few lv k (intr_d go i xs).
Proof.
  intros H. destruct i; simpl; inversion H as [|x0 l0 H0 H1]; subst;
    try (apply few_stop; discriminate);
    repeat (first [ apply few_ret; constructor; fail
                  | apply few_stop; discriminate
                  | eapply few_bind; [first [eassumption|apply few_any]|intros; cbv beta]
                  | match goal with H1 : Forall _ ?l |- few _ _ (match ?l with _ => _ end) =>
                      inversion H1; subst; clear H1 end ]).
Qed.

Theorem only_loops_flat n : forall e self tail inside en,
  only_loops self tail inside e = true -> le_env en ->
  few lv (b2n inside) (eval_d n self tail en e).
Proof.
  induction n as [n IHn] using lt_wf_ind. intros e.
  assert (HL : forall es, Forall (fun e => forall self tail inside en,
             only_loops self tail inside e = true -> le_env en ->
             few lv (b2n inside) (eval_d n self tail en e)) es ->
           forall self tail inside en, forallb (only_loops self tail inside) es = true -> le_env en ->
             Forall (fun e => few lv (b2n inside) (eval_d n self tail en e)) es).
  { induction 1; simpl; intros self tail inside en E He; auto.
    apply andb_true_iff in E as [E1 E2]. constructor; auto. }
  induction e using expr_ind_rec; intros self tail inside en HO He; rewrite eval_d_unfold;
    unfold eval_d_eqn; simpl only_loops in HO; rewrite ?andb_true_iff in HO;
    repeat match goal with H : _ /\ _ |- _ => destruct H end;
    try (apply few_ret; constructor; fail).
  - destruct (lookup n0 en) eqn:E; [|apply few_stop; discriminate].
    apply few_ret. eapply lookup_lv; eauto.
  - eapply few_bind; [apply few_mapM; eapply HL; eauto|]. intros vs Hvs.
    eapply few_bind; [eauto|]. intros fv Hfv. destruct fv as [| | | |cenv rec ps body]; try (apply few_stop; discriminate).
    destruct (length ps =? length vs); [|apply few_stop; discriminate]. cbv zeta.
    assert (Hr : few lv 0 (match n with 0 => dret OutOfFuel | S k => eval_d k rec true (call_env cenv rec ps body vs) body end)).
    { destruct n as [|k]; [apply few_stop; discriminate|].
      apply (IHn k (Nat.lt_succ_diag_r k) body rec true true).
      - inversion Hfv; auto.
      - apply call_env_lv; auto. }
    destruct (self_call self tail e) eqn:Es.
    + eapply few_le; [|exact Hr]. lia.
    + destruct inside; simpl in *; [congruence|]. destruct Hr as [Hr1 Hr2]. split; simpl; auto. lia.
  - eapply few_bind; [eauto|]. intros v Hv. eapply few_bind; [apply few_any|]. intros b _. destruct b; eauto.
  - eapply few_bind; [eauto|]. intros v Hv. eapply few_bind; [apply few_any|]. intros b _.
    eapply few_bind; [eauto|]. intros w Hw. eapply few_bind; [apply few_any|]. intros c _.
    apply few_ret. match goal with |- lv (eval_op ?o _ _) => destruct o end; constructor.
  - apply few_intr. eapply HL; eauto.
  - apply few_ret. constructor; auto.
  - eapply few_bind; [eauto|]. intros v Hv. destruct v as [| | |c fs|]; try (apply few_stop; discriminate).
    destruct (find_branch c brs) as [[bs b]|] eqn:Ef; [|apply few_stop; discriminate].
    destruct (length bs =? length fs); [|apply few_stop; discriminate].
    assert (Hin : In ((c, bs), b) brs).
    { clear - Ef. induction brs as [|[[c' bs'] b'] r IH]; simpl in *; [discriminate|].
      destruct (Nat.eqb_spec c' c); [injection Ef as <- <-; subst; auto|auto]. }
    rewrite Forall_forall in H. rewrite forallb_forall in H1.
    apply (H _ Hin); [exact (H1 _ Hin)|]. apply add_all_lv; auto. inversion Hv; subst. apply Forall_forall; auto.
  - eapply few_bind; [apply few_mapM; eapply HL; eauto|]. intros vs Hvs.
    unfold mk_tagged. destruct (length vs <=? max_fields); [|apply few_stop; discriminate].
    apply few_ret. constructor. rewrite Forall_forall in Hvs; auto.
  - eapply few_bind; [eauto|]. intros v Hv. apply IHe2; auto. apply cons_lv; auto.
  - destruct e1; try discriminate. simpl strip_pis. apply IHe2; auto. apply cons_lv; auto. constructor; auto.
  - eauto.
  - eauto.
  - apply few_stop. discriminate.
Qed.

Theorem only_loops_nesting n p exprs : only_loops_program p exprs = true -> nesting n p exprs <= 1.
Proof.
  unfold only_loops_program. rewrite andb_true_iff. intros [Hd He].
  assert (H : few (Forall lv) 1 (run_d n p exprs)); [|apply H].
  unfold run_d. eapply (@few_bind _ _ le_env).
  - assert (G : le_env []) by (intros x v []). revert G. generalize (@nil (name * value)).
    induction (p_defs p) as [|d ds IH]; simpl in *; intros en G; [apply few_ret; auto|].
    apply andb_true_iff in Hd as [H1 H2].
    eapply few_bind; [apply (@only_loops_flat n _ _ _ false); eauto|]. intros v Hv. apply IH; auto. apply cons_lv; auto.
  - intros en Hen. apply few_mapM. apply Forall_forall. intros e Hin. rewrite forallb_forall in He.
    apply (@only_loops_flat n _ _ _ false); auto.
Qed.
