(** Types do not matter to the tree-walking runner: type applications and abstractions can be taken away. *)
From Verif Require Import EvalFacts Orders Vm OptEv OptRel OptGood OptWalk OptPasses.
Set Implicit Arguments.

(** The expression without types.  A recursive definition that is not a function stays one that is not. *)
Fixpoint er (e : expr) : expr :=
  match e with
  | EBool _ | EInt _ | EString _ | EName _ => e
  | ECall a b => ECall (er a) (map er b)
  | EIf a b c => EIf (er a) (er b) (er c)
  | EOp a o b => EOp (er a) o (er b)
  | EIntr i b => EIntr i (map er b)
  | ELam ps b => ELam (map (fun p => (fst p, TInt)) ps) (er b)
  | EMatch d brs => EMatch (er d) (map (fun br => (fst br, er (snd br))) brs)
  | EConstruct c _ fs => EConstruct c [] (map er fs)
  | ELet x a b => ELet x (er a) (er b)
  | ELetRec x _ a b => ELetRec x TInt (match strip_pis a with ELam _ _ => er a | _ => EInt 0 end) (er b)
  | EPi _ e | EPiApp e _ => er e
  | ETrap m _ => ETrap m TInt
  end.
Fixpoint er_v (v : value) : value :=
  match v with
  | VInt _ | VBool _ | VStr _ => v
  | VComp c fs => VComp c (map er_v fs)
  | VFn en rec ps b => VFn (map (fun p => (fst p, er_v (snd p))) en) rec ps (er b)
  end.
Definition er_env (en : env) : env := map (fun p => (fst p, er_v (snd p))) en.
Definition rmap {A B} (f : A -> B) (r : res A) : res B :=
  match r with Ok a => Ok (f a) | Trap m => Trap m | Panic => Panic | OutOfFuel => OutOfFuel end.

Lemma rmap_bind {A B C D} (f : A -> B) (g : C -> D) (r : res A) (k : A -> res C) (k' : B -> res D) :
  (forall a, k' (f a) = rmap g (k a)) -> bind (rmap f r) k' = rmap g (bind r k).
Proof. destruct r; cbn; auto. Qed.
Lemma rmap_bind' {A C D} (g : C -> D) (r : res A) (k : A -> res C) (k' : A -> res D) :
  (forall a, k' a = rmap g (k a)) -> bind r k' = rmap g (bind r k).
Proof. destruct r; cbn; auto. Qed.
Lemma mapM_er {A B C D} (h : A -> C) (f : A -> res B) (f' : C -> res D) (g : B -> D) l :
  Forall (fun a => f' (h a) = rmap g (f a)) l -> mapM f' (map h l) = rmap (map g) (mapM f l).
Proof.
  induction 1 as [|a l E _ IH]; auto. cbn [map]. rewrite !mapM_cons, E. apply rmap_bind. intros b. rewrite IH. apply rmap_bind. reflexivity.
Qed.
Lemma lookup_er x en : lookup x (er_env en) = option_map er_v (lookup x en).
Proof. induction en as [|[y v] en IH]; cbn; auto. destruct (Nat.eqb x y); auto. Qed.
Lemma add_er : forall ps vs en, add_all (er_env en) ps (map er_v vs) = er_env (add_all en ps vs).
Proof. induction ps as [|p ps IH]; intros [|v vs] en; cbn; auto. apply (IH vs ((p, v) :: en)). Qed.
Lemma find_er c brs : find_branch c (map (fun br => (fst br, er (snd br))) brs) = option_map (fun p => (fst p, er (snd p))) (find_branch c brs).
Proof. induction brs as [|[[c' bs] b] brs IH]; cbn; auto. destruct (Nat.eqb c' c); auto. Qed.
Lemma er_lam : forall e qs c, strip_pis e = ELam qs c -> er e = ELam (map (fun p => (fst p, TInt)) qs) (er c).
Proof. induction e; intros qs0 lm H; cbn in H; try discriminate; cbn; auto. injection H as -> ->. auto. Qed.
Lemma fst_er (ps : list (name * ty)) : map fst (map (fun p => (fst p, TInt)) ps) = map fst ps.
Proof. rewrite map_map. reflexivity. Qed.
Lemma int_er v : into_int (er_v v) = into_int v. Proof. destruct v; auto. Qed.
Lemma bool_er v : into_bool (er_v v) = into_bool v. Proof. destruct v; auto. Qed.
Lemma str_er v : into_string (er_v v) = into_string v. Proof. destruct v; auto. Qed.

Lemma eval_er o n : forall e en, eval_o o n (er_env en) (er e) = rmap er_v (eval_o o n en e).
Proof.
  induction n as [n IHn] using lt_wf_ind. intros e.
  assert (Hcall : forall f vs, call_o o n (er_v f) (map er_v vs) = rmap er_v (call_o o n f vs)).
  { intros f vs. unfold call_o. destruct f as [| | | |ce rec ps b]; auto. cbn [er_v]. rewrite map_length. destruct (_ =? _); auto. destruct n as [|n]; auto.
    rewrite <- IHn by lia. f_equal. unfold call_env. fold (er_env ce). rewrite add_er. destruct rec; reflexivity. }
  assert (HM : forall en l, Forall (fun e => forall en, eval_o o n (er_env en) (er e) = rmap er_v (eval_o o n en e)) l ->
    mapM (eval_o o n (er_env en)) (map er l) = rmap (map er_v) (mapM (eval_o o n en) l)).
  { intros en l H. apply mapM_er. eapply Forall_impl; [|exact H]; auto. }
  induction e using expr_ind'; intros en; rewrite (eval_unfold o n en); cbn [er]; try (rewrite (eval_unfold o n (er_env en)); cbn [eval_eqn]).
  all: try reflexivity.
  - rewrite lookup_er. rewrite ?lookup_er; match goal with |- context [lookup ?a ?b] => destruct (lookup a b) end; reflexivity.
  - rewrite IHe, HM by auto. destruct o.
    + apply rmap_bind. intros f. destruct f; try reflexivity. cbn [er_v]. apply rmap_bind. intros vs. apply (Hcall (VFn _ _ _ _)).
    + apply rmap_bind. intros vs. apply rmap_bind. intros f. apply Hcall.
  - rewrite IHe1. apply rmap_bind. intros v. rewrite bool_er. apply rmap_bind'. intros []; auto.
  - rewrite IHe1. apply rmap_bind. intros v. rewrite int_er. apply rmap_bind'. intros x. rewrite IHe2. apply rmap_bind. intros w. rewrite int_er. apply rmap_bind'. intros y. cbn [rmap]. f_equal. destruct o0; reflexivity.
  - destruct i; (destruct args as [|x0 [|x1 [|x2 xs]]]; cbn [map]; try reflexivity);
      repeat match goal with HF : Forall _ (_ :: _) |- _ => inversion HF; clear HF; subst end;
      repeat match goal with
        | HF : (forall en, eval_o o n (er_env en) (er ?x) = _) |- context [eval_o o n (er_env _) (er ?x)] => rewrite HF; apply rmap_bind; intros ?; rewrite ?int_er, ?str_er; apply rmap_bind'; intros ?
        end; reflexivity.
  - rewrite fst_er. reflexivity.
  - rewrite IHe. apply rmap_bind. intros v. destruct v; try reflexivity. cbn [er_v]. rewrite find_er.
    destruct (find_branch c brs) as [[bs x]|] eqn:E; [|reflexivity]. cbn [option_map fst snd]. rewrite map_length. destruct (_ =? _); [|reflexivity]. rewrite add_er.
    rewrite Forall_forall in H.
    assert (Hin : exists c', In ((c', bs), x) brs).
    { clear - E. induction brs as [|[[c' bs'] b'] brs IH]; simpl in *; [discriminate|].
      destruct (Nat.eqb c' c); [injection E as -> ->; eauto|]. destruct (IH E); eauto. }
    destruct Hin as [c' Hin]. apply (H _ Hin).
  - rewrite HM by auto. apply rmap_bind. intros vs. unfold mk_tagged. rewrite map_length. destruct (_ <=? _); reflexivity.
  - rewrite IHe1. apply rmap_bind. intros v. apply (IHe2 ((_, v) :: en)).
  - destruct (strip_pis e1) eqn:E; try reflexivity. rewrite (er_lam _ E). cbn [strip_pis]. rewrite fst_er. apply (IHe2 ((_, VFn en _ _ _) :: en)).
  - rewrite <- (eval_unfold o n (er_env en)). apply IHe.
  - rewrite <- (eval_unfold o n (er_env en)). apply IHe.
Qed.

Lemma obs_er v : obs_value (er_v v) = obs_value v.
Proof. induction v using value_ind'; cbn; auto. rewrite map_map. f_equal. induction H; cbn; f_equal; auto. Qed.

(** ** reduce_pi leaves everything but the types *)
Lemma strip_tsub v w e : strip_pis (tsub_e v w e) = tsub_e v w (strip_pis e).
Proof. induction e; cbn; auto. Qed.
Lemma er_tsub v w e : er (tsub_e v w e) = er e.
Proof.
  induction e using expr_ind'; cbn; try assumption; f_equal; auto; rewrite ?map_map; auto.
  - rewrite <- (map_map (tsub_e v w) er). induction H; cbn; f_equal; auto.
  - rewrite <- (map_map (tsub_e v w) er). induction H; cbn; f_equal; auto.
  - cbn. induction H; cbn; f_equal; auto. cbn. f_equal. auto.
  - rewrite <- (map_map (tsub_e v w) er). induction H; cbn; f_equal; auto.
  - rewrite strip_tsub. destruct (strip_pis e1); cbn; auto.
Qed.
Lemma er_apply t : forall e e', apply_pi e t = Some e' -> er e' = er e.
Proof.
  induction e; intros e' H; cbn in H; try discriminate.
  - destruct (apply_pi e2 t) eqn:E; cbn in H; [|discriminate]. injection H as <-. cbn. f_equal. auto.
  - injection H as <-. cbn [er]. apply er_tsub.
Qed.
Lemma er_step e e' : reduce_pi_step e = Some e' -> er e' = er e.
Proof. destruct e; cbn; try (intros [= <-]; reflexivity). destruct (can_apply_pi e); [apply er_apply|intros [= <-]; reflexivity]. Qed.

Ltac undo := repeat match goal with
  | H : (do _ <- ?x ; _) = Some _ |- _ => destruct x eqn:?; cbn [obind] in H; [|discriminate]
  | H : Some _ = Some _ |- _ => injection H as <-
  end.
Lemma strip_post : forall e qs0 lm e', strip_pis e = ELam qs0 lm -> post reduce_pi_step e = Some e' -> exists b, strip_pis e' = ELam qs0 b.
Proof.
  induction e; intros qs0 lm e' E H; cbn in E; try discriminate; rewrite post_eq in H; cbn [children] in H; undo.
  - injection E as -> ->. cbn in H. injection H as <-. cbn. eauto.
  - cbn in H. injection H as <-. cbn. eapply IHe; eauto.
Qed.
Lemma omap_er f : forall l l', Forall (fun e => recs false e = true -> forall e', f e = Some e' -> er e' = er e) l -> forallb (recs false) l = true -> omap f l = Some l' -> map er l' = map er l.
Proof.
  induction l as [|e l IH]; intros l' HF HR H; cbn in *; undo; auto. inversion_clear HF. apply andb_prop in HR as [R1 R2]. cbn. f_equal; auto.
Qed.
Lemma er_post : forall e, recs false e = true -> forall e', post reduce_pi_step e = Some e' -> er e' = er e.
Proof.
  induction e using expr_ind'; intros R e' HP; rewrite post_eq in HP; cbn [children] in HP; cbn [recs] in R; repeat (apply andb_prop in R as [R ?]); undo;
    apply er_step in HP; rewrite HP; cbn [er]; try (eauto; fail); f_equal; eauto using omap_er.
  - clear HP. match goal with HO : omap _ brs = Some ?l |- _ => revert l HO end. clear R. revert H. match goal with HR : forallb _ brs = true |- _ => revert HR end. clear. induction brs as [|br brs IH]; intros HR HF l HO; cbn in *; undo; auto.
    inversion_clear HF. apply andb_prop in HR as [R1 R2]. cbn. f_equal; auto. f_equal. eauto.
  - destruct (strip_pis e1) eqn:E; try discriminate. match goal with HO : post _ e1 = Some _ |- _ => destruct (strip_post _ E HO) as [b' ->]; eauto end.
Qed.

(** ** Programs *)
Lemma same_ev o n en en' e e' : er_env en' = er_env en -> er e' = er e -> rmap er_v (eval_o o n en' e') = rmap er_v (eval_o o n en e).
Proof. intros E E'. rewrite <- !eval_er. congruence. Qed.
Definition pi_def (d : valdef) : option valdef := do v <- post reduce_pi_step (vd_value d) ; Some (mkValDef (vd_name d) (vd_export d) (vd_ty d) v).
Lemma defs_er o n : forall ds ds' en en', forallb (fun d => recs false (vd_value d)) ds = true -> er_env en' = er_env en -> omap pi_def ds = Some ds' ->
  rmap er_env (eval_defs_o o n en' ds') = rmap er_env (eval_defs_o o n en ds).
Proof.
  induction ds as [|d ds IH]; intros ds' en en' R E H; cbn in H, R.
  - injection H as <-. cbn. congruence.
  - apply andb_prop in R as [R1 R2]. unfold pi_def in H at 1. undo. cbn [eval_defs_o vd_value vd_name].
    assert (V : rmap er_v (eval_o o n en' e) = rmap er_v (eval_o o n en (vd_value d))). { apply same_ev; auto. eapply er_post; eauto. }
    destruct (eval_o o n en' e), (eval_o o n en (vd_value d)); cbn in V |- *; try congruence. apply IH; auto. injection V as V. cbn. unfold er_env in *. cbn. congruence.
Qed.
Lemma exprs_er o n en en' l : er_env en' = er_env en -> rmap (map er_v) (mapM (eval_o o n en') l) = rmap (map er_v) (mapM (eval_o o n en) l).
Proof.
  intros E. induction l as [|e l IH]; auto. rewrite !mapM_cons. pose proof (@same_ev o n en en' e e E eq_refl) as V.
  destruct (eval_o o n en' e), (eval_o o n en e); cbn in V |- *; try congruence.
  destruct (mapM (eval_o o n en') l), (mapM (eval_o o n en) l); cbn in IH |- *; congruence.
Qed.
Lemma reduce_pi_er o n p p' exprs : forallb (fun d => recs false (vd_value d)) (p_defs p) = true -> reduce_pi p = Some p' ->
  rmap (map obs_value) (run_o o n p' exprs) = rmap (map obs_value) (run_o o n p exprs).
Proof.
  intros R H. unfold reduce_pi, on_defs in H. change (fun d => do v <- post reduce_pi_step (vd_value d) ; Some (mkValDef (vd_name d) (vd_export d) (vd_ty d) v)) with pi_def in H. undo.
  assert (S : rmap (map er_v) (run_o o n (mkProgram (p_types p) l) exprs) = rmap (map er_v) (run_o o n p exprs)).
  { unfold run_o. cbn [p_defs]. match goal with HO : omap _ _ = Some _ |- _ => pose proof (@defs_er o n _ _ [] [] R eq_refl HO) as D end.
    destruct (eval_defs_o o n [] l), (eval_defs_o o n [] (p_defs p)); cbn in D |- *; try congruence. apply exprs_er. congruence. }
  assert (Q : forall vs, map obs_value vs = map obs_value (map er_v vs)) by (intros vs; rewrite map_map; apply map_ext; intros; symmetry; apply obs_er).
  destruct (run_o o n (mkProgram (p_types p) l) exprs), (run_o o n p exprs); cbn in S |- *; congruence.
Qed.
