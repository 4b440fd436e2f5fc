(** Facts relating runs with different fuel and different evaluation orders of callee and arguments. *)
From Verif Require Import EvalFacts.
Set Implicit Arguments.

(** ** More fuel changes nothing but "out of fuel" *)
Definition lres {A} (r r' : res A) : Prop := r = OutOfFuel \/ r = r'.
Lemma lres_refl {A} (r : res A) : lres r r.
Proof. right; auto. Qed.
Lemma lres_bind {A B} (r r' : res A) (f g : A -> res B) :
  lres r r' -> (forall a, lres (f a) (g a)) -> lres (bind r f) (bind r' g).
Proof.
  intros [->| ->] H; [left; auto|]. destruct r'; simpl; auto using lres_refl.
Qed.
Lemma lres_mapM {A B} (f g : A -> res B) l : Forall (fun a => lres (f a) (g a)) l -> lres (mapM f l) (mapM g l).
Proof.
  induction 1; [apply lres_refl|]. rewrite !mapM_cons. apply lres_bind; auto. intros a.
  apply lres_bind; auto. intros; apply lres_refl.
Qed.

Lemma eval_mono_S o n : forall e en, lres (eval_o o n en e) (eval_o o (S n) en e).
Proof.
  induction n as [n IHn] using lt_wf_ind. intros e.
  assert (Hcall : forall f vs, lres (call_o o n f vs) (call_o o (S n) f vs)).
  { intros f vs. unfold call_o. destruct f; try apply lres_refl. destruct (_ =? _); [|apply lres_refl].
    destruct n as [|n]; [left; auto|]. apply IHn. lia. }
  induction e using expr_ind'; intros en; rewrite !eval_unfold; cbn [eval_eqn]; try apply lres_refl; eauto.
  - destruct o; repeat (apply lres_bind; [auto|intros]); auto.
    + destruct a; try apply lres_refl. apply lres_bind; auto. apply lres_mapM. eapply Forall_impl; [|exact H]; auto.
    + apply lres_mapM. eapply Forall_impl; [|exact H]; auto.
  - apply lres_bind; auto; intros v. apply lres_bind; [apply lres_refl|]. intros []; auto.
  - repeat (apply lres_bind; [auto using lres_refl|intros]). apply lres_refl.
  - destruct i; (destruct args as [|x0 [|x1 [|x2 xs]]]; try apply lres_refl);
      repeat match goal with HF : Forall _ (_ :: _) |- _ => inversion HF; clear HF; subst end;
      repeat (apply lres_bind; [auto using lres_refl|intros]); apply lres_refl.
  - apply lres_bind; auto. intros v. destruct v; try apply lres_refl.
    destruct (find_branch c brs) as [[bs b]|] eqn:E; [|apply lres_refl].
    destruct (_ =? _); [|apply lres_refl]. rewrite Forall_forall in H.
    assert (Hin : exists c', In ((c', bs), b) brs).
    { clear - E. induction brs as [|[[c' bs'] b'] brs IH]; simpl in *; [discriminate|].
      destruct (Nat.eqb c' c); [injection E as -> ->; eauto|]. destruct (IH E); eauto. }
    destruct Hin as [c' Hin]. apply (H _ Hin).
  - apply lres_bind; [|intros; apply lres_refl]. apply lres_mapM. eapply Forall_impl; [|exact H]; auto.
  - apply lres_bind; auto.
  - destruct (strip_pis e1); try apply lres_refl. auto.
Qed.

Lemma lres_trans {A} (a b c : res A) : lres a b -> lres b c -> lres a c.
Proof. intros [->| ->]; [left; auto|]. auto. Qed.
Lemma eval_mono o n m e en : n <= m -> lres (eval_o o n en e) (eval_o o m en e).
Proof. induction 1; [apply lres_refl|]. eapply lres_trans; eauto. apply eval_mono_S. Qed.
Lemma eval_defs_mono o n m ds : n <= m -> forall en, lres (eval_defs_o o n en ds) (eval_defs_o o m en ds).
Proof.
  intros H; induction ds as [|d ds IH]; intros en; simpl; [apply lres_refl|].
  apply lres_bind; auto using eval_mono.
Qed.
Lemma run_mono o n m p exprs : n <= m -> lres (run_o o n p exprs) (run_o o m p exprs).
Proof.
  intros H. unfold run_o. apply lres_bind; [apply eval_defs_mono; auto|]. intros en. apply lres_mapM.
  apply Forall_forall. intros; apply eval_mono; auto.
Qed.

(** ** Successful runs do not depend on the order *)
Lemma mapM_ok {A B} (f g : A -> res B) l : Forall (fun a => forall v, f a = Ok v -> g a = Ok v) l ->
  forall vs, mapM f l = Ok vs -> mapM g l = Ok vs.
Proof.
  induction 1; intros vs Hm; auto. rewrite mapM_cons in *.
  apply bind_ok in Hm as (v & E & Hm). apply bind_ok in Hm as (ws & E2 & Hm). injection Hm as <-.
  rewrite (H _ E). simpl. rewrite (IHForall _ E2). auto.
Qed.

Lemma eval_order o1 o2 n : forall e en v, eval_o o1 n en e = Ok v -> eval_o o2 n en e = Ok v.
Proof.
  induction n as [n IHn] using lt_wf_ind. intros e.
  assert (Hcall : forall f vs v, call_o o1 n f vs = Ok v -> call_o o2 n f vs = Ok v).
  { intros f vs v. unfold call_o. destruct f; auto. destruct (_ =? _); auto.
    destruct n as [|n]; [auto|apply IHn; lia]. }
  induction e using expr_ind'; intros en w Hev; rewrite eval_unfold in *; cbn [eval_eqn] in *; auto.
  - assert (HH : exists fv vs, eval_o o1 n en e = Ok fv /\ mapM (eval_o o1 n en) args = Ok vs /\ call_o o1 n fv vs = Ok w).
    { destruct o1.
      - apply bind_ok in Hev as (fv & E & Hev). destruct fv; try discriminate. apply bind_ok in Hev as (vs & E2 & Hev). eauto.
      - apply bind_ok in Hev as (vs & E & Hev). apply bind_ok in Hev as (fv & E2 & Hev). eauto. }
    destruct HH as (fv & vs & E1 & E2 & E3). apply IHe in E1.
    apply (@mapM_ok _ _ (eval_o o1 n en) (eval_o o2 n en)) in E2; [|eapply Forall_impl; [|exact H]; intros a Ha v; apply Ha].
    apply Hcall in E3. destruct o2.
    + rewrite E1. simpl. destruct fv; try discriminate. rewrite E2. exact E3.
    + rewrite E2. simpl. rewrite E1. exact E3.
  - apply bind_ok in Hev as (cv & E & Hev). apply bind_ok in Hev as (b & Eb & Hev).
    rewrite (IHe1 _ _ E). simpl. rewrite Eb. simpl. destruct b; auto.
  - apply bind_ok in Hev as (va & E & Hev). apply bind_ok in Hev as (x & Ex & Hev).
    apply bind_ok in Hev as (vb & E2 & Hev). apply bind_ok in Hev as (y & Ey & Hev).
    rewrite (IHe1 _ _ E). simpl. rewrite Ex. simpl. rewrite (IHe2 _ _ E2). simpl. rewrite Ey. auto.
  - destruct i; (destruct args as [|x0 [|x1 [|x2 xs]]]; try discriminate);
      repeat match goal with HF : Forall _ (_ :: _) |- _ => inversion HF; clear HF; subst end;
      repeat (match goal with
        | Hb : bind (eval_o _ _ _ ?x) _ = Ok _ |- _ =>
          let v := fresh "v" in let E := fresh "E" in
          apply bind_ok in Hb as (v & E & Hb);
          match goal with IH : forall en v, eval_o _ _ _ x = Ok v -> _ |- _ => rewrite (IH _ _ E); simpl end
        | Hb : bind ?r _ = Ok _ |- _ =>
          let v := fresh "v" in let E := fresh "E" in
          apply bind_ok in Hb as (v & E & Hb); rewrite E; simpl
        end); try discriminate; auto.
  - apply bind_ok in Hev as (dv & E & Hev). rewrite (IHe _ _ E). simpl. destruct dv; try discriminate.
    destruct (find_branch c brs) as [[bs b]|] eqn:Eb; [|discriminate].
    destruct (_ =? _); [|discriminate]. rewrite Forall_forall in H.
    assert (Hin : exists c', In ((c', bs), b) brs).
    { clear - Eb. induction brs as [|[[c' bs'] b'] brs IH]; simpl in *; [discriminate|].
      destruct (Nat.eqb c' c); [injection Eb as -> ->; eauto|]. destruct (IH Eb); eauto. }
    destruct Hin as [c' Hin]. apply (H _ Hin). auto.
  - apply bind_ok in Hev as (vs & E & Hev).
    apply (@mapM_ok _ _ (eval_o o1 n en) (eval_o o2 n en)) in E; [|eapply Forall_impl; [|exact H]; intros a Ha v; apply Ha]. rewrite E. auto.
  - apply bind_ok in Hev as (vv & E & Hev). rewrite (IHe1 _ _ E). simpl. auto.
  - destruct (strip_pis e1); try discriminate. auto.
Qed.

Lemma eval_defs_order o1 o2 n ds : forall en en', eval_defs_o o1 n en ds = Ok en' -> eval_defs_o o2 n en ds = Ok en'.
Proof.
  induction ds as [|d ds IH]; intros en en' H; simpl in *; auto.
  apply bind_ok in H as (v & E & H). rewrite (eval_order o1 o2 _ _ _ E). simpl; auto.
Qed.
Lemma run_order o1 o2 n p exprs vs : run_o o1 n p exprs = Ok vs -> run_o o2 n p exprs = Ok vs.
Proof.
  unfold run_o. intros H. apply bind_ok in H as (en & E & H). rewrite (eval_defs_order o1 o2 _ _ _ E). simpl.
  eapply mapM_ok; [|exact H]. apply Forall_forall. intros e _ v. apply eval_order.
Qed.

(** ** Programs whose callees are names or functions: all outcomes agree *)
Definition atom (e : expr) : bool :=
  (fix go (e : expr) := match e with EName _ | ELam _ _ => true | EPi _ e | EPiApp e _ => go e | _ => false end) e.

Fixpoint atomic_callees (e : expr) : bool :=
  match e with
  | EBool _ | EInt _ | EString _ | ETrap _ _ | EName _ => true
  | ECall f args => atom f && atomic_callees f && forallb atomic_callees args
  | EIf c t e => atomic_callees c && atomic_callees t && atomic_callees e
  | EOp a _ b => atomic_callees a && atomic_callees b
  | EIntr _ args => forallb atomic_callees args
  | ELam _ b => atomic_callees b
  | EMatch d brs => atomic_callees d && forallb (fun br => atomic_callees (snd br)) brs
  | EConstruct _ _ fs => forallb atomic_callees fs
  | ELet _ v e => atomic_callees v && atomic_callees e
  | ELetRec _ _ v e => atomic_callees v && atomic_callees e
  | EPi _ e => atomic_callees e
  | EPiApp e _ => atomic_callees e
  end.

Inductive good : value -> Prop :=
| GInt i : good (VInt i)
| GBool b : good (VBool b)
| GStr s : good (VStr s)
| GComp c vs : Forall good vs -> good (VComp c vs)
| GFn en rec ps body : Forall (fun b => good (snd b)) en -> atomic_callees body = true -> good (VFn en rec ps body).
Definition good_env (en : env) : Prop := Forall (fun b => good (snd b)) en.

Lemma good_lookup en x v : good_env en -> lookup x en = Some v -> good v.
Proof.
  induction 1 as [|[y w] en Hw _ IH]; simpl; [discriminate|]. destruct (Nat.eqb x y); auto.
  intros H; injection H as <-; auto.
Qed.
Lemma good_add_all en ns vs : good_env en -> Forall good vs -> good_env (add_all en ns vs).
Proof.
  intros He Hv; revert en ns He; induction Hv; intros en [|n ns] He; simpl; auto.
  apply IHHv. constructor; auto.
Qed.

(** [r] is the callee-first result, [r'] the arguments-first one. *)
Definition agree {A} (G : A -> Prop) (r r' : res A) : Prop :=
  (r = Panic \/ r' = r) /\ (forall v, r = Ok v -> G v).
Lemma agree_bind {A B} (G : A -> Prop) (K : B -> Prop) r r' f g :
  agree G r r' -> (forall a, G a -> agree K (f a) (g a)) -> agree K (bind r f) (bind r' g).
Proof.
  intros [[->| ->] H] Hf; [split; [left; auto|discriminate]|].
  destruct r; simpl; try (split; [right; auto|discriminate]). auto.
Qed.
Lemma agree_refl {A} (G : A -> Prop) r : (forall v, r = Ok v -> G v) -> agree G r r.
Proof. split; auto. Qed.
Lemma agree_mapM {A} (G : value -> Prop) (f g : A -> res value) l :
  Forall (fun a => agree G (f a) (g a)) l -> agree (Forall G) (mapM f l) (mapM g l).
Proof.
  induction 1; simpl.
  - apply agree_refl. intros v E; injection E as <-; auto.
  - eapply agree_bind; eauto. intros a Ha. eapply agree_bind; eauto. intros vs Hvs. apply agree_refl.
    intros v E; injection E as <-; auto.
Qed.

Lemma atom_eval o n e : atom e = true -> forall en,
  eval_o o n en e = Panic \/ exists v, eval_o o n en e = Ok v.
Proof.
  induction e using expr_ind'; simpl; try discriminate; intros Ha en; rewrite eval_unfold; cbn [eval_eqn]; eauto.
  destruct (lookup n0 en); eauto.
Qed.

Lemma agree_order n : forall e en, atomic_callees e = true -> good_env en ->
  agree good (eval_o FnFirst n en e) (eval_o ArgsFirst n en e).
Proof.
  induction n as [n IHn] using lt_wf_ind. intros e.
  assert (Hcall : forall f vs, good f -> Forall good vs -> agree good (call_o FnFirst n f vs) (call_o ArgsFirst n f vs)).
  { intros f vs Hf Hvs. unfold call_o. destruct f; try (apply agree_refl; discriminate).
    destruct (_ =? _); [|apply agree_refl; discriminate].
    destruct n as [|n]; [apply agree_refl; discriminate|]. inversion Hf; subst. apply IHn; auto.
    unfold call_env. assert (Hg := good_add_all ps H1 Hvs). destruct rec; auto. constructor; auto. }
  induction e using expr_ind'; intros en Ha He; simpl in Ha.
  - rewrite !eval_unfold. apply agree_refl. simpl. intros v E; injection E as <-; constructor.
  - rewrite !eval_unfold. apply agree_refl. simpl. intros v E; injection E as <-; constructor.
  - rewrite !eval_unfold. apply agree_refl. simpl. intros v E; injection E as <-; constructor.
  - rewrite !eval_unfold. apply agree_refl. simpl. destruct (lookup n0 en) eqn:E; intros w Ev; inversion Ev; subst.
    eapply good_lookup; eauto.
  - apply andb_prop in Ha as [Ha Hargs]. apply andb_prop in Ha as [Hat Hf].
    rewrite !eval_unfold. cbn [eval_eqn]. specialize (IHe en Hf He) as [[Ef|Ef] Hg].
    { rewrite Ef. split; [left; auto|discriminate]. }
    destruct (atom_eval FnFirst n e Hat en) as [Ev|[fv Ev]].
    { rewrite Ev. split; [left; auto|discriminate]. }
    rewrite Ev in *. simpl. destruct fv; try (split; [left; auto|discriminate]).
    eapply agree_bind.
    + apply agree_mapM. rewrite Forall_forall in *. rewrite forallb_forall in Hargs. intros a Hin. apply H; auto.
    + intros vs Hvs. rewrite Ef. cbn [bind]. apply Hcall; auto.
  - apply andb_prop in Ha as [Ha H3]. apply andb_prop in Ha as [H1 H2]. rewrite !eval_unfold. cbn [eval_eqn].
    eapply agree_bind; eauto. intros v _. eapply agree_bind with (G := fun _ => True); [apply agree_refl; auto|].
    intros [] _; auto.
  - apply andb_prop in Ha as [H1 H2]. rewrite !eval_unfold. cbn [eval_eqn].
    eapply agree_bind; eauto. intros va _. eapply agree_bind with (G := fun _ => True); [apply agree_refl; auto|].
    intros x _. eapply agree_bind; eauto. intros vb _. eapply agree_bind with (G := fun _ => True); [apply agree_refl; auto|].
    intros y _. apply agree_refl. intros v E; injection E as <-. destruct o; constructor.
  - rewrite !eval_unfold. cbn [eval_eqn].
    destruct i; (destruct args as [|x0 [|x1 [|x2 xs]]]; try (apply agree_refl; discriminate));
      simpl in Ha; repeat (match goal with Hx : _ && _ = true |- _ => apply andb_prop in Hx as [? ?] end);
      repeat match goal with HF : Forall _ (_ :: _) |- _ => inversion HF; clear HF; subst end;
      repeat (first [ eapply agree_bind; [solve [eauto]|intros ? _]
                    | eapply agree_bind with (G := fun _ => True); [solve [apply agree_refl; auto]|intros ? _] ]);
      try (apply agree_refl; intros ? E; discriminate E);
      apply agree_refl; intros v E; injection E as <-; constructor.
  - rewrite !eval_unfold. apply agree_refl. simpl. intros v E; injection E as <-; constructor; auto.
  - apply andb_prop in Ha as [H1 H2]. rewrite !eval_unfold. cbn [eval_eqn].
    eapply agree_bind; eauto. intros v Hv. destruct v; try (apply agree_refl; discriminate).
    destruct (find_branch c brs) as [[bs b]|] eqn:Eb; [|apply agree_refl; discriminate].
    destruct (_ =? _); [|apply agree_refl; discriminate]. rewrite Forall_forall in H. rewrite forallb_forall in H2.
    assert (Hin : exists c', In ((c', bs), b) brs).
    { clear - Eb. induction brs as [|[[c' bs'] b'] brs IH]; simpl in *; [discriminate|].
      destruct (Nat.eqb c' c); [injection Eb as -> ->; eauto|]. destruct (IH Eb); eauto. }
    destruct Hin as [c' Hin]. apply (H _ Hin); [apply (H2 _ Hin)|]. inversion Hv; subst. apply good_add_all; auto.
  - rewrite !eval_unfold. cbn [eval_eqn]. eapply agree_bind.
    + apply agree_mapM. rewrite Forall_forall in *. rewrite forallb_forall in Ha. intros a Hin. apply H; auto.
    + intros vs Hvs. apply agree_refl. unfold mk_tagged. destruct (_ <=? _); [|discriminate].
      intros v E; injection E as <-; constructor; auto.
  - apply andb_prop in Ha as [H1 H2]. rewrite !eval_unfold. cbn [eval_eqn].
    eapply agree_bind; eauto. intros vv Hv. apply IHe2; auto. constructor; auto.
  - apply andb_prop in Ha as [H1 H2]. rewrite !eval_unfold. cbn [eval_eqn].
    destruct (strip_pis e1) eqn:Es; try (apply agree_refl; discriminate).
    apply IHe2; auto. constructor; auto. constructor; auto.
    clear - H1 Es. revert H1. induction e1; simpl in *; try discriminate; auto. injection Es as -> ->; auto.
  - rewrite !eval_unfold. cbn [eval_eqn]. auto.
  - rewrite !eval_unfold. cbn [eval_eqn]. auto.
  - rewrite !eval_unfold. apply agree_refl. discriminate.
Qed.

Definition atomic_program (p : program) (exprs : list expr) : bool :=
  forallb (fun d => atomic_callees (vd_value d)) (p_defs p) && forallb atomic_callees exprs.

Lemma run_agree n p exprs : atomic_program p exprs = true ->
  run_o FnFirst n p exprs = Panic \/ run_o ArgsFirst n p exprs = run_o FnFirst n p exprs.
Proof.
  intros H. apply andb_prop in H as [H1 H2]. unfold run_o.
  assert (Hd : forall ds en, forallb (fun d => atomic_callees (vd_value d)) ds = true -> good_env en ->
     agree good_env (eval_defs_o FnFirst n en ds) (eval_defs_o ArgsFirst n en ds)).
  { induction ds as [|d ds IH]; intros en Hds He; simpl in *.
    - apply agree_refl. intros v E; injection E as <-; auto.
    - apply andb_prop in Hds as [A B]. eapply agree_bind; [apply agree_order; auto|]. intros v Hv.
      apply IH; auto. constructor; auto. }
  eapply (@agree_bind _ _ good_env (fun _ => True)).
  - apply Hd; auto. constructor.
  - intros en He. destruct (@agree_mapM _ good (eval_o FnFirst n en) (eval_o ArgsFirst n en) exprs) as [A B]; [|split; auto].
    apply Forall_forall. rewrite forallb_forall in H2. intros; apply agree_order; auto.
Qed.
