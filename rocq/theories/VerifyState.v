(** How the verifier's bookkeeping evolves: what each check adds to the sets of defined names and that
    scopes are restored. *)
From Verif Require Import Verify Wf.
From Coq Require Import Permutation.
Set Implicit Arguments.

Lemma mem_In x l : mem x l = true <-> In x l.
Proof.
  unfold mem. rewrite existsb_exists. split.
  - intros (y & H & E). apply Nat.eqb_eq in E as ->. auto.
  - intros H. exists x. rewrite Nat.eqb_refl. auto.
Qed.
Lemma mem_notIn x l : mem x l = false <-> ~ In x l.
Proof. rewrite <- mem_In. destruct (mem x l); intuition congruence. Qed.

Lemma assert_some b u : assert b = Some u -> b = true.
Proof. destruct b; simpl; congruence. Qed.

Lemma In_rem x n l : In x (rem n l) <-> In x l /\ x <> n.
Proof.
  unfold rem. rewrite filter_In. split.
  - intros [H E]. split; auto. intros ->. rewrite Nat.eqb_refl in E. discriminate.
  - intros [H E]. split; auto. destruct (Nat.eqb_spec x n); auto; congruence.
Qed.

(** [s'] is reached from [s] by defining the names [L], of which [P] (newest first) are still in scope,
    and [Q] the type variables newly in scope. *)
Record ext (L P : list name) (Q : list tyvar) (s s' : vstate) : Prop := mkExt {
  e_def : forall x, In x (v_defined s') <-> In x L \/ In x (v_defined s);
  e_nd : NoDup L;
  e_new : forall x, In x L -> ~ In x (v_defined s);
  e_scope : v_scope s' = P ++ v_scope s;
  e_scopety : v_scopety s' = Q ++ v_scopety s;
  e_defty : forall x, In x (v_defty s) -> In x (v_defty s');
  e_types : forall x, ~ In x L -> lookup x (v_types s') = lookup x (v_types s);
  e_ctors : v_ctors s' = v_ctors s;
  e_kinds : v_kinds s' = v_kinds s
}.
(** Only defined things are in scope. *)
Record wfs (s : vstate) : Prop := mkWfs {
  w_scope : forall x, In x (v_scope s) -> In x (v_defined s);
  w_scopety : forall x, In x (v_scopety s) -> In x (v_defty s)
}.

Lemma ext_refl s : ext [] [] [] s s.
Proof. constructor; simpl; auto using NoDup_nil; tauto. Qed.

Lemma NoDup_app_intro {A} (a b : list A) :
  NoDup a -> NoDup b -> (forall x, In x a -> In x b -> False) -> NoDup (a ++ b).
Proof.
  induction a as [|x a IH]; simpl; auto. intros Ha Hb Hd.
  apply NoDup_cons_iff in Ha as [Hx Ha]. constructor; eauto.
  rewrite in_app_iff. intros [H|H]; eauto.
Qed.

Lemma ext_trans L1 P1 Q1 L2 P2 Q2 s1 s2 s3 :
  ext L1 P1 Q1 s1 s2 -> ext L2 P2 Q2 s2 s3 -> ext (L1 ++ L2) (P2 ++ P1) (Q2 ++ Q1) s1 s3.
Proof.
  intros [] []. constructor.
  - intros x. rewrite e_def1, e_def0, in_app_iff. tauto.
  - apply NoDup_app_intro; auto. intros x H1 H2. apply e_new1 in H2. rewrite e_def0 in H2. tauto.
  - intros x. rewrite in_app_iff. intros [H|H]; auto. apply e_new1 in H. rewrite e_def0 in H. tauto.
  - rewrite e_scope1, e_scope0, app_assoc. auto.
  - rewrite e_scopety1, e_scopety0, app_assoc. auto.
  - auto.
  - intros x H. rewrite in_app_iff in H. rewrite e_types1, e_types0; tauto.
  - congruence.
  - congruence.
Qed.
Lemma ext_perm L L' P Q s s' : Permutation L L' -> ext L P Q s s' -> ext L' P Q s s'.
Proof.
  intros HP [].
  assert (HI : forall x, In x L' <-> In x L).
  { split; [apply Permutation_in; symmetry | apply Permutation_in]; auto. }
  constructor; auto.
  - intros x. rewrite e_def0, HI. tauto.
  - eapply Permutation_NoDup; eauto.
  - intros x H. apply e_new0, HI, H.
  - intros x H. apply e_types0. rewrite <- HI. auto.
Qed.
Lemma ext_wfs L P Q s s' :
  ext L P Q s s' -> wfs s -> (forall x, In x P -> In x L) -> (forall x, In x Q -> In x (v_defty s')) -> wfs s'.
Proof.
  intros [] [] HP HQ. constructor; intros x.
  - rewrite e_scope0, in_app_iff, e_def0. intros [H|H]; auto.
  - rewrite e_scopety0, in_app_iff. intros [H|H]; auto.
Qed.
Lemma ext0_wfs L s s' : ext L [] [] s s' -> wfs s -> wfs s'.
Proof. intros H Hw. eapply ext_wfs; eauto; simpl; tauto. Qed.

Lemma enter_ext limit n s s' :
  enter limit n s = Some s' ->
  ext [n] [n] [] s s' /\ ~ In n (v_defined s) /\ v_types s' = v_types s /\ v_defty s' = v_defty s.
Proof.
  unfold enter. destruct (n <? limit); [|discriminate].
  destruct (mem n (v_defined s)) eqn:E; [discriminate|]. intros H; injection H as <-.
  apply mem_notIn in E. split; [|split; [exact E|simpl; auto]].
  constructor; simpl; auto.
  - intros x. intuition.
  - constructor; auto using NoDup_nil.
  - intros x [<-|[]]. auto.
Qed.
Lemma enter_ty_ext v s s' :
  enter_ty v s = Some s' ->
  ext [] [] [v] s s' /\ ~ In v (v_defty s) /\ v_defty s' = v :: v_defty s /\ v_types s' = v_types s.
Proof.
  unfold enter_ty. destruct (mem v (v_defty s)) eqn:E; [discriminate|]. intros H; injection H as <-.
  apply mem_notIn in E. split; [|split; [exact E|simpl; auto]].
  constructor; simpl; auto; try tauto. constructor.
Qed.

(** Adding the type of a name that has just been defined. *)
Lemma set_type_ext L P Q n t s s' :
  ext L P Q s s' -> In n L -> ext L P Q s (set_type n t s').
Proof.
  intros [] HL. constructor; simpl; auto.
  intros x H. destruct (Nat.eqb_spec x n); [subst; tauto|auto].
Qed.

Lemma rem_notin n l : ~ In n l -> rem n l = l.
Proof.
  induction l as [|x l IH]; simpl; auto. intros H.
  destruct (Nat.eqb_spec x n); simpl; [subst; tauto|]. rewrite IH; auto.
Qed.
Lemma rem_all (ns : list nat) P S :
  (forall x, In x P -> In x ns) -> (forall x, In x S -> ~ In x ns) ->
  fold_left (fun l n => rem n l) ns (P ++ S) = S.
Proof.
  revert P. induction ns as [|n ns IH]; intros P HP HS; simpl.
  - destruct P as [|x P]; auto. destruct (HP x); simpl; auto.
  - unfold rem at 2. rewrite filter_app. fold (rem n P). fold (rem n S).
    rewrite (rem_notin n S); [|intros H; apply (HS n H); simpl; auto].
    apply IH.
    + intros x H. apply In_rem in H as [H Hn]. apply HP in H as [->|H]; tauto.
    + intros x H H'. apply (HS x H). simpl; auto.
Qed.

Definition set_scope (l : list name) (s : vstate) : vstate :=
  mkV (v_defined s) l (v_defty s) (v_scopety s) (v_kinds s) (v_types s) (v_ctors s).
Definition set_scopety (l : list name) (s : vstate) : vstate :=
  mkV (v_defined s) (v_scope s) (v_defty s) l (v_kinds s) (v_types s) (v_ctors s).
Lemma set_scope_id s : set_scope (v_scope s) s = s.
Proof. destruct s; auto. Qed.

Lemma exits_spec ns s s' :
  iterS exit ns s = Some s' -> s' = set_scope (fold_left (fun l n => rem n l) ns (v_scope s)) s.
Proof.
  revert s. induction ns as [|n ns IH]; simpl; intros s H.
  - injection H as <-. rewrite set_scope_id; auto.
  - unfold exit in H at 1. destruct (mem n (v_scope s)); [|discriminate]. apply IH in H. subst. auto.
Qed.
Lemma param_outs ps s : iterS param_out ps s = iterS exit (map fst ps) s.
Proof.
  revert s. induction ps as [|p ps IH]; simpl; auto. intros s. unfold param_out at 1.
  destruct (exit (fst p) s); auto.
Qed.
Lemma exits_ext ns L P Q s0 s s' :
  ext L P Q s0 s -> wfs s0 ->
  iterS exit ns s = Some s' ->
  (forall x, In x P -> In x ns) -> (forall x, In x ns -> In x L) ->
  ext L [] Q s0 s' /\ s' = set_scope (v_scope s0) s.
Proof.
  intros [] Hw H HP Hns. apply exits_spec in H.
  rewrite e_scope0, rem_all in H; auto.
  - subst s'. split; auto. constructor; simpl; auto.
  - intros x Hx Hn. apply Hns in Hn. apply e_new0 in Hn. apply Hn, w_scope; auto.
Qed.
Lemma exit_one n s s' : exit n s = Some s' -> iterS exit [n] s = Some s'.
Proof. simpl. intros ->. auto. Qed.
Lemma exit_ty_ext v L P s0 s s' :
  ext L P [v] s0 s -> wfs s0 -> ~ In v (v_defty s0) ->
  exit_ty v s = Some s' -> ext L P [] s0 s' /\ s' = set_scopety (v_scopety s0) s.
Proof.
  intros [] Hw Hv H. unfold exit_ty in H. destruct (mem v (v_scopety s)); [|discriminate].
  injection H as <-.
  assert (E : rem v (v_scopety s) = v_scopety s0).
  { rewrite e_scopety0. simpl. rewrite Nat.eqb_refl. simpl. fold (rem v (v_scopety s0)).
    apply rem_notin. intros Hi. apply Hv, w_scopety; auto. }
  rewrite E. split; [constructor; simpl; auto|auto].
Qed.

(** Type variables of a type. *)
Fixpoint fv (t : ty) : list tyvar :=
  match t with
  | TBool | TInt | TString => []
  | TVar v => [v]
  | TNamed _ ts => flat_map fv ts
  | TFn ps o => flat_map fv ps ++ fv o
  | TAbs v t => rem v (fv t)
  end.
Fixpoint tbind (t : ty) : list tyvar :=
  match t with
  | TBool | TInt | TString | TVar _ => []
  | TNamed _ ts => flat_map tbind ts
  | TFn ps o => flat_map tbind ps ++ tbind o
  | TAbs v t => v :: tbind t
  end.
(** No binder is shadowed by one below it. *)
Fixpoint nest (t : ty) : Prop :=
  match t with
  | TBool | TInt | TString | TVar _ => True
  | TNamed _ ts => fold_right (fun t P => nest t /\ P) True ts
  | TFn ps o => fold_right (fun t P => nest t /\ P) True ps /\ nest o
  | TAbs v t => ~ In v (tbind t) /\ nest t
  end.
Lemma nest_all ts : fold_right (fun t P => nest t /\ P) True ts <-> forall t, In t ts -> nest t.
Proof.
  induction ts as [|t ts IH]; simpl; [intuition|]. rewrite IH. split.
  - intros [H1 H2] x [<-|H]; auto.
  - auto.
Qed.

(** What [check_ty] establishes. *)
Definition ty_ok (t : ty) (s s' : vstate) : Prop :=
  ext [] [] [] s s' /\ v_types s' = v_types s /\
  (forall x, In x (fv t) -> In x (v_scopety s)) /\
  (forall x, In x (tbind t) -> In x (v_defty s') /\ ~ In x (v_defty s)) /\ nest t.
Definition tys_ok (ts : list ty) (s s' : vstate) : Prop :=
  ext [] [] [] s s' /\ v_types s' = v_types s /\
  (forall t, In t ts ->
    (forall x, In x (fv t) -> In x (v_scopety s)) /\
    (forall x, In x (tbind t) -> In x (v_defty s') /\ ~ In x (v_defty s)) /\ nest t).

Lemma iter_ty ts :
  Forall (fun t => forall s s', wfs s -> check_ty t s = Some s' -> ty_ok t s s') ts ->
  forall s s', wfs s -> iterS check_ty ts s = Some s' -> tys_ok ts s s'.
Proof.
  induction 1 as [|t ts Ht _ IH]; simpl; intros s s' Hw H.
  - injection H as <-. split; [apply ext_refl|]. split; auto. simpl; tauto.
  - destruct (check_ty t s) as [s1|] eqn:E; [|discriminate].
    apply Ht in E as (X1 & T1 & F1 & B1 & N1); auto.
    assert (Hw1 : wfs s1) by (eapply ext0_wfs; eauto).
    apply IH in H as (X2 & T2 & R2); auto.
    split; [exact (ext_trans X1 X2)|]. split; [congruence|].
    intros t' [<-|Hi].
    + split; auto. split; auto. intros x Hx. apply B1 in Hx as []. split; auto. apply (e_defty X2); auto.
    + apply R2 in Hi as (F & B & N). split.
      { intros x Hx. apply F in Hx. rewrite (e_scopety X1) in Hx. auto. }
      split; auto. intros x Hx. apply B in Hx as [Hx1 Hx2]. split; auto.
      intros Hx3. apply Hx2, (e_defty X1), Hx3.
Qed.

Lemma check_ty_ok t : forall s s', wfs s -> check_ty t s = Some s' -> ty_ok t s s'.
Proof.
  induction t using ty_ind'; simpl; intros s s' Hw HH.
  1-3: (injection HH as <-; split; [apply ext_refl|]; simpl; repeat split; auto; tauto).
  - destruct (mem v (v_scopety s)) eqn:E; [|discriminate]. injection HH as <-. apply mem_In in E.
    split; [apply ext_refl|]. simpl. repeat split; auto; try tauto. intros x [<-|[]]; auto.
  - destruct (mem n (v_scope s)); [|discriminate].
    destruct (lookup n (v_kinds s)) as [k|]; [|discriminate].
    destruct (k =? length args); [|discriminate].
    apply (iter_ty H) in HH as (X & T & R); auto.
    split; auto. split; auto. simpl. rewrite nest_all. split; [|split].
    + intros x Hx. apply in_flat_map in Hx as (t & Ht & Hx). apply R in Ht as (F & _). auto.
    + intros x Hx. apply in_flat_map in Hx as (t & Ht & Hx). apply R in Ht as (_ & B & _). auto.
    + intros t Ht. apply R in Ht. tauto.
  - destruct (iterS check_ty ps s) as [s1|] eqn:E; [|discriminate].
    apply (iter_ty H) in E as (X & T & R); auto.
    assert (Hw1 : wfs s1) by (eapply ext0_wfs; eauto).
    apply IHt in HH as (X1 & T1 & F1 & B1 & N1); auto.
    split; [exact (ext_trans X X1)|]. split; [congruence|]. simpl. rewrite nest_all. split; [|split].
    + intros x Hx. apply in_app_iff in Hx as [Hx|Hx].
      * apply in_flat_map in Hx as (u & Hu & Hx). apply R in Hu as (F & _). auto.
      * apply F1 in Hx. rewrite (e_scopety X) in Hx. auto.
    + intros x Hx. apply in_app_iff in Hx as [Hx|Hx].
      * apply in_flat_map in Hx as (u & Hu & Hx). apply R in Hu as (_ & B & _). apply B in Hx as [].
        split; auto. apply (e_defty X1); auto.
      * apply B1 in Hx as []. split; auto. intros Hx. apply (e_defty X) in Hx. auto.
    + split; auto. intros u Hu. apply R in Hu. tauto.
  - destruct (enter_ty v s) as [s1|] eqn:E; [|discriminate].
    apply enter_ty_ext in E as (X & Hv & Hd & HT).
    destruct (check_ty t s1) as [s2|] eqn:E2; [|discriminate].
    assert (Hw1 : wfs s1).
    { eapply ext_wfs; eauto; simpl; try tauto. rewrite Hd. simpl. intuition. }
    apply IHt in E2 as (X2 & T2 & F2 & B2 & N2); auto.
    destruct (exit_ty_ext (ext_trans X X2) Hw Hv HH) as [X3 ->].
    split; auto. split; [simpl; congruence|]. simpl. split; [|split].
    + intros x Hx. apply In_rem in Hx as [Hx Hn]. apply F2 in Hx. rewrite (e_scopety X) in Hx.
      destruct Hx as [<-|Hx]; [tauto|auto].
    + intros x [<-|Hx].
      * split; auto. apply (e_defty X2). rewrite Hd. simpl; auto.
      * apply B2 in Hx as [H1 H2]. split; auto. intros H3. apply H2, (e_defty X), H3.
    + split; auto. intros Hx. apply B2 in Hx as [_ Hx]. apply Hx. rewrite Hd. simpl; auto.
Qed.

(** Entering parameters and branch variables. *)
Lemma params_ext limit ps : forall s s',
  wfs s -> iterS (param_in limit) ps s = Some s' ->
  ext (map fst ps) (rev (map fst ps)) [] s s' /\ wfs s'.
Proof.
  induction ps as [|p ps IH]; simpl; intros s s' Hw H.
  - injection H as <-. split; auto. apply ext_refl.
  - unfold param_in in H at 1.
    destruct (enter limit (fst p) s) as [s1|] eqn:E1; [|discriminate].
    destruct (check_ty (snd p) s1) as [s2|] eqn:E2; [|discriminate].
    apply enter_ext in E1 as (X1 & N1 & T1 & D1).
    assert (Hw1 : wfs s1) by (eapply ext_wfs; eauto; simpl; tauto).
    apply check_ty_ok in E2 as (X2 & T2 & _); auto.
    pose proof (set_type_ext (fst p) (snd p) (ext_trans X1 X2)) as X3. simpl in X3.
    specialize (X3 (or_introl eq_refl)).
    apply IH in H as [X4 W4]; [|eapply ext_wfs; eauto; simpl; tauto].
    split; auto. exact (ext_trans X3 X4).
Qed.
Lemma binds_ext limit vars targs fbs : forall s s',
  wfs s -> iterS (bind_in limit vars targs) fbs s = Some s' ->
  ext (map snd fbs) (rev (map snd fbs)) [] s s' /\ wfs s' /\ v_defty s' = v_defty s.
Proof.
  induction fbs as [|p ps IH]; simpl; intros s s' Hw H.
  - injection H as <-. split; auto. apply ext_refl.
  - unfold bind_in in H at 1.
    destruct (enter limit (snd p) s) as [s1|] eqn:E1; [|discriminate].
    apply enter_ext in E1 as (X1 & N1 & T1 & D1).
    pose proof (set_type_ext (snd p) (replace_all (fst p) vars targs) X1) as X3. simpl in X3.
    specialize (X3 (or_introl eq_refl)).
    apply IH in H as (X4 & W4 & D4); [|eapply ext_wfs; eauto; simpl; tauto].
    split; [exact (ext_trans X3 X4)|]. split; auto. simpl in D4. congruence.
Qed.

Definition chk_ext (chk : expr -> vstate -> option (ty * vstate)) (e : expr) : Prop :=
  forall s T s', wfs s -> chk e s = Some (T, s') -> ext (binders e) [] [] s s'.

Lemma args_ext chk xs :
  Forall (chk_ext chk) xs -> forall ps s s',
  wfs s -> length ps = length xs -> argsS chk xs ps s = Some s' -> ext (flat_map binders xs) [] [] s s'.
Proof.
  induction 1 as [|x xs Hx _ IH]; simpl; intros ps s s' Hw HL H.
  - injection H as <-. apply ext_refl.
  - destruct ps as [|p ps]; [discriminate|].
    destruct (chk x s) as [[T s1]|] eqn:E; [|discriminate].
    destruct (assert (fits T p)) eqn:E2; [|discriminate].
    apply Hx in E; auto. pose proof (ext0_wfs E Hw) as Hw1.
    apply IH in H; auto. exact (ext_trans E H).
Qed.
Lemma fields_ext chk vars tys xs :
  Forall (chk_ext chk) xs -> forall ps s s',
  wfs s -> length ps = length xs -> fieldsS chk vars tys xs ps s = Some s' -> ext (flat_map binders xs) [] [] s s'.
Proof.
  induction 1 as [|x xs Hx _ IH]; simpl; intros ps s s' Hw HL H.
  - injection H as <-. apply ext_refl.
  - destruct ps as [|p ps]; [discriminate|].
    destruct (chk x s) as [[T s1]|] eqn:E; [|discriminate].
    destruct (assert _) eqn:E2; [|discriminate].
    apply Hx in E; auto. pose proof (ext0_wfs E Hw) as Hw1.
    apply IH in H; auto. exact (ext_trans E H).
Qed.
Lemma map_snd_combine {A B} (l : list A) (m : list B) : length l = length m -> map snd (combine l m) = m.
Proof. revert m; induction l; destruct m; simpl; intros; try discriminate; f_equal; auto. Qed.

Lemma branches_ext limit chk mt targs brs :
  Forall (fun br => chk_ext chk (snd br)) brs -> forall t s t' s',
  wfs s -> branchesS limit chk mt targs brs t s = Some (t', s') ->
  ext (flat_map (fun br => snd (fst br) ++ binders (snd br)) brs) [] [] s s'.
Proof.
  induction 1 as [|[[c bs] v] brs Hx _ IH]; simpl; intros t s t' s' Hw H.
  - injection H as <- <-. apply ext_refl.
  - destruct (lookup c (v_ctors s)) as [[[tn vars] fields]|]; [|discriminate].
    destruct (assert (mt =? tn)); [|discriminate].
    destruct (assert (length vars =? length targs)); [|discriminate].
    destruct (assert (length fields =? length bs)) eqn:EL; [|discriminate].
    apply assert_some, Nat.eqb_eq in EL.
    destruct (iterS (bind_in limit vars targs) (combine fields bs) s) as [s1|] eqn:E1; [|discriminate].
    apply binds_ext in E1 as (X1 & W1 & _); auto. rewrite map_snd_combine in X1; auto.
    destruct (chk v s1) as [[tv s2]|] eqn:E2; [|discriminate].
    apply Hx in E2; auto.
    match type of H with match ?x with _ => _ end = _ => destruct x as [t1|]; [|discriminate] end.
    destruct (iterS exit bs s2) as [s3|] eqn:E3; [|discriminate].
    destruct (exits_ext _ (ext_trans X1 E2) Hw E3) as [X3 _].
    { simpl. intros x. rewrite <- in_rev. auto. }
    { intros x Hi. apply in_app_iff; auto. }
    apply IH in H; [|eapply ext0_wfs; eauto]. exact (ext_trans X3 H).
Qed.

(** Checking an expression defines exactly its binders and restores the scopes. *)
Lemma check_expr_ext limit e : chk_ext (check_expr limit) e.
Proof.
  induction e using expr_ind'; intros s0 T s' Hw HH; simpl in HH.
  1-3: (injection HH as <- <-; apply ext_refl).
  - destruct (assert _); [|discriminate]. destruct (lookup _ _); [|discriminate].
    injection HH as <- <-. apply ext_refl.
  - destruct (check_expr limit e s0) as [[tf s1]|] eqn:E1; [|discriminate].
    destruct tf; try discriminate. destruct (assert _) eqn:EL; [|discriminate].
    apply assert_some, Nat.eqb_eq in EL.
    destruct (argsS _ _ _ _) as [s2|] eqn:E2; [|discriminate]. injection HH as <- <-.
    apply IHe in E1; auto. pose proof (ext0_wfs E1 Hw) as Hw1.
    apply (args_ext H) in E2; auto. exact (ext_trans E1 E2).
  - destruct (check_expr limit e1 s0) as [[t1 s1]|] eqn:E1; [|discriminate].
    destruct (assert _); [|discriminate].
    destruct (check_expr limit e2 s1) as [[t2 s2]|] eqn:E2; [|discriminate].
    destruct (check_expr limit e3 s2) as [[t3 s3]|] eqn:E3; [|discriminate].
    destruct (assert _); [|discriminate]. injection HH as <- <-.
    apply IHe1 in E1; auto. pose proof (ext0_wfs E1 Hw) as Hw1.
    apply IHe2 in E2; auto. pose proof (ext0_wfs E2 Hw1) as Hw2.
    apply IHe3 in E3; auto. exact (ext_trans E1 (ext_trans E2 E3)).
  - destruct (check_expr limit e1 s0) as [[t1 s1]|] eqn:E1; [|discriminate].
    destruct (assert _); [|discriminate].
    destruct (check_expr limit e2 s1) as [[t2 s2]|] eqn:E2; [|discriminate].
    destruct (assert _); [|discriminate]. injection HH as <- <-.
    apply IHe1 in E1; auto. pose proof (ext0_wfs E1 Hw) as Hw1.
    apply IHe2 in E2; auto. exact (ext_trans E1 E2).
  - destruct (assert _) eqn:EL; [|discriminate]. apply assert_some, Nat.eqb_eq in EL.
    destruct (argsS _ _ _ _) as [s2|] eqn:E2; [|discriminate]. injection HH as <- <-.
    apply (args_ext H) in E2; auto.
  - destruct (iterS _ ps s0) as [s1|] eqn:E1; [|discriminate].
    destruct (check_expr limit e s1) as [[t1 s2]|] eqn:E2; [|discriminate].
    rewrite param_outs in HH.
    destruct (iterS _ _ s2) as [s3|] eqn:E3; [|discriminate]. injection HH as <- <-.
    apply params_ext in E1 as [X1 W1]; auto. apply IHe in E2; auto.
    destruct (exits_ext _ (ext_trans X1 E2) Hw E3) as [X3 _].
    { simpl. intros x. rewrite <- in_rev. auto. }
    { intros x Hi. apply in_app_iff; auto. }
    exact X3.
  - destruct (check_expr limit e s0) as [[td s1]|] eqn:E1; [|discriminate].
    destruct td; try discriminate.
    destruct (branchesS _ _ _ _ _ _ _) as [[t2 s2]|] eqn:E2; [|discriminate].
    destruct t2; [|discriminate]. injection HH as <- <-.
    apply IHe in E1; auto. pose proof (ext0_wfs E1 Hw) as Hw1.
    apply (branches_ext _ _ _ H) in E2; auto. exact (ext_trans E1 E2).
  - destruct (lookup c (v_ctors s0)) as [[[tn vars] ftys]|]; [|discriminate].
    destruct (assert _); [|discriminate]. destruct (assert _) eqn:EL in HH; [|discriminate].
    apply assert_some, Nat.eqb_eq in EL.
    destruct (fieldsS _ _ _ _ _ _) as [s1|] eqn:E1; [|discriminate]. injection HH as <- <-.
    apply (fields_ext _ _ H) in E1; auto.
  - destruct (check_expr limit e1 s0) as [[t1 s1]|] eqn:E1; [|discriminate].
    destruct (enter _ _ _) as [s2|] eqn:E2; [|discriminate].
    destruct (check_expr limit e2 s2) as [[t2 s3]|] eqn:E3; [|discriminate].
    destruct (exit n s3) as [s4|] eqn:E4; [|discriminate]. injection HH as <- <-.
    apply IHe1 in E1; auto. pose proof (ext0_wfs E1 Hw) as Hw1.
    apply enter_ext in E2 as (X2 & N2 & T2 & D2). simpl in *.
    assert (X2' : ext [n] [n] [] s1 s2).
    { destruct X2. constructor; auto. intros x Hx. rewrite e_types0; auto. simpl.
      destruct (Nat.eqb_spec x n); auto. subst. simpl in Hx. tauto. }
    assert (Hw2 : wfs s2) by (eapply ext_wfs; eauto; simpl; tauto).
    apply IHe2 in E3; auto. apply exit_one in E4.
    destruct (exits_ext _ (ext_trans X2' E3) Hw1 E4) as [X3 _]; simpl; try tauto.
    eapply ext_perm; [|exact (ext_trans E1 X3)]. simpl. symmetry. apply Permutation_middle.
  - destruct (check_ty t s0) as [s1|] eqn:E0; [|discriminate].
    destruct (enter _ _ _) as [s2|] eqn:E2; [|discriminate].
    destruct (check_expr limit e1 _) as [[t1 s3]|] eqn:E1; [|discriminate].
    destruct (assert _); [|discriminate].
    destruct (check_expr limit e2 s3) as [[t2 s4]|] eqn:E3; [|discriminate].
    destruct (exit n s4) as [s5|] eqn:E4; [|discriminate]. injection HH as <- <-.
    apply check_ty_ok in E0 as (X0 & _); auto. pose proof (ext0_wfs X0 Hw) as Hw0.
    apply enter_ext in E2 as (X2 & N2 & T2 & D2).
    pose proof (set_type_ext n t X2 (or_introl eq_refl)) as X2'.
    assert (Hw2 : wfs (set_type n t s2)) by (eapply ext_wfs; eauto; simpl; tauto).
    apply IHe1 in E1; auto. pose proof (ext0_wfs E1 Hw2) as Hw3.
    apply IHe2 in E3; auto. apply exit_one in E4.
    destruct (exits_ext _ (ext_trans X2' (ext_trans E1 E3)) Hw0 E4) as [X3 _]; simpl; try tauto.
    exact (ext_trans X0 X3).
  - destruct (enter_ty v s0) as [s1|] eqn:E1; [|discriminate].
    apply enter_ty_ext in E1 as (X & Hv & Hd & HT).
    destruct (check_expr limit e s1) as [[t2 s2]|] eqn:E2; [|discriminate].
    destruct (exit_ty v s2) as [s3|] eqn:E3; [|discriminate]. injection HH as <- <-.
    assert (Hw1 : wfs s1).
    { eapply ext_wfs; eauto; simpl; try tauto. rewrite Hd. simpl. intuition. }
    apply IHe in E2; auto.
    destruct (exit_ty_ext (ext_trans X E2) Hw Hv E3) as [X3 _]. exact X3.
  - destruct (check_expr limit e s0) as [[te s1]|] eqn:E1; [|discriminate].
    destruct te; try discriminate. injection HH as <- <-. apply IHe in E1; auto.
  - destruct (check_ty t s0) as [s1|] eqn:E0; [|discriminate]. injection HH as <- <-.
    apply check_ty_ok in E0 as (X0 & _); auto.
Qed.
