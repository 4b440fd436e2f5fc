(** Closed types for values, translation of checker types into them, substitution and comparison facts. *)
From Verif Require Import Verify VerifyState TypeSpec.
Set Implicit Arguments.

Inductive dty : Type :=
| DBool | DInt | DStr
| DVar (k : nat)
| DNamed (n : name) (args : list dty)
| DFn (ps : list dty) (o : dty)
| DAbs (t : dty).

Fixpoint dsub (k : nat) (U t : dty) : dty :=
  match t with
  | DBool => DBool | DInt => DInt | DStr => DStr
  | DVar i => if i =? k then U else DVar i
  | DNamed n ts => DNamed n (map (dsub k U) ts)
  | DFn ps o => DFn (map (dsub k U) ps) (dsub k U o)
  | DAbs t => DAbs (dsub (S k) U t)
  end.
(** Closed: substitution does nothing. *)
Definition closed (d : dty) : Prop := forall k U, dsub k U d = d.

Fixpoint pos (x : nat) (l : list nat) : option nat :=
  match l with
  | [] => None
  | y :: r => if Nat.eqb x y then Some 0 else option_map S (pos x r)
  end.
Fixpoint tr (ctx : list tyvar) (g : tyvar -> dty) (t : ty) : dty :=
  match t with
  | TBool => DBool | TInt => DInt | TString => DStr
  | TVar x => match pos x ctx with Some i => DVar i | None => g x end
  | TNamed n ts => DNamed n (map (tr ctx g) ts)
  | TFn ps o => DFn (map (tr ctx g) ps) (tr ctx g o)
  | TAbs a t => DAbs (tr (a :: ctx) g t)
  end.
Definition cl (g : tyvar -> dty) : Prop := forall x, closed (g x).
Definition upd (g : tyvar -> dty) (a : tyvar) (U : dty) : tyvar -> dty :=
  fun x => if Nat.eqb x a then U else g x.
Lemma upd_cl g a U : cl g -> closed U -> cl (upd g a U).
Proof. intros H1 H2 x. unfold upd. destruct (Nat.eqb x a); auto. Qed.

Lemma pos_lt x l i : pos x l = Some i -> i < length l.
Proof.
  revert i; induction l as [|y l IH]; simpl; [discriminate|]. intros i.
  destruct (Nat.eqb x y); [intros H; injection H as <-; lia|].
  destruct (pos x l); simpl; [|discriminate]. intros H; injection H as <-. specialize (IH _ eq_refl). lia.
Qed.
Lemma pos_none x l : pos x l = None <-> ~ In x l.
Proof.
  induction l as [|y l IH]; simpl; [intuition|].
  destruct (Nat.eqb_spec x y); subst.
  - split; [discriminate|]. intros H. exfalso. auto.
  - destruct (pos x l); simpl; split; try discriminate; intros H; auto.
    + exfalso. destruct IH as [_ IH]. assert (E : Some n0 = None) by (apply IH; intuition). discriminate.
    + intros [->|Hi]; [auto|]. apply IH in H; auto.
Qed.
Lemma pos_app x l m : pos x (l ++ m) =
  match pos x l with Some i => Some i | None => option_map (fun i => length l + i) (pos x m) end.
Proof.
  induction l as [|y l IH]; simpl.
  - destruct (pos x m); auto.
  - destruct (Nat.eqb x y); auto. rewrite IH. destruct (pos x l); simpl; auto. destruct (pos x m); simpl; auto.
Qed.

Lemma map_ext_F {A B} (f g : A -> B) l : Forall (fun x => f x = g x) l -> map f l = map g l.
Proof. induction 1; simpl; auto. f_equal; auto. Qed.

Lemma tr_closed g t : cl g -> forall ctx k U, dsub (length ctx + k) U (tr ctx g t) = tr ctx g t.
Proof.
  intros Hg. induction t using ty_ind'; simpl; intros ctx k U; auto.
  - destruct (pos v ctx) eqn:E; simpl.
    + apply pos_lt in E. destruct (Nat.eqb_spec n (length ctx + k)); auto. lia.
    + apply Hg.
  - f_equal. rewrite map_map. apply map_ext_F. eapply Forall_impl; [|exact H]. simpl. auto.
  - rewrite IHt. f_equal. rewrite map_map. apply map_ext_F. eapply Forall_impl; [|exact H]. simpl. auto.
  - f_equal. apply (IHt (v :: ctx)).
Qed.
Lemma tr_cl g t : cl g -> closed (tr [] g t).
Proof. intros Hg k U. apply (tr_closed t Hg [] k). Qed.

(** Translation depends on the free variables only. *)
Lemma tr_ext t : forall ctx g g', (forall x, In x (fv t) -> ~ In x ctx -> g x = g' x) -> tr ctx g t = tr ctx g' t.
Proof.
  induction t using ty_ind'; simpl; intros ctx g g' E; auto.
  - destruct (pos v ctx) eqn:Ep; auto. apply pos_none in Ep. auto.
  - f_equal. apply map_ext_F. rewrite Forall_forall in *. intros u Hu. apply H; auto.
    intros x Hx. apply E. apply in_flat_map. eauto.
  - rewrite (IHt ctx g g').
    + f_equal. apply map_ext_F. rewrite Forall_forall in *. intros u Hu. apply H; auto.
      intros x Hx. apply E. apply in_app_iff. left. apply in_flat_map. eauto.
    + intros x Hx. apply E. apply in_app_iff. auto.
  - f_equal. apply IHt. intros x Hx Hn. apply E.
    + apply In_rem. split; auto. intros ->. apply Hn. simpl; auto.
    + intros Hi. apply Hn. simpl; auto.
Qed.
Lemma tr_ctx t : forall ctx g, (forall x, In x (fv t) -> ~ In x ctx) -> monob t = true -> tr ctx g t = tr [] g t.
Proof.
  induction t using ty_ind'; simpl; intros ctx g E M; auto; try discriminate.
  - assert (Ep : pos v ctx = None) by (apply pos_none; auto). rewrite Ep. auto.
  - f_equal. apply map_ext_F. rewrite Forall_forall in *. rewrite forallb_forall in M.
    intros u Hu. apply H; auto. intros x Hx. apply E. apply in_flat_map. eauto.
  - apply andb_true_iff in M as [M1 M2]. rewrite forallb_forall in M1. rewrite (IHt ctx g); auto.
    + f_equal. apply map_ext_F. rewrite Forall_forall in *. intros u Hu. apply H; auto.
      intros x Hx. apply E. apply in_app_iff. left. apply in_flat_map. eauto.
    + intros x Hx. apply E. apply in_app_iff. auto.
Qed.

(** Instantiating a translated quantifier. *)
Lemma tr_inst t : forall ctx a g U, cl g ->
  dsub (length ctx) U (tr (ctx ++ [a]) g t) = tr ctx (upd g a U) t.
Proof.
  induction t using ty_ind'; simpl; intros ctx a g U Hg; auto.
  - rewrite pos_app. destruct (pos v ctx) eqn:E.
    + simpl. apply pos_lt in E. destruct (Nat.eqb_spec n (length ctx)); auto. lia.
    + simpl. unfold upd. destruct (Nat.eqb v a); simpl.
      * rewrite Nat.add_0_r, Nat.eqb_refl. auto.
      * apply Hg.
  - f_equal. rewrite map_map. apply map_ext_F. eapply Forall_impl; [|exact H]. simpl. auto.
  - rewrite IHt; auto. f_equal. rewrite map_map. apply map_ext_F. eapply Forall_impl; [|exact H]. simpl. auto.
  - f_equal. apply (IHt (v :: ctx)); auto.
Qed.
Lemma tr_inst0 t a g U : cl g -> dsub 0 U (tr [a] g t) = tr [] (upd g a U) t.
Proof. intros Hg. exact (tr_inst t [] a U Hg). Qed.

(** [replace] is substitution when the replacement is a plain type whose variables are not captured. *)
Lemma tr_replace t : forall ctx a U g, monob U = true ->
  ~ In a ctx -> ~ In a (tbind t) ->
  (forall x, In x (fv U) -> ~ In x ctx /\ ~ In x (tbind t)) ->
  tr ctx g (replace t a U) = tr ctx (upd g a (tr [] g U)) t.
Proof.
  induction t using ty_ind'; simpl; intros ctx a U g MU Ha Hb Hc; auto.
  - destruct (Nat.eqb_spec v a) as [->|Hn]; simpl.
    + assert (Ep : pos a ctx = None) by (apply pos_none; auto). rewrite Ep.
      unfold upd. rewrite Nat.eqb_refl. apply tr_ctx; auto. intros x Hx. apply Hc; auto.
    + destruct (pos v ctx); auto. unfold upd. destruct (Nat.eqb_spec v a); [congruence|auto].
  - f_equal. rewrite map_map. apply map_ext_F. rewrite Forall_forall in *. intros u Hu. apply H; auto.
    + intros Hi. apply Hb, in_flat_map. eauto.
    + intros x Hx. apply Hc in Hx as [H1 H2]. split; auto. intros Hi. apply H2, in_flat_map. eauto.
  - rewrite IHt; auto.
    + f_equal. rewrite map_map. apply map_ext_F. rewrite Forall_forall in *. intros u Hu. apply H; auto.
      * intros Hi. apply Hb, in_app_iff. left. apply in_flat_map. eauto.
      * intros x Hx. apply Hc in Hx as [H1 H2]. split; auto. intros Hi. apply H2, in_app_iff. left.
        apply in_flat_map. eauto.
    + intros Hi. apply Hb, in_app_iff. auto.
    + intros x Hx. apply Hc in Hx as [H1 H2]. split; auto. intros Hi. apply H2, in_app_iff. auto.
  - f_equal. apply IHt; auto.
    + intros [->|Hi]; auto.
    + intros x Hx. apply Hc in Hx as [H1 H2]. split; auto.
      intros [->|Hi]; auto.
Qed.

(** Effect of [replace] on the static measures. *)
Lemma mono_tbind t : monob t = true -> tbind t = [].
Proof.
  induction t using ty_ind'; simpl; intros M; auto; try discriminate.
  - rewrite forallb_forall in M. induction H as [|u us Hu _ IH]; simpl; auto.
    rewrite Hu, IH; auto. + intros x Hx. apply M. simpl; auto. + apply M. simpl; auto.
  - apply andb_true_iff in M as [M1 M2]. rewrite IHt, app_nil_r; auto.
    rewrite forallb_forall in M1. induction H as [|u us Hu _ IH]; simpl; auto.
    rewrite Hu, IH; auto. + intros x Hx. apply M1. simpl; auto. + apply M1. simpl; auto.
Qed.
Lemma mono_nest t : monob t = true -> nest t.
Proof.
  induction t using ty_ind'; simpl; intros M; auto; try discriminate.
  - rewrite nest_all. rewrite forallb_forall in M. rewrite Forall_forall in H. auto.
  - apply andb_true_iff in M as [M1 M2]. rewrite nest_all. rewrite forallb_forall in M1.
    rewrite Forall_forall in H. split; auto.
Qed.
Lemma mono_rank1 t : monob t = true -> rank1 t = true.
Proof. induction t using ty_ind'; simpl; intros M; auto; try discriminate. apply andb_true_iff in M as [M1 M2]. rewrite M1; simpl; auto. Qed.
Lemma prenex_rank1 t : prenex t = true -> rank1 t = true.
Proof. induction t using ty_ind'; simpl; intros M; auto. apply andb_true_iff in M as [M1 M2]. rewrite M1. simpl. apply mono_rank1; auto. Qed.
Lemma mono_in_spec D t : mono_in D t = true -> monob t = true /\ forall x, In x (fv t) -> In x D.
Proof.
  induction t using ty_ind'; simpl; intros M; auto; try discriminate; try (split; [auto|tauto]).
  - split; auto. intros x [<-|[]]. apply mem_In; auto.
  - rewrite forallb_forall in *. rewrite Forall_forall in H. split.
    + intros u Hu. apply H; auto.
    + intros x Hx. apply in_flat_map in Hx as (u & Hu & Hx). apply H in Hu as [_ Hu]; auto.
  - apply andb_true_iff in M as [M1 M2]. rewrite forallb_forall in M1. rewrite Forall_forall in H.
    apply IHt in M2 as [M2 M3]. split.
    + rewrite M2, andb_true_r. apply forallb_forall. intros u Hu. apply H; auto.
    + intros x Hx. apply in_app_iff in Hx as [Hx|Hx]; auto.
      apply in_flat_map in Hx as (u & Hu & Hx). apply H in Hu as [_ Hu]; auto.
Qed.
Lemma replace_mono t a U : monob t = true -> monob U = true -> monob (replace t a U) = true.
Proof.
  intros Mt MU. induction t using ty_ind'; simpl in *; auto; try discriminate.
  - destruct (v =? a); auto.
  - rewrite forallb_forall in *. rewrite Forall_forall in H. intros u Hu.
    apply in_map_iff in Hu as (u' & <- & Hu). auto.
  - apply andb_true_iff in Mt as [M1 M2]. rewrite IHt, andb_true_r; auto.
    rewrite forallb_forall in *. rewrite Forall_forall in H. intros u Hu.
    apply in_map_iff in Hu as (u' & <- & Hu). auto.
Qed.
Lemma replace_monos ts a U : forallb monob ts = true -> monob U = true ->
  forallb monob (map (fun t => replace t a U) ts) = true.
Proof.
  intros H MU. rewrite forallb_forall in *. intros u Hu. apply in_map_iff in Hu as (u' & <- & Hu).
  apply replace_mono; auto.
Qed.
Lemma replace_rank1 t a U : rank1 t = true -> monob U = true -> rank1 (replace t a U) = true.
Proof.
  intros Mt MU. induction t using ty_ind'; simpl in *; auto.
  - destruct (v =? a); auto. apply mono_rank1; auto.
  - apply replace_monos; auto.
  - apply andb_true_iff in Mt as [M1 M2]. rewrite IHt, andb_true_r; auto. apply replace_monos; auto.
Qed.
Lemma replace_tbind t a U : monob U = true -> tbind (replace t a U) = tbind t.
Proof.
  intros MU. induction t using ty_ind'; simpl; auto.
  - destruct (v =? a); auto. apply mono_tbind; auto.
  - induction H as [|u us Hu _ IH]; simpl; auto. rewrite Hu, IH; auto.
  - rewrite IHt. f_equal. induction H as [|u us Hu _ IH]; simpl; auto. rewrite Hu, IH; auto.
  - rewrite IHt; auto.
Qed.
Lemma replace_nest t a U : monob U = true -> nest t -> nest (replace t a U).
Proof.
  intros MU. induction t using ty_ind'; simpl; auto.
  - intros _. destruct (v =? a); simpl; auto. apply mono_nest; auto.
  - rewrite !nest_all. intros N u Hu. apply in_map_iff in Hu as (u' & <- & Hu).
    rewrite Forall_forall in H. auto.
  - rewrite !nest_all. intros [N1 N2]. split; auto. intros u Hu. apply in_map_iff in Hu as (u' & <- & Hu).
    rewrite Forall_forall in H. auto.
  - rewrite replace_tbind; auto. intros []; auto.
Qed.
Lemma replace_fv t a U x :
  In x (fv (replace t a U)) -> In x (fv U) \/ (In x (fv t) /\ (x <> a \/ In a (tbind t))).
Proof.
  revert x. induction t using ty_ind'; simpl; intros x; try tauto.
  - destruct (Nat.eqb_spec v a); simpl; auto. intros [<-|[]]. auto.
  - intros Hx. apply in_flat_map in Hx as (u & Hu & Hx). apply in_map_iff in Hu as (u' & <- & Hu).
    rewrite Forall_forall in H. apply H in Hx as [Hx|[Hx Ho]]; auto. right. split.
    + apply in_flat_map; eauto.
    + destruct Ho; auto. right. apply in_flat_map; eauto.
  - intros Hx. apply in_app_iff in Hx as [Hx|Hx].
    + apply in_flat_map in Hx as (u & Hu & Hx). apply in_map_iff in Hu as (u' & <- & Hu).
      rewrite Forall_forall in H. apply H in Hx as [Hx|[Hx Ho]]; auto. right. rewrite !in_app_iff. split.
      * left. apply in_flat_map; eauto.
      * destruct Ho; auto. right. left. apply in_flat_map; eauto.
    + apply IHt in Hx as [Hx|[Hx Ho]]; auto. right. rewrite !in_app_iff. tauto.
  - rewrite !In_rem. intros [Hx Hn]. apply IHt in Hx as [Hx|[Hx [Ho|Ho]]]; auto.
Qed.

(** Parallel substitution for the fields of constructors. *)
Fixpoint upds (g : tyvar -> dty) (vs : list tyvar) (Us : list dty) : tyvar -> dty :=
  match vs, Us with
  | v :: vs', U :: Us' => upd (upds g vs' Us') v U
  | _, _ => g
  end.
Lemma upds_out vs : forall Us g x, ~ In x vs -> upds g vs Us x = g x.
Proof.
  induction vs as [|v vs IH]; simpl; intros [|U Us] g x H; auto.
  unfold upd. destruct (Nat.eqb_spec x v); [subst; tauto|]. apply IH. tauto.
Qed.
Lemma upds_in vs : forall Us g g' x, length vs = length Us -> In x vs -> upds g vs Us x = upds g' vs Us x.
Proof.
  induction vs as [|v vs IH]; simpl; intros [|U Us] g g' x HL H; try discriminate; try tauto.
  unfold upd. destruct (Nat.eqb_spec x v); auto. apply IH; auto. destruct H; congruence.
Qed.
Lemma upds_cl vs : forall Us g, cl g -> (forall U, In U Us -> closed U) -> cl (upds g vs Us).
Proof.
  induction vs as [|v vs IH]; simpl; intros [|U Us] g Hg HU; auto.
  apply upd_cl; [apply IH|]; auto; intros; apply HU; simpl; auto.
Qed.
Lemma replace_all_mono vs : forall Us t, monob t = true -> (forall U, In U Us -> monob U = true) ->
  monob (replace_all t vs Us) = true.
Proof.
  unfold replace_all. induction vs as [|v vs IH]; simpl; intros [|U Us] t M H; auto.
  simpl. apply IH.
  - apply replace_mono; auto. apply H; simpl; auto.
  - intros U' HU. apply H; simpl; auto.
Qed.
Lemma replace_all_fv vs : forall Us t x, monob t = true -> length vs = length Us ->
  (forall U, In U Us -> monob U = true) ->
  In x (fv (replace_all t vs Us)) -> (exists U, In U Us /\ In x (fv U)) \/ (In x (fv t) /\ ~ In x vs).
Proof.
  unfold replace_all. induction vs as [|v vs IH]; simpl; intros [|U Us] t x M L MU H; auto; try discriminate.
  simpl in H. apply IH in H.
  - destruct H as [(U' & HU & HF)|[Hx Hn]].
    + left. exists U'. simpl; auto.
    + apply replace_fv in Hx as [Hx|[Hx Ho]].
      * left. exists U. simpl; auto.
      * right. split; auto. destruct Ho as [Ho|Ho]; [|rewrite mono_tbind in Ho; simpl in Ho; tauto].
        intros [->|Hi]; auto.
  - apply replace_mono; auto. apply MU; simpl; auto.
  - auto.
  - intros U' HU. apply MU; simpl; auto.
Qed.
Lemma tr_replace_all vs : forall Us t g, monob t = true -> length vs = length Us ->
  (forall U, In U Us -> monob U = true) ->
  (forall U x, In U Us -> In x (fv U) -> ~ In x vs) ->
  tr [] g (replace_all t vs Us) = tr [] (upds g vs (map (tr [] g) Us)) t.
Proof.
  unfold replace_all. induction vs as [|v vs IH]; simpl; intros [|U Us] t g M L MU HF; auto; try discriminate.
  assert (MUU : monob U = true) by (apply MU; simpl; auto). simpl. rewrite IH; auto.
  - rewrite tr_replace; auto.
    + f_equal. f_equal. apply tr_ext. intros x Hx _. apply upds_out. intros Hi.
      apply (HF U x); simpl; auto.
    + rewrite mono_tbind; auto.
    + intros x Hx. rewrite mono_tbind; auto.
  - apply replace_mono; auto.
  - intros U' HU. apply MU; simpl; auto.
  - intros U' x HU Hx Hi. apply (HF U' x); simpl; auto.
Qed.

(** Comparison of types. *)
Lemma fits_list_mono xs :
  Forall (fun a => forall b pairs q, monob b = true -> fits_go a b pairs = Some q -> monob a = true /\ q = pairs) xs ->
  forall ys pairs q, length xs = length ys -> forallb monob ys = true ->
  (fix all (xs ys : list ty) (pairs : list (tyvar * tyvar)) {struct xs} :=
           match xs, ys with
           | x :: xs', y :: ys' => do p <- fits_go x y pairs; all xs' ys' p
           | _, _ => Some pairs
           end) xs ys pairs = Some q -> forallb monob xs = true /\ q = pairs.
Proof.
  induction 1 as [|x xs Hx _ IH]; intros [|y ys] pairs q L M H; simpl in *; try discriminate.
  - split; congruence.
  - apply andb_true_iff in M as [M1 M2]. destruct (fits_go x y pairs) as [p|] eqn:E; [|discriminate].
    apply Hx in E as [E1 ->]; auto. rewrite E1. apply IH in H; auto.
Qed.
Lemma fits_mono a : forall b pairs q, monob b = true -> fits_go a b pairs = Some q -> monob a = true /\ q = pairs.
Proof.
  induction a using ty_ind'; intros b pairs q M HH; destruct b; simpl in HH, M; try discriminate.
  1-3: (injection HH as <-; auto).
  - destruct (_ || _); [|discriminate]. injection HH as <-. auto.
  - destruct ((n =? n0) && (length args =? length args0)) eqn:E; [|discriminate].
    apply andb_true_iff in E as [_ E]. apply Nat.eqb_eq in E.
    apply (fits_list_mono H) in HH; auto.
  - destruct (length ps =? length params) eqn:E; [|discriminate]. apply Nat.eqb_eq in E.
    apply andb_true_iff in M as [M1 M2].
    match type of HH with match ?x with _ => _ end = _ => destruct x as [p|] eqn:E2; [|discriminate] end.
    apply (fits_list_mono H) in E2 as [M3 ->]; auto. apply IHa in HH as [M4 ->]; auto.
    simpl. rewrite M3, M4. auto.
Qed.

(** Comparison of plain types, given the correspondence of bound variables. *)
Definition corr (ca cb : list tyvar) (D : tyvar -> Prop) : Prop :=
  length ca = length cb /\ NoDup ca /\ NoDup cb /\
  (forall x, In x ca -> ~ In x cb) /\ (forall x, D x -> ~ In x ca /\ ~ In x cb).

Lemma pos_pair x y : forall ca cb, length ca = length cb -> NoDup ca -> NoDup cb ->
  In (x, y) (combine ca cb) -> pos x ca = pos y cb /\ pos x ca <> None.
Proof.
  induction ca as [|a ca IH]; intros [|b cb] L N1 N2 H; simpl in *; try discriminate; try tauto.
  apply NoDup_cons_iff in N1 as [A1 N1]. apply NoDup_cons_iff in N2 as [A2 N2].
  destruct H as [H|H].
  - injection H as -> ->. rewrite !Nat.eqb_refl. split; congruence.
  - pose proof (in_combine_l _ _ _ _ H) as Hl. pose proof (in_combine_r _ _ _ _ H) as Hr.
    destruct (Nat.eqb_spec x a); [subst; tauto|]. destruct (Nat.eqb_spec y b); [subst; tauto|].
    destruct (IH cb) as [E1 E2]; auto. rewrite E1 in *. split; auto.
    destruct (pos y cb); simpl; congruence.
Qed.
Lemma fits_tr_mono a : forall b ca cb D g q, monob b = true -> corr ca cb D ->
  (forall x, In x (fv a) -> In x ca \/ D x) -> (forall x, In x (fv b) -> In x cb \/ D x) ->
  fits_go a b (combine ca cb) = Some q -> tr ca g a = tr cb g b.
Proof.
  induction a using ty_ind'; intros b ca cb D g q M C FA FB HH; destruct b; simpl in HH, M |- *; try discriminate; auto.
  - destruct C as (L & N1 & N2 & DJ & DD).
    destruct (Nat.eqb_spec v v0) as [->|Hn]; simpl in HH.
    + assert (Da : D v0).
      { destruct (FA v0) as [Hi|Hi]; simpl; auto. destruct (FB v0) as [Hj|Hj]; simpl; auto.
        exfalso. apply (DJ v0); auto. }
      apply DD in Da as [P1 P2]. apply pos_none in P1 as ->. apply pos_none in P2 as ->. auto.
    + destruct (existsb _ _) eqn:E; [|discriminate]. apply existsb_exists in E as ([x y] & Hi & E).
      simpl in E. apply andb_true_iff in E as [E1 E2]. apply Nat.eqb_eq in E1, E2. subst x y.
      destruct (pos_pair _ _ L N1 N2 Hi) as [E1 E2]. rewrite E1 in *. destruct (pos v0 cb); [auto|congruence].
  - destruct ((n =? n0) && (length args =? length args0)) eqn:E; [|discriminate].
    apply andb_true_iff in E as [E0 E]. apply Nat.eqb_eq in E, E0. subst n0. f_equal.
    simpl in FA, FB. revert args0 M E HH FB.
    induction H as [|u us Hu _ IH]; intros [|w ws] M E HH FB; simpl in *; try discriminate; auto.
    apply andb_true_iff in M as [M1 M2]. destruct (fits_go u w _) as [p|] eqn:Ef; [|discriminate].
    pose proof (fits_mono _ _ _ M1 Ef) as [_ ->]. f_equal.
    + eapply Hu; eauto. { intros x Hx. apply FA, in_app_iff; auto. } { intros x Hx. apply FB, in_app_iff; auto. }
    + eapply IH; eauto. { intros x Hx. apply FA, in_app_iff; auto. } { intros x Hx. apply FB, in_app_iff; auto. }
  - destruct (length ps =? length params) eqn:E; [|discriminate]. apply Nat.eqb_eq in E.
    apply andb_true_iff in M as [M1 M2].
    match type of HH with match ?x with _ => _ end = _ => destruct x as [p|] eqn:E2; [|discriminate] end.
    simpl in FA, FB.
    assert (E3 : p = combine ca cb).
    { apply (fun H0 => @fits_list_mono ps H0 params _ _ E M1) in E2; [apply E2|].
      apply Forall_forall. intros u _ b0 pr q0. apply fits_mono. }
    rewrite E3 in *. f_equal.
    + clear HH. assert (FA' : forall x, In x (flat_map fv ps) -> In x ca \/ D x) by (intros x Hx; apply FA, in_app_iff; auto).
      assert (FB' : forall x, In x (flat_map fv params) -> In x cb \/ D x) by (intros x Hx; apply FB, in_app_iff; auto).
      clear FA FB E3 IHa. revert params M1 E E2 FB'.
      induction H as [|u us Hu _ IH]; intros [|w ws] M E HH FB; simpl in *; try discriminate; auto.
      apply andb_true_iff in M as [M1 M3]. destruct (fits_go u w _) as [p'|] eqn:Ef; [|discriminate].
      pose proof (fits_mono _ _ _ M1 Ef) as [_ ->]. f_equal.
      * eapply Hu; eauto. { intros x Hx. apply FA', in_app_iff; auto. } { intros x Hx. apply FB, in_app_iff; auto. }
      * eapply IH; eauto. { intros x Hx. apply FA', in_app_iff; auto. } { intros x Hx. apply FB, in_app_iff; auto. }
    + eapply IHa; eauto. { intros x Hx. apply FA, in_app_iff; auto. } { intros x Hx. apply FB, in_app_iff; auto. }
Qed.
Lemma fits_prenex a : forall b pairs q, prenex b = true -> fits_go a b pairs = Some q -> prenex a = true.
Proof.
  induction a using ty_ind'; intros b pairs q M HH;
    try (destruct b; simpl in HH; try discriminate;
         eapply fits_mono; [exact M|]; simpl; exact HH).
  destruct b; simpl in HH; try discriminate. simpl in *. eauto.
Qed.
Lemma fits_tr a : forall b ca cb D g q, prenex b = true -> corr ca cb D ->
  nest a -> nest b ->
  (forall x, In x (tbind a) -> ~ In x ca /\ ~ In x cb /\ ~ In x (tbind b) /\ ~ D x) ->
  (forall x, In x (tbind b) -> ~ In x ca /\ ~ In x cb /\ ~ D x) ->
  (forall x, In x (fv a) -> In x ca \/ D x) -> (forall x, In x (fv b) -> In x cb \/ D x) ->
  fits_go a b (combine ca cb) = Some q -> tr ca g a = tr cb g b.
Proof.
  induction a using ty_ind'; intros b ca cb D g q M C NA NB BA BB FA FB HH;
    try (destruct b; simpl in HH; try discriminate; eapply fits_tr_mono; eauto; exact HH).
  destruct b as [| | | | | |w u]; simpl in HH; try discriminate. simpl in *. f_equal.
  destruct C as (L & N1 & N2 & DJ & DD). destruct NA as [NA1 NA2]. destruct NB as [NB1 NB2].
  destruct (BA v) as (A1 & A2 & A3 & A4); auto. destruct (BB w) as (B1 & B2 & B3); auto.
  eapply (IHa u (v :: ca) (w :: cb) D); eauto.
  - split; [simpl; auto|]. split; [constructor; auto|]. split; [constructor; auto|]. split.
    + intros x [<-|Hx]; simpl.
      * intros [E|Hi]; [subst; tauto|]. tauto.
      * intros [E|Hi]; [subst; tauto|]. eapply DJ; eauto.
    + intros x Hx. apply DD in Hx as Hx'. simpl. split; intros [E|Hi]; subst; tauto.
  - intros x Hx. destruct (BA x) as (X1 & X2 & X3 & X4); auto. simpl.
    repeat split; auto; intros [E|Hi]; subst; tauto.
  - intros x Hx. destruct (BB x) as (X1 & X2 & X3); auto. simpl.
    repeat split; auto; intros [E|Hi]; subst; try tauto.
  - intros x Hx. destruct (Nat.eq_dec x v) as [->|Hn]; [simpl; auto|].
    destruct (FA x) as [Hi|Hi]; auto. { apply In_rem; auto. } simpl; auto.
  - intros x Hx. destruct (Nat.eq_dec x w) as [->|Hn]; [simpl; auto|].
    destruct (FB x) as [Hi|Hi]; auto. { apply In_rem; auto. } simpl; auto.
Qed.

Lemma ty_eqb_eq a : forall b, ty_eqb a b = true -> a = b.
Proof.
  assert (L : forall xs, Forall (fun a => forall b, ty_eqb a b = true -> a = b) xs -> forall ys,
    (fix all (xs ys : list ty) {struct xs} :=
       match xs, ys with
       | [], [] => true
       | x :: xs', y :: ys' => ty_eqb x y && all xs' ys'
       | _, _ => false
       end) xs ys = true -> xs = ys).
  { induction 1 as [|x xs Hx _ IH]; intros [|y ys] H; try discriminate; auto.
    apply andb_true_iff in H as [H1 H2]. f_equal; auto. }
  induction a using ty_ind'; intros b HH; destruct b; simpl in HH; try discriminate; auto.
  - apply Nat.eqb_eq in HH. congruence.
  - apply andb_true_iff in HH as [H1 H2]. apply Nat.eqb_eq in H1. apply (L _ H) in H2. congruence.
  - apply andb_true_iff in HH as [H1 H2]. apply (L _ H) in H1. apply IHa in H2. congruence.
  - apply andb_true_iff in HH as [H1 H2]. apply Nat.eqb_eq in H1. apply IHa in H2. congruence.
Qed.
(** Comparison with a plain type on either side is equality. *)
Lemma fits_eq_list xs :
  Forall (fun a => forall b q, (monob a = true \/ monob b = true) -> fits_go a b [] = Some q -> a = b /\ q = []) xs ->
  forall ys q, length xs = length ys -> (forallb monob xs = true \/ forallb monob ys = true) ->
  (fix all (xs ys : list ty) (pairs : list (tyvar * tyvar)) {struct xs} :=
           match xs, ys with
           | x :: xs', y :: ys' => do p <- fits_go x y pairs; all xs' ys' p
           | _, _ => Some pairs
           end) xs ys [] = Some q -> xs = ys /\ q = [].
Proof.
  induction 1 as [|x xs Hx _ IH]; intros [|y ys] q L M H; simpl in *; try discriminate.
  - split; congruence.
  - destruct (fits_go x y []) as [p|] eqn:E; [|discriminate].
    assert (MX : monob x = true \/ monob y = true) by (destruct M as [M|M]; apply andb_true_iff in M; tauto).
    assert (MXs : forallb monob xs = true \/ forallb monob ys = true) by (destruct M as [M|M]; apply andb_true_iff in M; tauto).
    apply Hx in E as [-> ->]; auto. apply IH in H as [-> ->]; auto.
Qed.
Lemma fits_eq_go a : forall b q, (monob a = true \/ monob b = true) -> fits_go a b [] = Some q -> a = b /\ q = [].
Proof.
  induction a using ty_ind'; intros b q M HH; destruct b; simpl in HH, M; try discriminate.
  1-3: (injection HH as <-; auto).
  - destruct (Nat.eqb_spec v v0) as [->|]; simpl in HH; [|discriminate]. injection HH as <-. auto.
  - destruct ((n =? n0) && (length args =? length args0)) eqn:E; [|discriminate].
    apply andb_true_iff in E as [E0 E]. apply Nat.eqb_eq in E, E0.
    apply (fits_eq_list H) in HH as [-> ->]; auto. subst. auto.
  - destruct (length ps =? length params) eqn:E; [|discriminate]. apply Nat.eqb_eq in E.
    match type of HH with match ?x with _ => _ end = _ => destruct x as [p|] eqn:E2; [|discriminate] end.
    apply (fits_eq_list H) in E2 as [-> ->]; auto.
    + apply IHa in HH as [-> ->]; auto. destruct M as [M|M]; apply andb_true_iff in M; tauto.
    + destruct M as [M|M]; apply andb_true_iff in M; tauto.
  - destruct M; discriminate.
Qed.
Lemma fits_eq a b : (monob a = true \/ monob b = true) -> fits a b = true -> a = b.
Proof.
  unfold fits. intros M H. destruct (fits_go a b []) eqn:E; [|discriminate].
  eapply fits_eq_go; eauto.
Qed.
