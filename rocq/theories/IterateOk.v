(** The code generated for [iterate]: it applies its function as many times as it is told. *)
From Verif Require Import EvalFacts Orders OptEv GenCore StackSpec StackLoops.
Set Implicit Arguments.

(** What applying a function value to one argument ends with. *)
Definition apply_ends (o : order) (fv v : value) (r : res value) : Prop :=
  r <> OutOfFuel /\ exists m, call_o o m fv [v] = r.
(** What an expression ends with. *)
Definition ends (o : order) (en : env) (e : expr) (r : res value) : Prop :=
  r <> OutOfFuel /\ exists m, eval_o o m en e = r.

(** [k] applications of [ap], starting at [v], end with [r]: the last value, or the first outcome that is
    not a value. *)
Inductive iterates (ap : value -> res value -> Prop) : nat -> value -> res value -> Prop :=
| iterates_0 v : iterates ap 0 v (Ok v)
| iterates_S k v w r : ap v (Ok w) -> iterates ap k w r -> iterates ap (S k) v r
| iterates_stop k v r : ap v r -> (forall w, r <> Ok w) -> iterates ap (S k) v r.

Lemma call_mono o n m fv vs : n <= m -> lres (call_o o n fv vs) (call_o o m fv vs).
Proof.
  intros H. unfold call_o. destruct fv; try apply lres_refl. destruct (length ps =? length vs); [|apply lres_refl].
  destruct n as [|n]; [left; auto|]. destruct m as [|m]; [lia|]. apply eval_mono. lia.
Qed.
Lemma lres_inv {A} (r r' : res A) : lres r r' -> r <> OutOfFuel -> r' = r.
Proof. intros [->|H]; congruence. Qed.

Lemma names_differ (n f x go n2 x2 : name) : NoDup [n; f; x; go; n2; x2] -> f <> go /\ f <> n2 /\ f <> x2 /\ go <> n2 /\ go <> x2 /\ n2 <> x2 /\ n <> f /\ n <> x /\ f <> x
  /\ n <> go /\ x <> go.
Proof.
  intros Hnd.
  repeat match goal with H : NoDup (_ :: _) |- _ => inversion H; clear H; subst end; simpl in *.
  repeat match goal with H : ~ _ |- _ => apply Decidable.not_or in H as [? ?] end. 
  repeat split; intros E; subst; intuition congruence.
Qed.


Section Iterate.
  Variables (n f x go n2 x2 : name) (fv : value) (cenv : env).
  Hypothesis Hnd : NoDup [n; f; x; go; n2; x2].
  Hypothesis Hf : lookup f cenv = Some fv.

  Definition go_body : expr :=
    EIf (EOp (EName n2) LessEq (EInt 0)) (EName x2)
        (ECall (EName go) [EOp (EName n2) Subtract (EInt 1); ECall (EName f) [EName x2]]).
  Definition go_val : value := VFn cenv (Some go) [n2; x2] go_body.
  Definition go_env (k : N) (v : value) : env := call_env cenv (Some go) [n2; x2] go_body [VInt k; v].


  Lemma lookups k v : lookup n2 (go_env k v) = Some (VInt k) /\ lookup x2 (go_env k v) = Some v /\
    lookup f (go_env k v) = Some fv /\ lookup go (go_env k v) = Some go_val.
  Proof.
    pose proof (@names_differ n f x go n2 x2 Hnd) as (H1 & H2 & H3 & H4 & H5 & H6 & _).
    unfold go_env, call_env, add_all. simpl.
    repeat match goal with |- context [Nat.eqb ?a ?b] => destruct (Nat.eqb_spec a b); try congruence end.
    auto.
  Qed.

  Lemma wrap_pred k : (0 < k < W64)%N -> wrap (k + (W64 - 1)) = (k - 1)%N.
  Proof.
    intros H. unfold wrap. replace (k + (W64 - 1))%N with (k - 1 + 1 * W64)%N by lia.
    rewrite N.mod_add by (unfold W64; lia). apply N.mod_small. lia.
  Qed.

  Variable o : order.
  Lemma go_step m k v : (0 < k < W64)%N ->
    eval_o o m (go_env k v) go_body =
    (w <- call_o o m fv [v] ;; call_o o m go_val [VInt (k - 1); w]).
  Proof.
    intros Hk. destruct (lookups k v) as (L1 & L2 & L3 & L4).
    rewrite eval_unfold. unfold go_body, eval_eqn. fold go_body.
    rewrite (eval_unfold o m (go_env k v) (EOp (EName n2) LessEq (EInt 0))). cbn [eval_eqn].
    rewrite (eval_unfold o m (go_env k v) (EName n2)), (eval_unfold o m (go_env k v) (EInt 0)).
    cbn [eval_eqn]. rewrite L1. cbn [bind into_int eval_op into_bool].
    destruct (N.leb_spec k 0) as [?|_]; [lia|]. cbn [bind into_bool].
    rewrite (eval_unfold o m (go_env k v) (ECall _ _)). cbn [eval_eqn].
    assert (Ego : eval_o o m (go_env k v) (EName go) = Ok go_val) by (rewrite eval_unfold; cbn [eval_eqn]; rewrite L4; auto).
    assert (Ef : eval_o o m (go_env k v) (EName f) = Ok fv) by (rewrite eval_unfold; cbn [eval_eqn]; rewrite L3; auto).
    assert (Ex : eval_o o m (go_env k v) (EName x2) = Ok v) by (rewrite eval_unfold; cbn [eval_eqn]; rewrite L2; auto).
    assert (Es : eval_o o m (go_env k v) (EOp (EName n2) Subtract (EInt 1)) = Ok (VInt (k - 1))).
    { rewrite eval_unfold. cbn [eval_eqn].
      rewrite (eval_unfold o m (go_env k v) (EName n2)), (eval_unfold o m (go_env k v) (EInt 1)).
      cbn [eval_eqn]. rewrite L1. cbn [bind into_int eval_op]. rewrite wrap_pred; auto. }
    assert (Ea : eval_o o m (go_env k v) (ECall (EName f) [EName x2]) = call_o o m fv [v]).
    { rewrite eval_unfold. cbn [eval_eqn]. destruct o; rewrite !mapM_cons, Ef, Ex; cbn [bind mapM].
      - unfold call_o. destruct fv; auto.
      - auto. }
    destruct o; rewrite !mapM_cons, Ego, Es, Ea; cbn [bind mapM go_val]; destruct (call_o _ m fv [v]); auto.
  Qed.

  Lemma go_stop m v : eval_o o m (go_env 0 v) go_body = Ok v.
  Proof.
    destruct (lookups 0 v) as (L1 & L2 & _). rewrite eval_unfold. unfold go_body, eval_eqn.
    rewrite (eval_unfold o m (go_env 0 v) (EOp (EName n2) LessEq (EInt 0))). cbn [eval_eqn].
    rewrite (eval_unfold o m (go_env 0 v) (EName n2)), (eval_unfold o m (go_env 0 v) (EInt 0)).
    cbn [eval_eqn]. rewrite L1. cbn [bind into_int eval_op into_bool N.leb N.compare].
    rewrite (eval_unfold o m (go_env 0 v) (EName x2)). cbn [eval_eqn]. rewrite L2. auto.
  Qed.

  Lemma call_go m k v : call_o o (S m) go_val [VInt k; v] = eval_o o m (go_env k v) go_body.
  Proof. reflexivity. Qed.

  Theorem go_iterates j : forall k v r, N.to_nat k = j -> (k < W64)%N ->
    ((r <> OutOfFuel /\ exists m, call_o o m go_val [VInt k; v] = r) <-> iterates (apply_ends o fv) j v r).
  Proof.
    induction j as [|j IH]; intros k v r Hj Hk.
    - assert (k = 0%N) by lia. subst k. split.
      + intros (Hr & m & Hm). destruct m as [|m]; [simpl in Hm; congruence|].
        rewrite call_go, go_stop in Hm. subst. constructor.
      + intros H. inversion H; subst. split; [discriminate|]. exists 1. rewrite call_go, go_stop. auto.
    - assert (Hk' : (0 < k < W64)%N) by lia. split.
      + intros (Hr & m & Hm). destruct m as [|m]; [simpl in Hm; congruence|].
        rewrite call_go, go_step in Hm by auto. destruct (call_o o m fv [v]) as [w|e| |] eqn:E; cbn [bind] in Hm.
        * eapply iterates_S; [split; [discriminate|exists m; exact E]|].
          apply (IH (k - 1)%N); [lia|lia|]. split; auto. exists m; auto.
        * subst. apply iterates_stop; [split; eauto|discriminate].
        * subst. apply iterates_stop; [split; eauto|discriminate].
        * subst; congruence.
      + intros H. inversion H as [|? ? w ? [_ [m1 H1]] H2|? ? ? [Hr [m1 H1]] H2]; subst.
        * apply (IH (k - 1)%N) in H2; [|lia|lia]. destruct H2 as (Hr & m2 & H2). split; auto.
          exists (S (m1 + m2)). rewrite call_go, go_step by auto.
          destruct (@call_mono o m1 (m1 + m2) fv [v]) as [E|E]; [lia|congruence|]. rewrite <- E, H1. cbn [bind].
          apply lres_inv; auto. rewrite <- H2. apply call_mono. lia.
        * split; auto. exists (S m1). rewrite call_go, go_step by auto.
          destruct (call_o o m1 fv [v]) as [w| | |]; cbn [bind]; auto. destruct (H2 w eq_refl).
  Qed.
End Iterate.

(** Calling the function three times, in any environment. *)
Definition iterate_val (cenv : env) (a : tyvar) (n f x go n2 x2 : name) : value :=
  match iterate_core a n f x go n2 x2 with
  | EPi _ (ELam ps b) => VFn cenv None (map fst ps) b
  | _ => VInt 0
  end.

Lemma call1 o m en fe ae fv av : eval_o o m en fe = Ok fv -> eval_o o m en ae = Ok av ->
  eval_o o m en (ECall fe [ae]) = call_o o m fv [av].
Proof.
  intros Hf Ha. rewrite eval_unfold. cbn [eval_eqn]. destruct o; rewrite mapM_cons, Hf, Ha; cbn [bind mapM]; auto.
  unfold call_o. destruct fv; auto.
Qed.

Lemma call_lam o m ce p ps b v :
  call_o o (S m) (VFn ce None [p] (ELam ps b)) [v] = Ok (VFn ((p, v) :: ce) None (map fst ps) b).
Proof. unfold call_o. cbn [length Nat.eqb]. rewrite eval_unfold. reflexivity. Qed.

Lemma eval_up o m m' en e v : eval_o o m en e = Ok v -> m <= m' -> eval_o o m' en e = Ok v.
Proof. intros H Hm. destruct (@eval_mono o m m' e en Hm) as [E|E]; congruence. Qed.

Theorem iterate_ends o cenv a (n f x go n2 x2 : name) : NoDup [n; f; x; go; n2; x2] ->
  forall en ie ne fe xe k fv v r,
  ends o en ie (Ok (iterate_val cenv a n f x go n2 x2)) ->
  ends o en ne (Ok (VInt k)) -> ends o en fe (Ok fv) -> ends o en xe (Ok v) -> (k < W64)%N ->
  (ends o en (ECall (ECall (ECall ie [ne]) [fe]) [xe]) r <-> iterates (apply_ends o fv) (N.to_nat k) v r).
Proof.
  intros Hnd en ie ne fe xe k fv v r (_ & mi & Hi) (_ & mn & Hn) (_ & mf & Hf) (_ & mx & Hx) Hk.
  set (env3 := (x, v) :: (f, fv) :: (n, VInt k) :: cenv).
  assert (L : lookup f env3 = Some fv /\ lookup n env3 = Some (VInt k) /\ lookup x env3 = Some v).
  { pose proof (@names_differ n f x go n2 x2 Hnd) as (_ & _ & _ & _ & _ & _ & H1 & H2 & H3 & _ ).
    unfold env3. simpl. repeat match goal with |- context [Nat.eqb ?a ?b] => destruct (Nat.eqb_spec a b); try congruence end. auto. }
  destruct L as (L1 & L2 & L3).
  rewrite <- (@go_iterates n f x go n2 x2 fv env3 Hnd L1 o (N.to_nat k) k v r eq_refl Hk).
  (* the body of the innermost function *)
  assert (Hb : forall m, eval_o o m env3 (ELetRec go (TFn [TInt; TVar a] (TVar a))
       (ELam [(n2, TInt); (x2, TVar a)] (go_body f go n2 x2))
       (ECall (EName go) [EName n; EName x])) = call_o o m (go_val f go n2 x2 env3) [VInt k; v]).
  { intros m. rewrite eval_unfold. cbn [eval_eqn strip_pis map fst]. fold (go_val f go n2 x2 env3).
    pose proof (@names_differ n f x go n2 x2 Hnd) as (_ & _ & _ & _ & _ & _ & _ & _ & _ & D1 & D2).
    set (en' := (go, go_val f go n2 x2 env3) :: env3).
    assert (Eg : eval_o o m en' (EName go) = Ok (go_val f go n2 x2 env3)).
    { rewrite eval_unfold. cbn [eval_eqn]. unfold en'. simpl lookup. rewrite Nat.eqb_refl. auto. }
    assert (En : eval_o o m en' (EName n) = Ok (VInt k)).
    { rewrite eval_unfold. cbn [eval_eqn]. unfold en'. cbn [lookup]. destruct (Nat.eqb_spec n go); [congruence|]. rewrite L2. auto. }
    assert (Ex : eval_o o m en' (EName x) = Ok v).
    { rewrite eval_unfold. cbn [eval_eqn]. unfold en'. cbn [lookup]. destruct (Nat.eqb_spec x go); [congruence|]. rewrite L3. auto. }
    rewrite eval_unfold. cbn [eval_eqn]. destruct o; rewrite !mapM_cons, Eg, En, Ex; cbn [bind mapM]; auto. }
  assert (Hc : forall m, mi + mn + mf + mx < m ->
     eval_o o m en (ECall (ECall (ECall ie [ne]) [fe]) [xe]) =
     match m with S m' => call_o o m' (go_val f go n2 x2 env3) [VInt k; v] | O => OutOfFuel end).
  { intros m Hm. destruct m as [|m]; [lia|].
    pose proof (@eval_up _ _ (S m) _ _ _ Hi ltac:(lia)) as Hi'. pose proof (@eval_up _ _ (S m) _ _ _ Hn ltac:(lia)) as Hn'.
    pose proof (@eval_up _ _ (S m) _ _ _ Hf ltac:(lia)) as Hf'. pose proof (@eval_up _ _ (S m) _ _ _ Hx ltac:(lia)) as Hx'.
    pose proof (@call1 _ _ _ _ _ _ _ Hi' Hn') as C1. unfold iterate_val, iterate_core in C1. cbn [map fst] in C1.
    rewrite call_lam in C1. cbn [map fst] in C1.
    pose proof (@call1 _ _ _ _ _ _ _ C1 Hf') as C2. rewrite call_lam in C2. cbn [map fst] in C2.
    pose proof (@call1 _ _ _ _ _ _ _ C2 Hx') as C3. rewrite C3. cbn [call_o length map fst Nat.eqb].
    cbn [call_env add_all]. fold env3. fold (go_body f go n2 x2). apply Hb. }
  unfold ends. split; intros (Hr & m & Hm); split; auto.
  - exists (mi + mn + mf + mx + m).
    assert (E : eval_o o (S (mi + mn + mf + mx + m)) en (ECall (ECall (ECall ie [ne]) [fe]) [xe]) = r).
    { apply lres_inv; auto. rewrite <- Hm. apply eval_mono. lia. }
    rewrite Hc in E by lia. exact E.
  - exists (S (mi + mn + mf + mx + m)). rewrite Hc by lia. apply lres_inv; auto. rewrite <- Hm. apply call_mono. lia.
Qed.

(** ** Nesting of activations *)
(** Applying a function value, with the number of activations nested in the call. *)
Definition apply_d (m : nat) (fv : value) (vs : list value) : dres value :=
  match fv with
  | VFn cenv rec ps body =>
    if length ps =? length vs then
      match m with
      | O => dret OutOfFuel
      | S j => eval_d j rec true (call_env cenv rec ps body vs) body
      end
    else dret Panic
  | _ => dret Panic
  end.

Lemma snd_dbind {A B} (r : dres A) (f : A -> dres B) d :
  snd r <= d -> (forall a, fst r = Ok a -> snd (f a) <= d) -> snd (dbind r f) <= d.
Proof. intros H1 H2. unfold dbind. destruct (fst r); simpl; auto. apply Nat.max_lub; auto. Qed.
Lemma snd_dret {A} (r : res A) d : snd (dret r) <= d.
Proof. simpl. lia. Qed.
Lemma call_d m self tail en fe ae c fv :
  snd (eval_d m self false en fe) <= c -> snd (eval_d m self false en ae) <= c ->
  (forall v, fst (eval_d m self false en fe) = Ok v -> v = fv) ->
  (forall v, S (snd (apply_d m fv [v])) <= c) ->
  snd (eval_d m self tail en (ECall fe [ae])) <= c.
Proof.
  intros Hf Ha Hv Hc. rewrite eval_d_unfold. cbn [eval_d_eqn dmapM]. apply snd_dbind.
  - apply snd_dbind; auto. intros a _. apply snd_dbind; [apply snd_dret|]. intros; apply snd_dret.
  - intros vs Hvs. apply snd_dbind; auto. intros v E. apply Hv in E. subst v.
    assert (exists w, vs = [w]) as [w ->].
    { cbn in Hvs. unfold dbind in Hvs. cbn in Hvs. destruct (fst (eval_d m self false en ae)); try discriminate.
      cbn in Hvs. injection Hvs as <-. eauto. }
    specialize (Hc w). unfold apply_d in Hc. destruct fv; try apply snd_dret.
    destruct (length ps =? length [w]); [|apply snd_dret].
    destruct (self_call self tail fe); cbv zeta; [|unfold activation; simpl snd; auto].
    destruct m; simpl in *; lia.
Qed.

Section Nest.
  Variables (n f x go n2 x2 : name) (fv : value) (cenv : env) (d : nat).
  Hypothesis Hnd : NoDup [n; f; x; go; n2; x2].
  Hypothesis Hf : lookup f cenv = Some fv.
  Hypothesis Hd : forall m v, snd (apply_d m fv [v]) <= d.

  Lemma go_nest : forall m k v,
    snd (eval_d m (Some go) true (call_env cenv (Some go) [n2; x2] (go_body f go n2 x2) [k; v]) (go_body f go n2 x2)) <= S d.
  Proof.
    induction m as [m IH] using lt_wf_ind. intros k v.
    set (G := call_env cenv (Some go) [n2; x2] (go_body f go n2 x2) [k; v]) in *.
    assert (L3 : lookup f G = Some fv /\ lookup go G = Some (go_val f go n2 x2 cenv)).
    { pose proof (@names_differ n f x go n2 x2 Hnd) as (H1 & H2 & H3 & H4 & H5 & H6 & _).
      unfold G, call_env, add_all. simpl.
      repeat match goal with |- context [Nat.eqb ?a ?b] => destruct (Nat.eqb_spec a b); try congruence end.
      auto. }
    destruct L3 as [L3 L4].
    assert (En : forall y w t s, lookup y G = Some w -> eval_d m s t G (EName y) = dret (Ok w)).
    { intros y w t s E. rewrite eval_d_unfold. cbn [eval_d_eqn]. rewrite E. auto. }
    assert (Ea : forall y t s, snd (eval_d m s t G (EName y)) <= S d).
    { intros. rewrite eval_d_unfold. cbn [eval_d_eqn]. apply snd_dret. }
    assert (Ei : forall i t s, eval_d m s t G (EInt i) = dret (Ok (VInt i))) by (intros; rewrite eval_d_unfold; auto).
    assert (Eo : forall i op s t, snd (eval_d m s t G (EOp (EName n2) op (EInt i))) <= S d).
    { intros. rewrite eval_d_unfold. cbn [eval_d_eqn]. apply snd_dbind; [apply Ea|]. intros ? _.
      apply snd_dbind; [apply snd_dret|]. intros ? _. rewrite Ei. apply snd_dbind; [apply snd_dret|]. intros ? _.
      apply snd_dbind; [apply snd_dret|]. intros; apply snd_dret. }
    unfold go_body. rewrite eval_d_unfold. cbn [eval_d_eqn].
    apply snd_dbind; [apply Eo|]. intros b Hb. apply snd_dbind; [apply snd_dret|]. intros b' _.
    destruct b'; [apply Ea|].
    rewrite eval_d_unfold. cbn [eval_d_eqn dmapM]. apply snd_dbind.
    - apply snd_dbind; [apply Eo|]. intros i _. apply snd_dbind; [|intros; apply snd_dret].
      apply snd_dbind; [|intros; apply snd_dbind; intros; apply snd_dret].
      apply call_d with (fv := fv); [apply Ea|apply Ea| |].
      + rewrite (En _ _ _ _ L3). simpl. congruence.
      + intros w. pose proof (Hd m w). lia.
    - intros vs Hvs. rewrite (En _ _ _ _ L4). apply snd_dbind; [apply snd_dret|]. intros g Eg.
      injection Eg as <-. unfold go_val. destruct (length [n2; x2] =? length vs) eqn:El; [|apply snd_dret].
      cbv zeta. simpl self_call. rewrite Nat.eqb_refl.
      destruct m as [|m]; [apply snd_dret|].
      destruct vs as [|a [|b0 [|]]]; try discriminate.
      apply (IH m (Nat.lt_succ_diag_r m) a b0).
  Qed.
End Nest.

Lemma call_few m self tail en fe ae c (Pf Pa Pr : value -> Prop) :
  few Pf c (eval_d m self false en fe) -> few Pa c (eval_d m self false en ae) ->
  (forall fv v, Pf fv -> Pa v -> S (snd (apply_d m fv [v])) <= c /\
     match fst (apply_d m fv [v]) with Ok w => Pr w | _ => True end) ->
  few Pr c (eval_d m self tail en (ECall fe [ae])).
Proof.
  intros Hf Ha Hc. rewrite eval_d_unfold. cbn [eval_d_eqn dmapM].
  apply few_bind with (P := fun vs => exists v, vs = [v] /\ Pa v).
  - eapply few_bind; [exact Ha|]. intros v Hv. apply few_ret. eauto.
  - intros vs (v & -> & Hv). eapply few_bind; [exact Hf|]. intros fv Hfv.
    specialize (Hc fv v Hfv Hv). unfold apply_d in Hc. destruct fv; try (split; simpl; auto; lia).
    destruct (length ps =? length [v]); [|split; simpl; auto; lia].
    cbv zeta. destruct (self_call self tail fe); destruct m; unfold few, activation; simpl in *; intuition lia.
Qed.

Theorem iterate_nesting cenv a (n f x go n2 x2 : name) : NoDup [n; f; x; go; n2; x2] ->
  forall en ie ne fe xe fv d m self tail,
  (forall m v, snd (apply_d m fv [v]) <= d) ->
  (forall e, In e [ie; ne; fe; xe] -> snd (eval_d m self false en e) <= d) ->
  (forall v, fst (eval_d m self false en ie) = Ok v -> v = iterate_val cenv a n f x go n2 x2) ->
  (forall v, fst (eval_d m self false en fe) = Ok v -> v = fv) ->
  snd (eval_d m self tail en (ECall (ECall (ECall ie [ne]) [fe]) [xe])) <= 3 + d.
Proof.
  intros Hnd en ie ne fe xe fv d m self tail Hd Hs Hi Hfv.
  assert (Ci : few (eq (iterate_val cenv a n f x go n2 x2)) (3 + d) (eval_d m self false en ie)).
  { split; [pose proof (Hs ie (or_introl eq_refl)); lia|].
    destruct (fst (eval_d m self false en ie)); auto. symmetry; auto. }
  assert (Cf : few (eq fv) (3 + d) (eval_d m self false en fe)).
  { split; [pose proof (Hs fe ltac:(simpl; auto)); lia|].
    destruct (fst (eval_d m self false en fe)); auto. symmetry; auto. }
  assert (Cx : forall e, In e [ie; ne; fe; xe] -> few (fun _ => True) (3 + d) (eval_d m self false en e)).
  { intros e He. split; [pose proof (Hs e He); lia|]. destruct (fst (eval_d m self false en e)); auto. }
  set (body := ELetRec go (TFn [TInt; TVar a] (TVar a))
       (ELam [(n2, TInt); (x2, TVar a)] (go_body f go n2 x2))
       (ECall (EName go) [EName n; EName x])).
  assert (C1 : few (fun w => exists v, w = VFn ((n, v) :: cenv) None [f] (ELam [(x, TVar a)] body)) (3 + d)
                 (eval_d m self false en (ECall ie [ne]))).
  { eapply call_few; [exact Ci|apply Cx; simpl; auto|]. intros g v <- _. unfold apply_d, iterate_val, iterate_core. cbn [map fst length Nat.eqb].
    destruct m as [|m']; [split; simpl; auto; lia|]. rewrite eval_d_unfold. cbn. split; [lia|]. exists v. reflexivity. }
  assert (C2 : few (fun w => exists v, w = VFn ((f, fv) :: (n, v) :: cenv) None [x] body) (3 + d)
                 (eval_d m self false en (ECall (ECall ie [ne]) [fe]))).
  { eapply call_few; [exact C1|exact Cf|]. intros g v (v0 & ->) <-. unfold apply_d. cbn [map fst length Nat.eqb].
    destruct m as [|m']; [split; simpl; auto; lia|]. rewrite eval_d_unfold. cbn. split; [lia|]. exists v0. reflexivity. }
  assert (C3 : few (fun _ => True) (3 + d) (eval_d m self tail en (ECall (ECall (ECall ie [ne]) [fe]) [xe]))).
  { eapply call_few; [exact C2|apply Cx; simpl; auto|]. intros g v (v0 & ->) _. unfold apply_d. cbn [map fst length Nat.eqb].
    destruct m as [|m']; [split; simpl; auto; lia|]. cbn [call_env add_all].
    assert (Hlf : lookup f ((x, v) :: (f, fv) :: (n, v0) :: cenv) = Some fv).
    { pose proof (@names_differ n f x go n2 x2 Hnd) as (_ & _ & _ & _ & _ & _ & _ & _ & H3 & _).
      cbn [lookup]. destruct (Nat.eqb_spec f x); [congruence|]. rewrite Nat.eqb_refl. auto. }
    set (en3 := (x, v) :: (f, fv) :: (n, v0) :: cenv) in *.
    split; [|match goal with |- match ?r with _ => _ end => destruct r; auto end]. unfold body. rewrite eval_d_unfold. cbn [eval_d_eqn strip_pis map fst].
    apply le_n_S. rewrite eval_d_unfold. cbn [eval_d_eqn].
    set (en4 := (go, VFn en3 (Some go) [n2; x2] (go_body f go n2 x2)) :: en3).
    assert (Enm : forall y t s, snd (eval_d m' s t en4 (EName y)) <= 2 + d).
    { intros. rewrite eval_d_unfold. cbn [eval_d_eqn]. apply snd_dret. }
    apply snd_dbind.
    - cbn [dmapM]. apply snd_dbind; [apply Enm|]. intros. apply snd_dbind; [|intros; apply snd_dret].
      apply snd_dbind; [apply Enm|]. intros. apply snd_dbind; [apply snd_dret|]. intros; apply snd_dret.
    - intros vs Hvs. apply snd_dbind; [apply Enm|]. intros g Hg. rewrite eval_d_unfold in Hg. cbn [eval_d_eqn] in Hg.
      unfold en4 in Hg. cbn [lookup] in Hg. rewrite Nat.eqb_refl in Hg. injection Hg as <-.
      destruct (length [n2; x2] =? length vs) eqn:El; [|apply snd_dret]. cbv zeta.
      replace (self_call None true (EName go)) with false by reflexivity.
      unfold activation. cbn [snd]. destruct m' as [|m']; [cbn; lia|].
      destruct vs as [|k [|u [|]]]; try discriminate.
      apply le_n_S. apply (@go_nest n f x go n2 x2 fv en3 d Hnd Hlf Hd). }
  apply C3.
Qed.
