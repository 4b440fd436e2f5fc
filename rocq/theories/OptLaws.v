(** The rewriting laws behind the optimisation passes. *)
From Verif Require Import EvalFacts Orders Compile CompileStatic Wf Vm OptEv OptRel OptWalk OptGood OptPasses.
Set Implicit Arguments.

Lemma G_idS_of S k r r' : G idP k r r' -> G (idS S) k r r'.
Proof. apply G_sub. intros x e [_ ->]. reflexivity. Qed.
Lemma G_idS_sub S S' k r r' : (forall x, In x S' -> In x S) -> G (idS S) k r r' -> G (idS S') k r r'.
Proof. intros H. apply G_sub. intros x e [Hx ->]. split; auto. Qed.
(** Names outside the set may be bound to anything. *)
Lemma G_idS_l S k r r' x v : ~ In x S -> G (idS S) k r r' -> G (idS S) k ((x, v) :: r) r'.
Proof.
  intros Hx HG y e' [Hy ->] w Hw. simpl in Hw. destruct (Nat.eqb_spec y x) as [->|]; [tauto|].
  apply (HG y); auto. split; auto.
Qed.
Lemma G_idS_r S k r r' x v : ~ In x S -> G (idS S) k r r' -> G (idS S) k r ((x, v) :: r').
Proof.
  intros Hx HG y e' [Hy ->] w Hw r'' Ha. apply (HG y (EName y)) with (v := w); auto; [split; auto|].
  intros z Hz. rewrite <- (Ha z Hz). simpl in *. destruct Hz as [<-|[]].
  destruct (Nat.eqb_spec y x) as [->|]; [tauto|auto].
Qed.

Lemma ev_fv e k r r' i v : G (idS (fv e)) k r r' -> i <= k -> ev i r e v -> exists c v', ev c r' e v' /\ V (k - i) v v'.
Proof. intros HG. apply (@rel_refl_fv e); auto. Qed.
Lemma evs_fv es k r r' i vs : G (idS (flat_map fv es)) k r r' -> i <= k -> evs i r es vs ->
  exists c vs', evs c r' es vs' /\ Forall2 (V (k - i)) vs vs'.
Proof.
  intros HG Hi He. eapply rels; eauto. clear.
  assert (H : forall S, (forall x, In x (flat_map fv es) -> In x S) -> Forall2 (rel (idS S)) es es).
  { induction es as [|e es IH]; intros S HS; constructor.
    - apply rel_refl_S. intros x Hx; apply HS; simpl; apply in_or_app; auto.
    - apply IH. intros x Hx; apply HS; simpl; apply in_or_app; auto. }
  auto.
Qed.

(** ** Unused bindings *)
Lemma law_drop x a b : ~ In x (fv b) -> lr (ELet x a b) b.
Proof.
  intros Hx k r r' i v HG Hi Hev. apply ev_let_inv in Hev as (i0 & j & va & -> & H1 & H2).
  destruct (@ev_fv b (k - i0) ((x, va) :: r) r' j v) as (c & v' & E & HV); auto; [|lia|].
  - apply G_idS_l; auto. apply G_idS_of. eapply G_mono; [|exact HG]; lia.
  - exists c, v'. split; auto. eapply V_mono; [|exact HV]; lia.
Qed.

(** ** Replacing names by expressions *)
Fixpoint nmap (h : name -> expr) (e : expr) : expr :=
  match e with
  | EBool _ | EInt _ | EString _ | ETrap _ _ => e
  | EName n => h n
  | ECall a b => ECall (nmap h a) (map (nmap h) b)
  | EIf a b c => EIf (nmap h a) (nmap h b) (nmap h c)
  | EOp a o b => EOp (nmap h a) o (nmap h b)
  | EIntr i b => EIntr i (map (nmap h) b)
  | ELam ps b => ELam ps (nmap h b)
  | EMatch d brs => EMatch (nmap h d) (map (fun br => (fst br, nmap h (snd br))) brs)
  | EConstruct c ts fs => EConstruct c ts (map (nmap h) fs)
  | ELet x a b => ELet x (nmap h a) (nmap h b)
  | ELetRec x t a b => ELetRec x t (nmap h a) (nmap h b)
  | EPi u e => EPi u (nmap h e)
  | EPiApp e t => EPiApp (nmap h e) t
  end.

Lemma F2_map {A B} (R : A -> B -> Prop) (f : A -> B) l : Forall (fun a => R a (f a)) l -> Forall2 R l (map f l).
Proof. induction 1; simpl; auto. Qed.

Lemma stable_exts (P : pmap) ps : (forall y, In y ps -> forall n e', P n e' -> ext P y y n e') -> forall n e', P n e' -> exts P ps ps n e'.
Proof.
  revert P. induction ps as [|p ps IH]; intros P H n e' HP; simpl; auto.
  assert (Hs : forall y, In y ps -> forall n e', P n e' -> ext P y y n e') by (intros; apply H; simpl; auto).
  eapply exts_sub; [|apply IH; auto; exact HP]. intros a e Ha. apply H; simpl; auto.
Qed.

Lemma nmap_strip h a ps f : strip_pis a = ELam ps f -> strip_pis (nmap h a) = ELam ps (nmap h f).
Proof. induction a; simpl; intros E; try discriminate; auto. injection E as -> ->; auto. Qed.

Lemma strip_binders a ps f : strip_pis a = ELam ps f -> binders a = map fst ps ++ binders f.
Proof. apply strip_pis_binders. Qed.
Lemma strip_used a ps f : strip_pis a = ELam ps f -> used_names a = used_names f.
Proof. induction a; simpl; intros E; try discriminate; auto. injection E as -> ->; auto. Qed.

Lemma nmap_rel (P : pmap) h e : (forall y, In y (binders e) -> forall n e', P n e' -> ext P y y n e') ->
  (forall n, In n (used_names e) -> P n (h n)) -> rel P e (nmap h e).
Proof.
  assert (HL : forall es, Forall (fun e => (forall y, In y (binders e) -> forall n e', P n e' -> ext P y y n e') ->
      (forall n, In n (used_names e) -> P n (h n)) -> rel P e (nmap h e)) es ->
      (forall y, In y (flat_map binders es) -> forall n e', P n e' -> ext P y y n e') ->
      (forall n, In n (flat_map used_names es) -> P n (h n)) -> Forall2 (rel P) es (map (nmap h) es)).
  { induction 1 as [|e0 es He _ IH]; simpl; intros Hb Hu; constructor.
    - apply He; intros; [apply Hb|apply Hu]; auto; apply in_or_app; auto.
    - apply IH; intros; [apply Hb|apply Hu]; auto; apply in_or_app; auto. }
  induction e using expr_ind_rec; intros Hb Hu; cbn [binders used_names nmap] in *.
  - apply rel_bool.
  - apply rel_int.
  - apply rel_str.
  - apply rel_name. apply Hu; simpl; auto.
  - apply rel_call; [apply IHe|apply HL; auto]; intros; try (apply Hb; auto); try (apply Hu; auto); apply in_or_app; auto.
  - apply rel_if; [apply IHe1|apply IHe2|apply IHe3]; intros; try (apply Hb; auto); try (apply Hu; auto); rewrite !in_app_iff; auto.
  - apply rel_op; [apply IHe1|apply IHe2]; intros; try (apply Hb; auto); try (apply Hu; auto); rewrite !in_app_iff; auto.
  - apply rel_intr. auto.
  - apply rel_lam; auto. eapply rel_sub; [|apply IHe; auto].
    + apply stable_exts. intros; apply Hb; auto. apply in_or_app; auto.
    + intros; apply Hb; auto. apply in_or_app; auto.
  - apply rel_match.
    + apply IHe; intros; try (apply Hb; auto); try (apply Hu; auto); apply in_or_app; auto.
    + apply F2_map. rewrite Forall_forall in *. intros [[c bs] b] Hin. repeat split; auto. simpl.
      assert (Hbs : forall y, In y (bs ++ binders b) -> forall n e', P n e' -> ext P y y n e').
      { intros y Hy. apply Hb. apply in_or_app; right. apply in_flat_map. eexists; split; eauto. }
      eapply rel_sub; [|apply (H _ Hin)].
      * apply stable_exts. intros; apply Hbs; auto. apply in_or_app; auto.
      * simpl. intros; apply Hbs; auto. apply in_or_app; auto.
      * intros n Hn. apply Hu. apply in_or_app; right. apply in_flat_map. eexists; split; eauto.
  - apply rel_construct. auto.
  - apply rel_let.
    + apply IHe1; intros; try (apply Hb; auto; right; apply in_or_app; auto); apply Hu; apply in_or_app; auto.
    + eapply rel_sub; [|apply IHe2].
      * intros; apply Hb; simpl; auto.
      * intros; apply Hb; auto; right; apply in_or_app; auto.
      * intros; apply Hu; apply in_or_app; auto.
  - destruct (strip_pis e1) as [| | | | | | | |ps f| | | | | | |] eqn:Es; try (apply rel_letrec_bad; intros; congruence).
    eapply rel_letrec; eauto using nmap_strip.
    + pose proof (strip_binders _ Es) as Eb. pose proof (strip_used _ Es) as Eu. eapply rel_sub; [|eapply (H _ _ eq_refl)].
      * intros n0 e0 Hp. eapply ext_sub; [|apply Hb; [simpl; auto|exact Hp]]. apply stable_exts.
        intros; apply Hb; auto. right. apply in_or_app; left. rewrite Eb. apply in_or_app; auto.
      * intros; apply Hb; auto. right. apply in_or_app; left. rewrite Eb. apply in_or_app; auto.
      * intros; apply Hu. apply in_or_app; left. rewrite Eu; auto.
    + eapply rel_sub; [|apply IHe2].
      * intros; apply Hb; simpl; auto.
      * intros; apply Hb; auto; right; apply in_or_app; auto.
      * intros; apply Hu; apply in_or_app; auto.
  - apply rel_pi_l, rel_pi_r; auto.
  - apply rel_piapp_l, rel_piapp_r; auto.
  - apply rel_trap.
Qed.

(** ** Inlining a binding *)
Definition sub (x : name) (a : expr) : expr -> expr := nmap (fun y => if Nat.eqb y x then a else EName y).
Definition subP (x : name) (a : expr) : pmap := fun n e' => (n = x /\ e' = a) \/ (n <> x /\ e' = EName n).

Lemma G_subP x a k r r' i va : ~ In x (fv a) -> G idP k r r' -> i <= k -> ev i r a va ->
  G (subP x a) (k - i) ((x, va) :: r) r'.
Proof.
  intros Hx HG Hi Ha n e' [[-> ->]|[Hn ->]] v Hv r'' Hag; simpl in Hv.
  - rewrite Nat.eqb_refl in Hv. injection Hv as <-. eapply ev_fv; eauto.
    intros y e' [Hy ->] w Hw r3 Ha3. apply (HG y (EName y) eq_refl w Hw). intros z [<-|[]]. rewrite <- (Ha3 y) by (simpl; auto). auto.
  - destruct (Nat.eqb_spec n x); [congruence|].
    destruct (HG n (EName n) eq_refl v Hv r'' Hag) as (c & v' & E & HV). exists c, v'. split; auto. eapply V_mono; [|exact HV]; lia.
Qed.

Lemma law_inline x a b : ~ In x (fv a) -> (forall y, In y (binders b) -> y <> x /\ ~ In y (fv a)) -> lr (ELet x a b) (sub x a b).
Proof.
  intros Hx Hb k r r' i v HG Hi Hev. apply ev_let_inv in Hev as (i0 & j & va & -> & H1 & H2).
  assert (Hr : rel (subP x a) b (sub x a b)).
  { apply nmap_rel.
    - intros y Hy n e' [[-> ->]|[Hn ->]]; destruct (Hb _ Hy) as [B1 B2].
      + right. repeat split; auto. left; auto.
      + destruct (Nat.eq_dec n y) as [->|]; [left; auto|right]. repeat split; auto; [simpl; intuition congruence|]. right; auto.
    - intros n _. destruct (Nat.eqb_spec n x); [left|right]; auto. }
  destruct (Hr (k - i0) ((x, va) :: r) r' j v) as (c & v' & E & HV); auto; [|lia|].
  - apply G_subP; auto; lia.
  - exists c, v'. split; auto. eapply V_mono; [|exact HV]; lia.
Qed.

(** ** Calls of known functions *)
Lemma law_call_let x v f args : ~ In x (flat_map fv args) -> eqv (ECall (ELet x v f) args) (ELet x v (ECall f args)).
Proof.
  intros Hx. split; intros k r r' i w HG Hi Hev.
  - apply ev_call_inv in Hev as (i0 & j & m & ce & rc & ps & body & vs & -> & H1 & H2 & Hl & H3).
    apply ev_let_inv in H1 as (i1 & i2 & vv & -> & H0 & H1).
    destruct (@rel_refl v k r r' i1 vv HG ltac:(lia) H0) as (c0 & vv' & E0 & V0).
    assert (HG1 : G idP (k - i1) ((x, vv) :: r) ((x, vv') :: r')).
    { eapply G_sub; [apply idP_ext|]. apply G_ext; auto. eapply G_mono; [|exact HG]; lia. }
    destruct (@rel_refl f (k - i1) _ _ i2 _ HG1 ltac:(lia) H1) as (c1 & fv' & E1 & V1).
    destruct (@evs_fv args (k - i1 - i2) r ((x, vv') :: r') j vs) as (c2 & vs' & E2 & V2); auto; [|lia|].
    { apply G_idS_r; auto. apply G_idS_of. eapply G_mono; [|exact HG]; lia. }
    apply V_fn_inv in V1 as (ce' & rc' & ps' & b' & -> & Hl' & Hcl).
    destruct (Hcl (k - i1 - i2 - j - 1) m vs vs' w) as (c3 & v' & E3 & V3); auto; try lia.
    { eapply Vs_mono; [|exact V2]; lia. }
    exists (c0 + (c1 + c2 + S c3)), v'. split.
    + econstructor; eauto. econstructor; eauto. apply Forall2_len in V2. congruence.
    + eapply V_mono; [|exact V3]. lia.
  - apply ev_let_inv in Hev as (i1 & n & vv & -> & H0 & Hev).
    apply ev_call_inv in Hev as (i2 & j & m & ce & rc & ps & body & vs & -> & H1 & H2 & Hl & H3).
    destruct (@rel_refl v k r r' i1 vv HG ltac:(lia) H0) as (c0 & vv' & E0 & V0).
    assert (HG1 : G idP (k - i1) ((x, vv) :: r) ((x, vv') :: r')).
    { eapply G_sub; [apply idP_ext|]. apply G_ext; auto. eapply G_mono; [|exact HG]; lia. }
    destruct (@rel_refl f (k - i1) _ _ i2 _ HG1 ltac:(lia) H1) as (c1 & fv' & E1 & V1).
    destruct (@evs_fv args (k - i1 - i2) ((x, vv) :: r) r' j vs) as (c2 & vs' & E2 & V2); auto; [|lia|].
    { apply G_idS_l; auto. apply G_idS_of. eapply G_mono; [|exact HG]; lia. }
    apply V_fn_inv in V1 as (ce' & rc' & ps' & b' & -> & Hl' & Hcl).
    destruct (Hcl (k - i1 - i2 - j - 1) m vs vs' w) as (c3 & v' & E3 & V3); auto; try lia.
    { eapply Vs_mono; [|exact V2]; lia. }
    exists (c0 + c1 + c2 + S c3), v'. split.
    + econstructor; [econstructor; eauto| |idtac|]; eauto. apply Forall2_len in V2. congruence.
    + eapply V_mono; [|exact V3]. lia.
Qed.

Lemma lets_fwd ps : forall args k r r' i vs, length ps = length args -> (forall p, In p ps -> ~ In p (flat_map fv args)) ->
  G (idS (flat_map fv args)) k r r' -> i <= k -> evs i r args vs ->
  exists c vs', Forall2 (V (k - i)) vs vs' /\ forall b j w, ev j (add_all r' ps vs') b w -> ev (c + j) r' (lets ps args b) w.
Proof.
  induction ps as [|p ps IH]; intros [|a args] k r r' i vs Hl Hd HG Hi He; simpl in Hl; try discriminate.
  - apply evs_nil_inv in He as [-> ->]. exists 0, []. split; [constructor|auto].
  - apply evs_cons_inv in He as (i1 & i2 & v & ws & -> & -> & H1 & H2). simpl in HG.
    destruct (@ev_fv a k r r' i1 v) as (c1 & v' & E1 & V1); auto; [|lia|].
    { eapply G_idS_sub; [|exact HG]. intros; apply in_or_app; auto. }
    destruct (IH args (k - i1) r ((p, v') :: r') i2 ws) as (c2 & vs' & V2 & E2); auto; try lia.
    + intros q Hq Hf. apply (Hd q); simpl; auto. apply in_or_app; auto.
    + apply G_idS_r.
      * intros Hf. apply (Hd p); simpl; auto. apply in_or_app; auto.
      * eapply G_mono; [|eapply G_idS_sub; [|exact HG]]; [lia|]. intros; apply in_or_app; auto.
    + exists (c1 + c2), (v' :: vs'). split.
      * constructor; [eapply V_mono; [|exact V1]; lia|eapply Vs_mono; [|exact V2]; lia].
      * intros b j w Hb. simpl. rewrite <- Nat.add_assoc. econstructor; eauto.
Qed.

Lemma lets_bwd ps : forall args k r r' n b w, length ps = length args -> (forall p, In p ps -> ~ In p (flat_map fv args)) ->
  G (idS (flat_map fv args)) k r r' -> n <= k -> ev n r (lets ps args b) w ->
  exists i j vs c vs', n = i + j /\ length vs = length ps /\ ev j (add_all r ps vs) b w /\ evs c r' args vs' /\ Forall2 (V (k - i)) vs vs'.
Proof.
  induction ps as [|p ps IH]; intros [|a args] k r r' n b w Hl Hd HG Hn He; simpl in Hl; try discriminate.
  - exists 0, n, [], 0, []. repeat split; auto. constructor.
  - simpl in *. apply ev_let_inv in He as (i1 & i2 & v & -> & H1 & H2).
    destruct (@ev_fv a k r r' i1 v) as (c1 & v' & E1 & V1); auto; [|lia|].
    { eapply G_idS_sub; [|exact HG]. intros; apply in_or_app; auto. }
    destruct (IH args (k - i1) ((p, v) :: r) r' i2 b w) as (i & j & vs & c & vs' & -> & Hlv & Hb & He & HV); auto; try lia.
    + intros q Hq Hf. apply (Hd q); simpl; auto. apply in_or_app; auto.
    + apply G_idS_l.
      * intros Hf. apply (Hd p); simpl; auto. apply in_or_app; auto.
      * eapply G_mono; [|eapply G_idS_sub; [|exact HG]]; [lia|]. intros; apply in_or_app; auto.
    + exists (i1 + i), j, (v :: vs), (c1 + c), (v' :: vs'). repeat split; auto.
      * lia.
      * simpl; congruence.
      * constructor; auto.
      * constructor; [eapply V_mono; [|exact V1]; lia|eapply Vs_mono; [|exact HV]; lia].
Qed.

Lemma idP_add_all ps k r r' vs vs' : length ps = length vs -> G idP k r r' -> Forall2 (V k) vs vs' ->
  G idP k (add_all r ps vs) (add_all r' ps vs').
Proof. intros Hl HG HV. eapply G_sub; [apply idP_exts|]. apply G_exts; auto. Qed.

Lemma law_call_lam ps b args : length ps = length args -> (forall p, In p (map fst ps) -> ~ In p (flat_map fv args)) ->
  eqv (ECall (ELam ps b) args) (lets (map fst ps) args b).
Proof.
  intros Hl Hd. split; intros k r r' i w HG Hi Hev.
  - apply ev_call_inv in Hev as (i0 & j & m & ce & rc & ps' & body & vs & -> & H1 & H2 & Hlv & H3).
    apply ev_lam_inv in H1 as [-> E]. injection E as -> -> -> ->. simpl in H3.
    destruct (@lets_fwd (map fst ps) args k r r' j vs) as (c & vs' & HV & HE); auto; [rewrite map_length; auto|apply G_idS_of; auto|lia|].
    destruct (@rel_refl b (k - j) (add_all r (map fst ps) vs) (add_all r' (map fst ps) vs') m w) as (c2 & w' & E2 & V2); [|lia|auto|].
    { apply idP_add_all; auto. eapply G_mono; [|exact HG]; lia. }
    exists (c + c2), w'. split; auto. eapply V_mono; [|exact V2]. lia.
  - destruct (@lets_bwd (map fst ps) args k r r' i b w) as (i0 & j & vs & c & vs' & -> & Hlv & Hb & He & HV); auto; [rewrite map_length; auto|apply G_idS_of; auto|].
    destruct (@rel_refl b (k - i0) (add_all r (map fst ps) vs) (add_all r' (map fst ps) vs') j w) as (c2 & w' & E2 & V2); [|lia|auto|].
    { apply idP_add_all; auto. eapply G_mono; [|exact HG]; lia. }
    exists (0 + c + S c2), w'. split; [|eapply V_mono; [|exact V2]; lia].
    econstructor; [constructor|exact He| |exact E2]. apply Forall2_len in HV. congruence.
Qed.

(** ** Moving a binding under a function *)
Lemma add_all_in ps : forall r vs x, length ps = length vs -> ~ In x ps -> lookup x (add_all r ps vs) = lookup x r.
Proof.
  induction ps as [|p ps IH]; intros r [|v vs] x Hl Hx; simpl in *; try discriminate; auto.
  rewrite IH; auto. simpl. destruct (Nat.eqb_spec x p); auto. subst; tauto.
Qed.

Lemma law_let_lam x a qs b : ~ In x (map fst qs) -> (forall q, In q (map fst qs) -> ~ In q (fv a)) ->
  lr (ELet x a (ELam qs b)) (ELam qs (ELet x a b)).
Proof.
  intros Hx Hq k r r' i v HG Hi Hev. apply ev_let_inv in Hev as (i0 & j & va & -> & H1 & H2).
  apply ev_lam_inv in H2 as [-> ->]. exists 0, (VFn r' None (map fst qs) (ELet x a b)). split; [constructor|].
  apply V_fn; auto. intros j i args args' w Hj Hij Ha Hl He. simpl in *.
  assert (Hla : length (map fst qs) = length args') by (apply Forall2_len in Ha; congruence).
  destruct (@ev_fv a k r (add_all r' (map fst qs) args') i0 va) as (c1 & va' & E1 & V1); auto; [|lia|].
  { intros y e' [Hy ->] u Hu r'' Hag. apply (HG y (EName y) eq_refl u Hu). intros z [<-|[]].
    rewrite <- (Hag y) by (simpl; auto). rewrite add_all_in; auto. intros Hin. apply (Hq _ Hin); auto. }
  destruct (@rel_refl b j (add_all ((x, va) :: r) (map fst qs) args) ((x, va') :: add_all r' (map fst qs) args') i w)
    as (c2 & w' & E2 & V2); auto.
  { assert (HGA : G idP j (add_all r (map fst qs) args) (add_all r' (map fst qs) args')).
    { apply idP_add_all; auto. eapply G_mono; [|exact HG]; lia. }
    intros y e' -> u Hu r'' Hag. destruct (Nat.eq_dec y x) as [->|Hn].
    - rewrite add_all_in in Hu by auto. simpl in Hu. rewrite Nat.eqb_refl in Hu. injection Hu as <-.
      exists 0, va'. split; [|eapply V_mono; [|exact V1]; lia]. constructor. rewrite <- (Hag x) by (simpl; auto).
      simpl. rewrite Nat.eqb_refl; auto.
    - assert (E : lookup y (add_all ((x, va) :: r) (map fst qs) args) = lookup y (add_all r (map fst qs) args)).
      { clear - Hn Hl. revert args Hl r. generalize (map fst qs). intros ps.
        assert (Hg : forall ps args r1 r2, lookup y r1 = lookup y r2 -> lookup y (add_all r1 ps args) = lookup y (add_all r2 ps args)).
        { induction ps0 as [|p ps0 IH]; intros [|v vs] r1 r2 Hr; simpl; auto. apply IH. simpl. rewrite Hr; auto. }
        intros. apply Hg. simpl. destruct (Nat.eqb_spec y x); congruence. }
      rewrite E in Hu. destruct (HGA y (EName y) eq_refl u Hu r'') as (c & u' & E' & HV).
      + intros z [<-|[]]. rewrite <- (Hag y) by (simpl; auto). simpl. destruct (Nat.eqb_spec y x); congruence.
      + eauto. }
  exists (c1 + c2), w'. split; auto. econstructor; eauto.
Qed.
