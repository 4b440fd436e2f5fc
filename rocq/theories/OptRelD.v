(** The logical relation under a condition on the target environment. *)
From Verif Require Import EvalFacts Orders Compile CompileStatic Vm OptEv OptRel OptWalk OptGood OptLaws OptInline.
Set Implicit Arguments.

Definition relD (D : env -> Prop) (e e' : expr) : Prop :=
  forall k r r' i v, G idP k r r' -> D r' -> i <= k -> ev i r e v -> exists c v', ev c r' e' v' /\ V (k - i) v v'.

Lemma relD_of D e e' : lr e e' -> relD D e e'.
Proof. intros H k r r' i v HG _. apply H; auto. Qed.
Lemma relD_refl D e : relD D e e.
Proof. apply relD_of, rel_refl. Qed.
Lemma relD_sub (D D' : env -> Prop) e e' : (forall r, D' r -> D r) -> relD D e e' -> relD D' e e'.
Proof. intros H H1 k r r' i v HG HD. apply H1; auto. Qed.

Lemma relD_all (D : env -> Prop) e e' r c v : relD D e e' -> D r -> ev c r e v -> exists c' v', ev c' r e' v' /\ forall j, V j v v'.
Proof.
  intros H HD He.
  assert (Hex : forall j, exists c3 v3, ev c3 r e' v3 /\ V j v v3).
  { intros j. destruct (H (j + c) r r c v) as (c3 & v3 & E3 & V3); auto using G_id; try lia.
    exists c3, v3; split; auto. eapply V_mono; [|exact V3]; lia. }
  destruct (Hex 0) as (c3 & v3 & E3 & _). exists c3, v3. split; auto.
  intros j. destruct (Hex j) as (c4 & v4 & E4 & V4). rewrite (ev_det E3 E4). auto.
Qed.
Lemma relD_trans D e1 e2 e3 : relD D e1 e2 -> relD D e2 e3 -> relD D e1 e3.
Proof.
  intros H12 H23 k r r' i v HG HD Hi Hev.
  destruct (H12 k r r' i v HG HD Hi Hev) as (c2 & v2 & E2 & V2).
  destruct (relD_all H23 HD E2) as (c3 & v3 & E3 & V3). exists c3, v3. split; auto. eapply V_trans; eauto.
Qed.

Lemma relDs D es es' : Forall2 (relD D) es es' -> forall k r r' i vs, G idP k r r' -> D r' -> i <= k -> evs i r es vs ->
  exists c vs', evs c r' es' vs' /\ Forall2 (V (k - i)) vs vs'.
Proof.
  induction 1 as [|e e' es es' He _ IH]; intros k r r' i vs HG HD Hi Hev.
  - apply evs_nil_inv in Hev as [-> ->]. exists 0, []. split; constructor.
  - apply evs_cons_inv in Hev as (i0 & j & w & ws & -> & -> & H2 & H3). destruct (He k r r' i0 _ HG HD ltac:(lia) H2) as (c1 & v' & E1 & V1).
    destruct (IH (k - i0) r r' j ws) as (c2 & vs' & E2 & V2); [eapply G_mono; [|eauto]; lia|auto|lia|auto|].
    exists (c1 + c2), (v' :: vs'). split; [constructor; auto|]. constructor.
    + eapply V_mono; [|eauto]; lia.
    + eapply Vs_mono; [|eauto]; lia.
Qed.

Lemma relD_call D f f' es es' : relD D f f' -> Forall2 (relD D) es es' -> relD D (ECall f es) (ECall f' es').
Proof.
  intros Hf Hes k r r' i v HG HD Hi Hev. apply ev_call_inv in Hev as (i0 & j & m & ce & rc & ps & body & vs & -> & H1 & H3 & Hlen & H4).
  destruct (Hf k r r' i0 _ HG HD ltac:(lia) H1) as (c1 & fv' & E1 & V1).
  destruct (relDs Hes (k := k - i0) (i := j) (G_mono (Nat.le_sub_l k i0) HG) HD ltac:(lia) H3) as (c2 & vs' & E2 & V2).
  apply V_fn_inv in V1 as (ce' & rc' & ps' & b' & -> & Hl & Hcl).
  destruct (Hcl (k - i0 - j - 1) m vs vs' v) as (c3 & v' & E3 & V3); auto; try lia.
  { eapply Vs_mono; [|exact V2]; lia. }
  exists (c1 + c2 + S c3), v'. split.
  - econstructor; eauto. apply Forall2_len in V2. congruence.
  - eapply V_mono; [|exact V3]. lia.
Qed.
Lemma relD_if D c t e c' t' e' : relD D c c' -> relD D t t' -> relD D e e' -> relD D (EIf c t e) (EIf c' t' e').
Proof.
  intros Hc Ht He k r r' i v HG HD Hi Hev. apply ev_if_inv in Hev as (i0 & j & b & -> & H3 & H6).
  destruct (Hc k r r' i0 _ HG HD ltac:(lia) H3) as (c1 & v1 & E1 & V1). apply V_bool_inv in V1 as ->.
  assert (Hx : relD D (if b then t else e) (if b then t' else e')) by (destruct b; auto).
  destruct (Hx (k - i0) r r' j _ (G_mono (Nat.le_sub_l k i0) HG) HD ltac:(lia) H6) as (c2 & v2 & E2 & V2).
  exists (c1 + c2), v2. split; [econstructor; eauto|]. eapply V_mono; [|exact V2]; lia.
Qed.
Lemma relD_op D a o b a' b' : relD D a a' -> relD D b b' -> relD D (EOp a o b) (EOp a' o b').
Proof.
  intros Ha Hb k r r' i v HG HD Hi Hev. apply ev_op_inv in Hev as (i0 & j & x & y & -> & -> & H3 & H6).
  destruct (Ha k r r' i0 _ HG HD ltac:(lia) H3) as (c1 & v1 & E1 & V1). apply V_int_inv in V1 as ->.
  destruct (Hb (k - i0) r r' j _ (G_mono (Nat.le_sub_l k i0) HG) HD ltac:(lia) H6) as (c2 & v2 & E2 & V2). apply V_int_inv in V2 as ->.
  exists (c1 + c2), (eval_op o x y). split; [econstructor; eauto|apply V_op].
Qed.
Lemma relD_intr D i es es' : Forall2 (relD D) es es' -> relD D (EIntr i es) (EIntr i es').
Proof.
  intros Hes k r r' n v HG HD Hi Hev. apply ev_intr_inv in Hev as (xs & rest & vs & -> & H2 & H4 & H5).
  apply Forall2_app_inv_l' in Hes as (m1 & m2 & -> & Hm1 & Hm2).
  destruct (relDs Hm1 HG HD Hi H4) as (c & vs' & E & HV).
  destruct (@V_intr _ _ _ _ _ HV H5) as [Ev Vv]. exists c, v. split; auto.
  econstructor; eauto. rewrite <- H2. apply Forall2_len in Hm1. congruence.
Qed.
Lemma relD_construct D c tys tys' es es' : Forall2 (relD D) es es' -> relD D (EConstruct c tys es) (EConstruct c tys' es').
Proof.
  intros Hes k r r' n v HG HD Hi Hev. apply ev_construct_inv in Hev as (vs & -> & H4 & H5).
  destruct (relDs Hes HG HD Hi H4) as (c1 & vs' & E & HV). exists c1, (VComp c vs'). split; [|apply V_comp; auto].
  constructor; auto. apply Forall2_len in HV. lia.
Qed.
Lemma relD_lam (D D' : env -> Prop) ps ps' b b' : map fst ps = map fst ps' ->
  (forall r vs, length ps = length vs -> D r -> D' (add_all r (map fst ps) vs)) ->
  relD D' b b' -> relD D (ELam ps b) (ELam ps' b').
Proof.
  intros Hp HDD Hb k r r' i v HG HD Hi Hev. apply ev_lam_inv in Hev as [-> ->].
  exists 0, (VFn r' None (map fst ps') b'). split; [constructor|]. rewrite <- Hp. apply V_fn; auto.
  intros j i args args' w Hj Hij Ha Hla He. simpl in *. eapply Hb; eauto.
  - apply idP_add_all; auto. eapply G_mono; [|eauto]. lia.
  - apply HDD; auto. apply Forall2_len in Ha. rewrite map_length in Hla. congruence.
Qed.
Lemma relD_match D d d' brs brs' : relD D d d' ->
  Forall2 (fun br br' => fst br = fst br' /\ exists D' : env -> Prop,
     (forall r vs, length (snd (fst br)) = length vs -> D r -> D' (add_all r (snd (fst br)) vs)) /\ relD D' (snd br) (snd br')) brs brs' ->
  relD D (EMatch d brs) (EMatch d' brs').
Proof.
  intros Hd Hbrs k r r' i v HG HD Hi Hev. apply ev_match_inv in Hev as (i0 & j & c & fs & bs & b & -> & H1 & H3 & H5 & H6).
  destruct (Hd k r r' i0 _ HG HD ltac:(lia) H1) as (c1 & v1 & E1 & V1). apply V_comp_inv in V1 as (fs' & -> & Hfs).
  assert (HB : exists b' (D' : env -> Prop), find_branch c brs' = Some (bs, b') /\ (forall r vs, length bs = length vs -> D r -> D' (add_all r bs vs)) /\ relD D' b b').
  { clear - Hbrs H3. induction Hbrs as [|[[c1 bs1] b1] [[c2 bs2] b2] brs brs' (Ef & D' & HD' & Hb) _ IH]; simpl in *; [discriminate|].
    injection Ef as <- <-. destruct (Nat.eqb c1 c); [|apply IH; auto]. injection H3 as <- <-. eauto. }
  destruct HB as (b' & D' & Eb & HD' & Hb).
  destruct (Hb (k - i0) (add_all r bs fs) (add_all r' bs fs') j v) as (c2 & v2 & E2 & V2); auto; [| |lia|].
  { apply idP_add_all; auto. eapply G_mono; [|eauto]; lia. }
  { apply HD'; auto. apply Forall2_len in Hfs. congruence. }
  exists (c1 + c2), v2. split; [|eapply V_mono; [|exact V2]; lia].
  econstructor; eauto. apply Forall2_len in Hfs. congruence.
Qed.
Lemma relD_let (D D' : env -> Prop) x a a' b b' : relD D a a' ->
  (forall r c v, D r -> ev c r a' v -> D' ((x, v) :: r)) -> relD D' b b' -> relD D (ELet x a b) (ELet x a' b').
Proof.
  intros Ha HDD Hb k r r' i v HG HD Hi Hev. apply ev_let_inv in Hev as (i0 & j & va & -> & H4 & H5).
  destruct (Ha k r r' i0 _ HG HD ltac:(lia) H4) as (c1 & v1 & E1 & V1).
  destruct (Hb (k - i0) ((x, va) :: r) ((x, v1) :: r') j v) as (c2 & v2 & E2 & V2); eauto; [|lia|].
  { eapply G_sub; [apply idP_ext|]. apply G_ext; auto. eapply G_mono; [|eauto]; lia. }
  exists (c1 + c2), v2. split; [econstructor; eauto|]. eapply V_mono; [|exact V2]; lia.
Qed.
Lemma relD_letrec (D Df Db : env -> Prop) x t t' a a' ps ps' f f' b b' :
  strip_pis a = ELam ps f -> strip_pis a' = ELam ps' f' -> map fst ps = map fst ps' ->
  (forall r vs w, length ps = length vs -> D r -> Df ((x, w) :: add_all r (map fst ps) vs)) ->
  (forall r w, D r -> Db ((x, w) :: r)) ->
  relD Df f f' -> relD Db b b' -> relD D (ELetRec x t a b) (ELetRec x t' a' b').
Proof.
  intros Ea Ea' Hp HDf HDb Hf Hb k r r' i v HG HD Hi Hev. apply ev_letrec_inv in Hev as (ps0 & f0 & H5 & H6).
  rewrite Ea in H5. injection H5 as <- <-.
  assert (HV : forall k, G idP k r r' -> V k (VFn r (Some x) (map fst ps) f) (VFn r' (Some x) (map fst ps) f')).
  { clear - HDf Hf HD. intros k. induction k as [k IH] using lt_wf_ind. intros HG. apply V_fn; auto.
    intros j i args args' w Hj Hi Ha Hla He. simpl in *. eapply Hf; eauto.
    - eapply G_sub; [apply idP_ext|]. apply G_ext.
      + apply idP_add_all; auto. eapply G_mono; [|eauto]; lia.
      + apply IH; auto. eapply G_mono; [|eauto]; lia.
    - apply HDf; auto. apply Forall2_len in Ha. rewrite map_length in Hla. congruence. }
  destruct (Hb k ((x, VFn r (Some x) (map fst ps) f) :: r) ((x, VFn r' (Some x) (map fst ps) f') :: r') i v)
    as (c & v' & E & HV'); auto.
  { eapply G_sub; [apply idP_ext|]. apply G_ext; auto. }
  exists c, v'. split; auto. econstructor; eauto. rewrite <- Hp; auto.
Qed.
Lemma relD_letrec_bad D x t a b e' : (forall ps f, strip_pis a <> ELam ps f) -> relD D (ELetRec x t a b) e'.
Proof. intros H k r r' i v _ _ _ Hev. apply ev_letrec_inv in Hev as (ps0 & f0 & H5 & H6). exfalso. eapply H; eauto. Qed.
Lemma relD_pi D t t' e e' : relD D e e' -> relD D (EPi t e) (EPi t' e').
Proof.
  intros H k r r' i v HG HD Hi Hev. apply ev_pi_inv in Hev. destruct (H _ _ _ _ _ HG HD Hi Hev) as (c & v' & E & HV).
  exists c, v'. split; auto. constructor; auto.
Qed.
Lemma relD_piapp D t t' e e' : relD D e e' -> relD D (EPiApp e t) (EPiApp e' t').
Proof.
  intros H k r r' i v HG HD Hi Hev. apply ev_piapp_inv in Hev. destruct (H _ _ _ _ _ HG HD Hi Hev) as (c & v' & E & HV).
  exists c, v'. split; auto. constructor; auto.
Qed.

(** ** Definitions that may be inlined *)
Definition holds (S : list name) (I : name -> option expr) (r : env) : Prop :=
  forall x E v, In x S -> I x = Some E -> lookup x r = Some v -> forall r', agree (fv E) r r' ->
  exists c v', ev c r' E v' /\ forall j, V j v v'.
Definition closedI (S : list name) (I : name -> option expr) : Prop :=
  forall x E, In x S -> I x = Some E -> forall y, In y (fv E) -> In y S.

Lemma holds_sub S S' I I' r : (forall x, In x S' -> In x S /\ I' x = I x) -> holds S I r -> holds S' I' r.
Proof. intros H Hh x E v Hx HI. destruct (H _ Hx) as [Hx' E']. apply (Hh x E v); auto. congruence. Qed.
Lemma holds_cons S I r x w : closedI S I -> ~ In x S -> I x = None -> holds S I r -> holds (x :: S) I ((x, w) :: r).
Proof.
  intros Hc Hx Hi Hh y E v Hy HI Hl r' Ha. destruct Hy as [<-|Hy]; [congruence|]. simpl in Hl.
  destruct (Nat.eqb_spec y x) as [->|Hn]; [congruence|]. apply (Hh y E v); auto. intros z Hz. rewrite <- (Ha z Hz). simpl.
  destruct (Nat.eqb_spec z x) as [->|]; auto. exfalso. apply Hx. eapply Hc; eauto.
Qed.
Lemma closedI_app S I xs : closedI S I -> (forall x, In x xs -> I x = None) -> closedI (xs ++ S) I.
Proof.
  intros Hc Hx x E Hi HI y Hy. apply in_app_iff in Hi as [Hi|Hi]; [rewrite Hx in HI by auto; discriminate|].
  apply in_app_iff. right. eapply Hc; eauto.
Qed.
Lemma holds_add xs : forall S I r vs, closedI S I -> (forall x, In x xs -> ~ In x S /\ I x = None) -> length xs = length vs -> holds S I r ->
  holds (xs ++ S) I (add_all r xs vs).
Proof.
  intros S I r vs Hc Hx Hl Hh y E v Hy HI Hlk r' Ha.
  assert (Hyx : ~ In y xs) by (intros Hi; destruct (Hx y Hi); congruence).
  apply in_app_iff in Hy as [Hy|Hy]; [tauto|]. rewrite add_all_in in Hlk by auto.
  apply (Hh y E v); auto. intros z Hz. rewrite <- (Ha z Hz). rewrite add_all_in; auto.
  intros Hi. apply (Hx z Hi). eapply Hc; eauto.
Qed.
(** A [let] whose value is available for inlining. *)
Lemma holds_let S I r x a c v : closedI S I -> ~ In x S -> (forall y, In y (fv a) -> In y S) -> holds S I r -> ev c r a v ->
  holds (x :: S) (fun y => if Nat.eqb y x then Some a else I y) ((x, v) :: r).
Proof.
  intros Hc Hx Hf Hh He y E w Hy HI Hl r' Ha. simpl in Hl. destruct (Nat.eqb_spec y x) as [->|Hn].
  - injection HI as <-. injection Hl as <-.
    assert (Hex : forall j, exists c' v', ev c' r' a v' /\ V j v v').
    { intros j. destruct (@ev_fv a (j + c) r r' c v) as (c' & v' & E' & HV); [|lia|auto|].
      - apply G_idS_agree. intros z Hz. rewrite <- (Ha z Hz). simpl. destruct (Nat.eqb_spec z x) as [->|]; auto. exfalso; apply Hx; auto.
      - exists c', v'. split; auto. eapply V_mono; [|exact HV]; lia. }
    destruct (Hex 0) as (c' & v' & E' & _). exists c', v'. split; auto. intros j.
    destruct (Hex j) as (c2 & v2 & E2 & HV). rewrite (ev_det E' E2). auto.
  - destruct Hy as [->|Hy]; [congruence|]. apply (Hh y E w); auto. intros z Hz. rewrite <- (Ha z Hz). simpl.
    destruct (Nat.eqb_spec z x) as [->|]; auto. exfalso; apply Hx. eapply Hc; eauto.
Qed.
(** Replacing a name by a copy of its definition. *)
Lemma relD_inline S I n d d' : In n S -> I n = Some d -> lr d d' -> relD (holds S I) (EName n) d'.
Proof.
  intros Hn HI Hd k r r' i v HG HD Hi Hev. apply ev_name_inv in Hev as [-> Hl].
  destruct (HG n _ eq_refl v Hl r' (@agree_refl _ _)) as (c & v1 & E1 & V1). apply ev_name_inv in E1 as [-> Hl1].
  destruct (HD n d v1 Hn HI Hl1 r' (@agree_refl _ _)) as (c2 & v2 & E2 & V2).
  destruct (relD_all (D := fun _ => True) (relD_of _ Hd) Logic.I E2) as (c3 & v3 & E3 & V3).
  exists c3, v3. split; auto. rewrite Nat.sub_0_r. eapply V_trans; [|exact V3]. eapply V_trans; eauto.
Qed.
