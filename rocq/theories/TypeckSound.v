(** The checker is sound: without diagnostics the checked tree is typed in the final state. *)
From Verif Require Export TypeckTypes.
Set Implicit Arguments.

Lemma written_no_infer t : written t = true -> no_infer t = true.
Proof.
  induction t as [| | |s args IH|a b IHa IHb| | |a b IHa IHb] using irty_ind'; cbn; auto; try discriminate.
  - rewrite !forallb_forall. rewrite Forall_forall in IH. intros H x Hx. auto.
  - rewrite !andb_true_iff. tauto.
Qed.
Lemma scheme_clean vs t : written t = true -> Forall (fun p => error_free (snd p)) vs -> error_free (scheme vs t).
Proof.
  intros H V. induction t as [| | |s args IH|a b IHa IHb| | |a b IHa IHb] using irty_ind'; cbn in *; auto; try discriminate.
  - assert (E : error_free match assoc s vs with Some x => x | None => TLeaf (LNamed s) end).
    { destruct (assoc s vs) eqn:E; cbn; auto. apply assoc_in in E. rewrite Forall_forall in V. apply (V _ E). }
    revert E. generalize (match assoc s vs with Some x => x | None => TLeaf (LNamed s) end).
    induction IH as [|a args Ha _ IH]; intros h E; cbn in *; auto. apply andb_true_iff in H as [H1 H2].
    apply IH; auto. cbn. auto.
  - apply andb_true_iff in H as [H1 H2]. auto.
Qed.

Lemma cbind_ok A B (m : chk A) (f : A -> chk B) u b u2 : cbind m f u = Done (b, true, u2) ->
  exists a u1, m u = Done (a, true, u1) /\ f a u1 = Done (b, true, u2).
Proof.
  unfold cbind, obind. destruct (m u) as [[[a x] u1]| |]; try discriminate. destruct (f a u1) as [[[b' y] u3]| |] eqn:E; try discriminate.
  intros H. injection H as <- H <-. apply andb_true_iff in H as [-> ->]. eauto.
Qed.
Arguments cbind {A B} m f u : simpl never.
Arguments cfresh u : simpl never.
Arguments calloc t u : simpl never.
Arguments cunify k a b u : simpl never.
Arguments cinst t vars u : simpl never.
Arguments cret {A} a u : simpl never.
Ltac step H := apply cbind_ok in H as (? & ? & ? & H).

Lemma fresh_good u i u' : good u -> cfresh u = Done (i, true, u') -> good u' /\ ext u u' /\ i < length (slots u').
Proof.
  intros [G E] H. unfold cfresh in H. assert (Eu : u' = fst (fresh_var u) /\ i = length (slots u)).
  { unfold fresh_var, push in *. injection H as <- <-. auto. }
  destruct Eu as [-> ->]. clear H. destruct (ureach_inv G) as [Hp Hi].
  assert (R : forall j t, resolves u j t -> resolves (fst (fresh_var u)) j t) by (intros; apply push_resolves; auto).
  assert (L : length (slots (fst (fresh_var u))) = S (length (slots u))) by (cbn; rewrite app_length; cbn; lia).
  split; [split|split].
  - apply ur_fresh; auto.
  - intros j t Rj. pose proof (ur_fresh G) as G'. destruct (ureach_inv G') as [Hp' Hi'].
    assert (Hj : j < length (slots (fst (fresh_var u)))) by (inversion Rj; eapply get_lt; eauto).
    rewrite L in Hj. destruct (Nat.eq_dec j (length (slots u))) as [->|Hne].
    + assert (Hg : get (fst (fresh_var u)) (length (slots u)) = Some Infer)
        by (unfold fresh_var; rewrite get_push by auto; rewrite Nat.eqb_refl; auto).
      rewrite (resolves_fun Rj (res_infer _ _ Hg)). exact I.
    + assert (Hl : j < length (slots u)) by lia. destruct (inv_acyc Hi Hl) as [t0 R0].
      rewrite (resolves_fun Rj (R _ _ R0)). eauto.
  - split; auto. lia.
  - lia.
Qed.
Definition ty_term (t : ty) (u : uni) (tm : term) : Prop :=
  match t with
  | TyBool => tm = TLeaf LBool | TyInt => tm = TLeaf LInt | TyString => tm = TLeaf LString
  | TyNamed s => tm = TLeaf (LNamed s)
  | TyApply a b => exists ta tb, resolves u a ta /\ resolves u b tb /\ tm = TNode NApply ta tb
  | TyFn a b => exists ta tb, resolves u a ta /\ resolves u b tb /\ tm = TNode NFn ta tb
  | TyFolded a b => exists ta tb, resolves u a ta /\ resolves u b tb /\ tm = TNode NFolded ta tb
  | TyError => tm = TErr
  end.
Lemma get_term u i t tm : get u i = Some (STy t) -> resolves u i tm -> ty_term t u tm.
Proof.
  intros H R. inversion R; subst; rewrite H in *;
    match goal with E : Some _ = Some _ |- _ => try discriminate E; injection E as -> end; cbn; eauto 8.
Qed.
Lemma alloc_good u t i u' : good u -> children_lt t (length (slots u)) -> t <> TyError ->
  calloc t u = Done (i, true, u') -> good u' /\ ext u u' /\ i < length (slots u') /\ exists tm, resolves u' i tm /\ ty_term t u' tm.
Proof.
  intros [G E] Hc Hn H. unfold calloc in H. destruct (allocate u t) as [u1 i1] eqn:Ea. injection H as -> ->.
  destruct (alloc_ext G Ea Hc) as (G' & X & L & Hg). destruct (ureach_inv G) as [Hp Hi]. destruct (ureach_inv G') as [Hp' Hi'].
  assert (Q : forall j t0, resolves u' j t0 -> error_free t0).
  { assert (Lu : length (slots u') = S (length (slots u)) /\ i = length (slots u)).
    { unfold allocate, push in Ea. injection Ea as <- <-. cbn. rewrite app_length. cbn. lia. }
    assert (Old : forall j t0, j < length (slots u) -> resolves u' j t0 -> error_free t0).
    { intros j t0 Hj Rj. destruct (inv_acyc Hi Hj) as [t1 R1]. rewrite (resolves_fun Rj (proj2 X _ _ R1)). eauto. }
    intros j t0 Rj. assert (Hj : j < length (slots u')) by (inversion Rj; eapply get_lt; eauto).
    destruct (Nat.eq_dec j (length (slots u))) as [->|Hne]; [|apply (Old j); auto; lia].
    destruct Lu as [_ ->]. pose proof (get_term Hg Rj) as T. destruct t; cbn in T, Hc; subst; cbn; auto; try congruence;
      destruct T as (ta & tb & Ra & Rb & ->); cbn; split; eapply Old; eauto; tauto. }
  split; [split; auto|]. split; auto. split; auto.
  destruct (inv_acyc Hi' L) as [tm R]. exists tm. split; auto. eapply get_term; eauto.
Qed.
Lemma unify_good k u a b u' x : good u -> a < length (slots u) -> b < length (slots u) ->
  cunify k a b u = Done (x, true, u') -> good u' /\ le u u' /\ same u' a b.
Proof.
  intros [G E] Ha Hb H. unfold cunify, obind in H. destruct (tc_unify k u a b) as [[u1 r]| |] eqn:Et; try discriminate.
  cbn [fst snd] in H. injection H as _ Hr Hu. subst u1 r. destruct (ureach_inv G) as [Hp Hi].
  destruct (inv_acyc Hi Ha) as [t1 R1]. destruct (inv_acyc Hi Hb) as [t2 R2].
  destruct (tc_spec Hi Hp _ R1 R2 Et) as (Hp' & Hi' & L & _ & f & R & A & F & _).
  assert (Q : forall j t, resolves u' j t -> error_free t).
  { intros j t Rj. assert (Hj : j < length (slots u)) by (rewrite <- L; inversion Rj; eapply get_lt; eauto).
    destruct (inv_acyc Hi Hj) as [t0 R0]. rewrite (resolves_fun Rj (R _ _ R0)). apply F; eauto. }
  split; [split; auto|].
  - apply (ur_unify k G Ha Hb Et).
  - split; [split; [lia|exists f; auto]|]. exists (subst f t1). split; auto.
    rewrite (agree_eq (A eq_refl)); auto; apply F; eauto.
Qed.
Lemma inst_good u t vars vs i u' : good u -> written t = true -> vars_ok u vars vs ->
  cinst t vars u = Done (i, true, u') -> good u' /\ ext u u' /\ i < length (slots u') /\ resolves u' i (scheme vs t).
Proof.
  intros [G E] W V H. unfold cinst in H. destruct (instantiate u t vars) as [u1 i1] eqn:Ei. injection H as -> ->.
  destruct (@instantiate_spec t u vars vs u' i G V (written_no_infer _ W) Ei) as (A & B & C & D).
  split; [split; auto|auto].
  assert (K : forall t u vars vs u' i, good u -> written t = true -> vars_ok u vars vs -> instantiate u t vars = (u', i) ->
            good u'); [|exact (proj2 (K _ _ _ _ _ _ (conj G E) W V Ei))].
  clear. induction t as [| | |s args IH|a b IHa IHb| | |a b IHa IHb] using irty_ind'; intros u vars vs u' i G W V Ei; cbn [instantiate written] in *.
  - apply (@alloc_good u TyInt i u' G I ltac:(discriminate)). unfold calloc. rewrite Ei. auto.
  - apply (@alloc_good u TyBool i u' G I ltac:(discriminate)). unfold calloc. rewrite Ei. auto.
  - apply (@alloc_good u TyString i u' G I ltac:(discriminate)). unfold calloc. rewrite Ei. auto.
  - destruct (match assoc s vars with Some i0 => (u, i0) | None => allocate u (TyNamed s) end) as [u0 n] eqn:En.
    assert (Q : good u0 /\ ext u u0 /\ n < length (slots u0)).
    { pose proof (vars_assoc s V) as Hv. destruct (assoc s vars) as [i0|].
      - injection En as <- <-. destruct (assoc s vs); [|tauto]. split; auto. split; [apply ext_refl|tauto].
      - destruct (@alloc_good u (TyNamed s) n u0 G I ltac:(discriminate)) as (A & _ & _).
        { unfold calloc. rewrite En. auto. }
        destruct (alloc_ext (proj1 G) En I) as (_ & B & C & _). auto. }
    clear En. destruct Q as (G0 & X0 & N0). assert (V0 := vars_ext X0 V). clear G X0 V. revert u0 n G0 N0 V0 Ei.
    induction IH as [|a args Ha _ IHl]; intros u0 n G0 N0 V0 Ei.
    + injection Ei as <- <-. auto.
    + cbn in W. apply andb_true_iff in W as [W1 W2]. destruct (instantiate u0 a vars) as [u1 i1] eqn:E1.
      destruct (@instantiate_spec a u0 vars vs u1 i1 (proj1 G0) V0 (written_no_infer _ W1) E1) as (A & B & C & D).
      assert (G1 := Ha _ _ _ _ _ G0 W1 V0 E1).
      destruct (allocate u1 (TyApply n i1)) as [u2 t2] eqn:E2.
      assert (Hc : children_lt (TyApply n i1) (length (slots u1))) by (cbn; split; auto; destruct B; lia).
      destruct (@alloc_good u1 (TyApply n i1) t2 u2 G1 Hc ltac:(discriminate)) as (G2 & _ & _).
      { unfold calloc. rewrite E2. auto. }
      destruct (alloc_ext A E2 Hc) as (_ & B2 & C2 & _).
      apply (IHl W2 u2 t2); auto. apply (vars_ext B2), (vars_ext B), V0.
  - apply andb_true_iff in W as [W1 W2]. destruct (instantiate u a vars) as [u1 i1] eqn:E1.
    destruct (@instantiate_spec a u vars vs u1 i1 (proj1 G) V (written_no_infer _ W1) E1) as (A & B & C & D).
    assert (G1 := IHa _ _ _ _ _ G W1 V E1). assert (V1 := vars_ext B V).
    destruct (instantiate u1 b vars) as [u2 i2] eqn:E2.
    destruct (@instantiate_spec b u1 vars vs u2 i2 (proj1 G1) V1 (written_no_infer _ W2) E2) as (A2 & B2 & C2 & D2).
    assert (G2 := IHb _ _ _ _ _ G1 W2 V1 E2).
    assert (Hc : children_lt (TyFn i1 i2) (length (slots u2))) by (cbn; split; auto; destruct B2; lia).
    apply (@alloc_good u2 (TyFn i1 i2) i u' G2 Hc ltac:(discriminate)). unfold calloc. rewrite Ei. auto.
  - discriminate.
  - discriminate.
  - discriminate.
Qed.

Lemma freshes_good n : forall u l u', good u -> cfreshes n u = Done (l, true, u') ->
  good u' /\ ext u u' /\ exists ts, length ts = n /\ Forall2 (resolves u') l ts.
Proof.
  induction n as [|n IH]; intros u l u' G H; cbn in H.
  - unfold cret in H. injection H as <- <-. split; auto. split; [apply ext_refl|]. exists []. auto.
  - step H. destruct (fresh_good G H0) as (G1 & X1 & L1). step H. destruct (IH _ _ _ G1 H1) as (G2 & X2 & ts & Lt & F).
    unfold cret in H. injection H as <- <-. split; auto. split; [eapply ext_trans; eauto|].
    destruct (good_res G1 L1) as [t R]. exists (t :: ts). cbn. split; auto. constructor; auto. apply X2, R.
Qed.
Lemma combine_vars u vars l ts : good u -> Forall2 (resolves u) l ts -> length ts = length vars ->
  vars_ok u (combine vars l) (combine vars ts).
Proof.
  intros G F. revert vars. induction F as [|i t l ts R F IH]; intros [|v vars] L; cbn in *; try discriminate; constructor.
  - split; auto. split; auto. eapply res_lt; eauto.
  - apply IH. lia.
Qed.
Lemma Forall2_ext u u' l ts : ext u u' -> Forall2 (resolves u) l ts -> Forall2 (resolves u') l ts.
Proof. intros X F. induction F; constructor; auto. apply X; auto. Qed.
Lemma same_res u i j t : same u i j -> resolves u i t -> resolves u j t.
Proof. intros (t0 & A & B) R. rewrite (resolves_fun R A). auto. Qed.
Lemma same_sym u i j : same u i j -> same u j i.
Proof. intros (t0 & A & B). exists t0. auto. Qed.

Section Sound.
  Variable S_ : sym -> option nty.
  Variable C_ : sym -> option dctor.
  Variable k n0 : nat.
  Hypothesis HS1 : forall x i, S_ x = Some (NInfer i) -> i < n0.
  Hypothesis HS2 : forall x t vars, S_ x = Some (NInst t vars) -> written t = true.
  Hypothesis HC : forall c d, C_ c = Some d -> Forall (fun f => match f with Some t => written t = true | None => True end) (dc_fields d).
  Notation wti := (wti S_ C_). Notation wt := (wt S_ C_).

  Fixpoint rok (e : rexpr) : Prop :=
    match e with
    | RName x => S_ x <> None
    | RBoolean _ | RNumber _ | RStr _ | RHole _ => True
    | RApply a b | RBinary a _ b | RPipe a b => rok a /\ rok b
    | RLet x _ v e => S_ x <> None /\ rok v /\ rok e
    | RMatch d cases => rok d /\
      (fix go (l : list (sym * list sym * rexpr)) : Prop :=
         match l with
         | [] => True
         | (p, b) :: r => (C_ (fst p) <> None /\ Forall (fun x => exists i, S_ x = Some (NInfer i)) (snd p) /\ rok b) /\ go r
         end) cases
    | RIf a b c => rok a /\ rok b /\ rok c
    | RLam _ x b => (exists i, S_ x = Some (NInfer i)) /\ rok b
    | RParen e => rok e
    end.

  Lemma lookup_good u x i u' : good u -> n0 <= length (slots u) -> (exists j, S_ x = Some (NInfer j)) ->
    lookup_name S_ x u = Done (i, true, u') -> u' = u /\ S_ x = Some (NInfer i) /\ i < length (slots u).
  Proof.
    intros G N (j & E) H. unfold lookup_name in H. rewrite E in H. unfold cret in H. injection H as -> ->.
    split; auto. split; auto. apply HS1 in E. lia.
  Qed.
  Lemma head_good vars : forall u t th vs i u', good u -> resolves u t th ->
    ctor_head t vars u = Done ((vs, i), true, u') ->
    good u' /\ ext u u' /\ exists ts, length ts = length vars /\ resolves u' i (fold_left (TNode NApply) ts th) /\
      vars_ok u' vs (combine vars ts).
  Proof.
    induction vars as [|v vars IH]; intros u t th vs i u' G R H; cbn in H.
    - unfold cret in H. injection H as <- <- <-. split; auto. split; [apply ext_refl|]. exists []. repeat split; auto. constructor.
    - step H. destruct (fresh_good G H0) as (G1 & X1 & L1). step H.
      assert (Hc : children_lt (TyApply t x) (length (slots x0))).
      { cbn. split; auto. pose proof (res_lt G R). destruct X1. lia. }
      destruct (@alloc_good _ _ _ _ G1 Hc ltac:(discriminate) H1) as (G2 & X2 & L2 & tm & R2 & ta & tb & Ra & Rb & ->).
      step H. destruct x3 as [vs' i']. destruct (IH _ _ _ _ _ _ G2 R2 H2) as (G3 & X3 & ts & Lt & R3 & V3).
      unfold cret in H. cbn in H. injection H as <- <- <-. split; auto. split; [eapply ext_trans; eauto using ext_trans|].
      exists (tb :: ts). cbn. split; [lia|].
      assert (Ea : ta = th) by (eapply resolves_fun; [exact Ra|apply X2, X1, R]). subst ta. split; auto. constructor; auto. cbn.
      split; auto. split; [destruct X2, X3; lia|apply X3, Rb].
  Qed.
  Lemma vars_le u u' vars vs : le u u' -> vars_ok u vars vs -> exists f, refines f u u' /\ vars_ok u' vars (map (fun p => (fst p, subst f (snd p))) vs).
  Proof.
    intros [L (f & F)] V. exists f. split; auto. induction V as [|p q vars vs (A & B & C) V IH]; constructor; auto.
    cbn. split; auto. split; auto. lia.
  Qed.
  Lemma fields_good fs : forall xs u rec inst tr vs u' y, good u -> n0 <= length (slots u) ->
    Forall (fun f => match f with Some t => written t = true | None => True end) fs ->
    Forall (fun x => exists i, S_ x = Some (NInfer i)) xs -> length xs = length fs ->
    resolves u rec tr -> vars_ok u inst vs ->
    check_fields S_ k rec inst xs fs u = Done (y, true, u') ->
    good u' /\ exists f, length (slots u) <= length (slots u') /\ refines f u u' /\
      Forall2 (fun x fd => mono S_ u' x (field_term (subst f tr) (map (fun p => (fst p, subst f (snd p))) vs) fd)) xs fs.
  Proof.
    induction fs as [|fd fs IH]; intros [|x xs] u rec inst tr vs u' y G N W M L R V H; cbn in L, H; try discriminate.
    - unfold cret in H. injection H as _ <-. split; auto. exists TUnknown. split; auto. split; auto. intros i t. rewrite subst_id. auto.
    - apply cbind_ok in H as (si & u0 & H0 & H). inversion M as [|? ? M1 M2]; subst. inversion W as [|? ? W1 W2]; subst.
      destruct (lookup_good G N M1 H0) as (-> & Ex & Lx). clear H0. apply cbind_ok in H as (fi & u1 & H1 & H).
      assert (Q : good u1 /\ ext u u1 /\ fi < length (slots u1) /\ resolves u1 fi (field_term tr vs fd)).
      { destruct fd as [t|]; cbn.
        - destruct (inst_good _ G W1 V H1) as (A & B & C & D). auto.
        - unfold cret in H1. injection H1 as <- <-. split; auto. split; [apply ext_refl|]. split; auto. eapply res_lt; eauto. }
      destruct Q as (G1 & X1 & L1 & R1). apply cbind_ok in H as (z & u2 & H2 & H).
      assert (Lx' : si < length (slots u1)) by (destruct X1; lia).
      destruct (unify_good _ G1 L1 Lx' H2) as (G2 & E2 & S2).
      destruct (vars_le E2 (vars_ext X1 V)) as (f & F & V2).
      assert (R2 : resolves u2 rec (subst f tr)) by (apply F, X1, R).
      assert (Q : n0 <= length (slots u2)) by (destruct X1, E2; lia).
      assert (L' : length xs = length fs) by lia.
      destruct (IH xs u2 rec inst _ _ u' y G2 Q W2 M2 L' R2 V2 H) as (G3 & g & L3 & F3 & FF).
      split; auto. exists (fun v => subst g (f v)). split; [destruct X1, E2; lia|]. split.
      { intros i t Ri. rewrite <- subst_comp. apply F3, F, X1, Ri. }
      assert (Es : map (fun p => (fst p, subst (fun v => subst g (f v)) (snd p))) vs =
                   map (fun p => (fst p, subst g (snd p))) (map (fun p => (fst p, subst f (snd p))) vs)).
      { rewrite map_map. apply map_ext. intros [a b]. cbn. rewrite subst_comp. auto. }
      rewrite <- subst_comp, Es. constructor; auto.
      exists si. split; auto. pose proof (same_res S2 (F _ _ R1)) as R5. apply F3 in R5.
      destruct fd as [t|]; cbn in *; auto. rewrite !subst_scheme in R5. auto.
  Qed.
  Lemma pattern_good u primary rec tp tr c xs u' y : good u -> n0 <= length (slots u) ->
    C_ c <> None -> Forall (fun x => exists i, S_ x = Some (NInfer i)) xs ->
    resolves u primary tp -> resolves u rec tr ->
    check_pattern S_ C_ k primary rec c xs u = Done (y, true, u') ->
    good u' /\ le u u' /\ exists d ts tr', C_ c = Some d /\ length ts = length (dc_vars d) /\
      resolves u' primary (data (dc_type d) ts) /\ resolves u' rec tr' /\
      Forall2 (fun x f => mono S_ u' x (field_term tr' (combine (dc_vars d) ts) f)) xs (dc_fields d).
  Proof.
    intros G N Hc M Rp Rr H. unfold check_pattern in H. destruct (C_ c) as [d|] eqn:Ed; [clear Hc|congruence].
    apply cbind_ok in H as (t0 & u1 & H1 & H).
    destruct (@alloc_good u (TyNamed (dc_type d)) _ _ G I ltac:(discriminate) H1) as (G1 & X1 & L1 & tm & R1 & ->).
    apply cbind_ok in H as ([vs hi] & u2 & H2 & H). destruct (head_good _ G1 R1 H2) as (G2 & X2 & ts & Lt & R2 & V2).
    change (resolves u2 hi (data (dc_type d) ts)) in R2.
    apply cbind_ok in H as (z & u3 & H3 & H). cbn [fst snd] in H3, H.
    assert (Lp : primary < length (slots u2)) by (pose proof (res_lt G Rp); destruct X1, X2; lia).
    destruct (unify_good _ G2 Lp (res_lt G2 R2) H3) as (G3 & E3 & S3).
    destruct (vars_le E3 V2) as (f & F & V3).
    destruct (length xs =? length (dc_fields d)) eqn:El; [|discriminate H]. apply Nat.eqb_eq in El.
    assert (Rr3 : resolves u3 rec (subst f tr)) by (apply F, X2, X1, Rr).
    assert (N3 : n0 <= length (slots u3)) by (destruct X1, X2, E3; lia).
    destruct (@fields_good _ xs _ _ _ _ _ _ _ G3 N3 (HC Ed) M El Rr3 V3 H) as (G4 & g & L4 & F4 & FF).
    split; auto. split.
    { eapply le_trans; [eapply le_trans; [apply ext_le; eapply ext_trans; eauto|exact E3]|]. split; eauto. }
    exists d, (map (subst g) (map (subst f) ts)), (subst g (subst f tr)). split; auto. split; [rewrite !map_length; auto|]. split.
    - rewrite <- !subst_data. apply F4. eapply same_res; [apply same_sym; exact S3|]. apply F, R2.
    - split; [apply F4, Rr3|]. rewrite <- (map_combine_snd (subst g)), <- (map_combine_snd (subst f)). exact FF.
  Qed.

  Lemma name_good u x l i u' : good u -> n0 <= length (slots u) -> S_ x <> None ->
    instantiate_name S_ x u = Done ((l, i), true, u') ->
    good u' /\ le u u' /\ exists t, resolves u' i t /\ used S_ u' x l t.
  Proof.
    intros G N Hx H. unfold instantiate_name in H. unfold used. destruct (S_ x) as [[j|t vars]|] eqn:Ex; [| |congruence].
    - unfold cret in H. injection H as <- -> <-. split; auto. split; [apply le_refl|].
      assert (Li : i < length (slots u)) by (apply HS1 in Ex; lia). destruct (good_res G Li) as [t R]. exists t. auto.
    - apply cbind_ok in H as (fs & u1 & H1 & H). destruct (freshes_good _ G H1) as (G1 & X1 & ts & Lt & F1).
      apply cbind_ok in H as (j & u2 & H2 & H). unfold cret in H. injection H as <- <- <-.
      destruct (inst_good _ G1 (HS2 Ex) (combine_vars _ G1 F1 Lt) H2) as (G2 & X2 & L2 & R2).
      split; auto. split; [apply ext_le; eapply ext_trans; eauto|]. eexists. split; [exact R2|].
      exists ts. split; auto. eapply Forall2_ext; eauto.
  Qed.
  Lemma opaque_good u x i u' : good u -> n0 <= length (slots u) -> S_ x <> None ->
    lookup_name_opaque S_ x u = Done (i, true, u') ->
    good u' /\ le u u' /\ exists t, resolves u' i t /\ bound S_ u' x t.
  Proof.
    intros G N Hx H. unfold lookup_name_opaque in H. unfold bound. destruct (S_ x) as [[j|t vars]|] eqn:Ex; [| |congruence].
    - unfold cret in H. injection H as -> <-. split; auto. split; [apply le_refl|].
      assert (Li : i < length (slots u)) by (apply HS1 in Ex; lia). destruct (good_res G Li) as [t R]. exists t. auto.
    - assert (V : vars_ok u [] []) by constructor.
      destruct (inst_good _ G (HS2 Ex) V H) as (G2 & X2 & L2 & R2). split; auto. split; [apply ext_le; auto|]. eexists. split; eauto.
  Qed.
  Lemma norm_folded u i a b : good u -> (exists u', cnorm k i u = Done (Some (TyFolded a b), true, u')) -> i < length (slots u) ->
    node_at NFolded u i a b.
  Proof.
    intros G (u' & H) Hi. unfold cnorm, obind in H. destruct (normalize k u i) as [n| |] eqn:En; try discriminate.
    injection H as -> _. destruct (norm_spec _ _ _ En) as (j & Ej & Hj). destruct (final_spec _ _ _ Ej) as [_ R].
    destruct (good_res G Hi) as [t Rt]. pose proof (proj1 (R _) Rt) as Rj.
    destruct (get_term Hj Rj) as (ta & tb & Ra & Rb & ->). exists ta, tb. auto.
  Qed.

  Definition sound (e : rexpr) : Prop := forall expected u ie u', good u -> n0 <= length (slots u) -> expected < length (slots u) ->
    rok e -> check S_ C_ k e expected u = Done (ie, true, u') -> good u' /\ le u u' /\ wti u' ie expected.

  Definition cases_wt (u : uni) (td t : term) : list (sym * list sym * iexpr) -> Prop :=
    fix go (l : list (sym * list sym * iexpr)) : Prop :=
      match l with [] => True | (p, b) :: r => (pat S_ C_ u td (fst p) (snd p) /\ wt u b t) /\ go r end.
  Lemma cases_wt_ref f u u' td t cs : refines f u u' -> cases_wt u td t cs -> cases_wt u' (subst f td) (subst f t) cs.
  Proof.
    intros H. induction cs as [|[p b] cs IH]; cbn; auto. intros ((A & B) & C). split; auto.
    split; [eapply pat_ref; eauto|eapply wt_ref; eauto].
  Qed.
  Lemma lt_le u u' i : le u u' -> i < length (slots u) -> i < length (slots u').
  Proof. intros [L _]. lia. Qed.
  Lemma n0_le u u' : le u u' -> n0 <= length (slots u) -> n0 <= length (slots u').
  Proof. intros [L _]. lia. Qed.

  Lemma cases_sound cases : Forall (fun c => sound (snd c)) cases ->
    forall di primary rec expected u cs u', good u -> n0 <= length (slots u) -> expected < length (slots u) -> di < length (slots u) ->
    (node_at NFolded u di primary rec \/ primary = di /\ rec = di) ->
    (fix go (l : list (sym * list sym * rexpr)) : Prop :=
       match l with
       | [] => True
       | (p, b) :: r => (C_ (fst p) <> None /\ Forall (fun x => exists i, S_ x = Some (NInfer i)) (snd p) /\ rok b) /\ go r
       end) cases ->
    (fix go (l : list (sym * list sym * rexpr)) : chk (list (sym * list sym * iexpr)) :=
                match l with
                | [] => cret []
                | ((c, xs), b) :: r =>
                  _ <== check_pattern S_ C_ k primary rec c xs ;;
                  b' <== check S_ C_ k b expected ;; bs <== go r ;; cret (((c, xs), b') :: bs)
                end) cases u = Done (cs, true, u') ->
    good u' /\ le u u' /\ exists td t, resolves u' di td /\ resolves u' expected t /\ cases_wt u' td t cs.
  Proof.
    induction 1 as [|[[c xs] b] cases Hb _ IH]; intros di primary rec expected u cs u' G N Le Ld Sh K H.
    - unfold cret in H. injection H as <- <-. split; auto. split; [apply le_refl|].
      destruct (good_res G Ld) as [td Rd]. destruct (good_res G Le) as [t Rt]. exists td, t. cbn. auto.
    - destruct K as ((K1 & K2 & K3) & K4). cbn [fst snd] in *.
      apply cbind_ok in H as (z & u1 & H1 & H).
      assert (Lp : primary < length (slots u) /\ rec < length (slots u)).
      { destruct Sh as [(ta & tb & Ra & Rb & _)|[-> ->]]; auto. split; eapply res_lt; eauto. }
      destruct (good_res G (proj1 Lp)) as [tp Rp]. destruct (good_res G (proj2 Lp)) as [tr Rr].
      destruct (pattern_good G N K1 K2 Rp Rr H1) as (G1 & E1 & d & ts & tr' & Ed & Lt & Rp1 & Rr1 & FF).
      assert (P1 : exists td, resolves u1 di td /\ pat S_ C_ u1 td c xs).
      { destruct Sh as [Sh|[-> ->]].
        - destruct (node_le E1 Sh) as (ta & tb & Ra & Rb & Rd). rewrite (resolves_fun Ra Rp1) in Rd. rewrite (resolves_fun Rb Rr1) in Rd.
          eexists. split; [exact Rd|]. exists d, ts, tr'. split; auto.
        - exists (data (dc_type d) ts). split; auto. exists d, ts, tr'. split; auto. split; auto. split; auto. left. split; auto.
          eapply resolves_fun; eauto. }
      destruct P1 as (td1 & Rd1 & P1).
      apply cbind_ok in H as (b' & u2 & H2 & H).
      destruct (Hb _ _ _ _ G1 (n0_le E1 N) (lt_le E1 Le) K3 H2) as (G2 & E2 & (t2 & R2 & W2)).
      apply cbind_ok in H as (bs & u3 & H3 & H). unfold cret in H. injection H as <- <-.
      assert (E12 := le_trans E1 E2).
      assert (Sh2 : node_at NFolded u2 di primary rec \/ primary = di /\ rec = di)
        by (destruct Sh; auto; left; eapply node_le; eauto).
      destruct (IH _ _ _ _ _ _ _ G2 (n0_le E12 N) (lt_le E12 Le) (lt_le E12 Ld) Sh2 K4 H3) as (G3 & E3 & td & t & Rd & Rt & CW).
      split; auto. split; [eapply le_trans; eauto|]. exists td, t. split; auto. split; auto. cbn. split; auto.
      destruct E2 as [_ (f2 & F2)]. destruct E3 as [_ (f3 & F3)].
      rewrite (resolves_fun Rd (F3 _ _ (F2 _ _ Rd1))), (resolves_fun Rt (F3 _ _ R2)). split.
      + eapply pat_ref; [exact F3|]. eapply pat_ref; [exact F2|]. exact P1.
      + eapply wt_ref; [exact F3|]. exact W2.
  Qed.

  Ltac use H a u1 E := apply cbind_ok in H as (a & u1 & E & H).
  Ltac fin H := unfold cret in H; injection H as <- <-.

  Theorem check_sound : forall e, sound e.
  Proof.
    induction e using rexpr_ind'; try rename H into HF; intros ex u ie u' G N L K H.
    - cbn in H. use H p u1 E1. destruct p as [l i]. destruct (name_good G N K E1) as (G1 & X1 & t & R1 & U1).
      use H z u2 E2. cbn [fst snd] in E2. destruct (unify_good _ G1 (lt_le X1 L) (res_lt G1 R1) E2) as (G2 & X2 & S2). fin H.
      split; auto. split; [eapply le_trans; eauto|]. destruct X2 as [_ (f & F)]. exists (subst f t).
      split; [eapply same_res; [apply same_sym; exact S2|]; auto|]. cbn. eapply used_ref; eauto.
    - cbn in H, K. destruct K as [K1 K2]. use H ia u1 E1. destruct (fresh_good G E1) as (G1 & X1 & L1). apply ext_le in X1.
      use H ib u2 E2. destruct (fresh_good G1 E2) as (G2 & X2 & L2). apply ext_le in X2.
      use H fi u3 E3. assert (Hc : children_lt (TyFn ia ib) (length (slots u2))) by (cbn; split; auto; eapply lt_le; eauto).
      destruct (@alloc_good _ _ _ _ G2 Hc ltac:(discriminate) E3) as (G3 & X3 & L3 & tm & R3 & T3). apply ext_le in X3.
      assert (A3 : node_at NFn u3 fi ia ib) by (destruct T3 as (ta & tb & A & B & ->); exists ta, tb; auto).
      use H f' u4 E4. assert (X13 := le_trans X1 (le_trans X2 X3)).
      destruct (IHe1 _ _ _ _ G3 (n0_le X13 N) L3 K1 E4) as (G4 & X4 & W4). assert (X14 := le_trans X13 X4).
      use H a' u5 E5. destruct (IHe2 ia _ _ _ G4 (n0_le X14 N) ltac:(eapply lt_le; [exact X4|]; eapply lt_le; [exact X3|]; eapply lt_le; [exact X2|]; exact L1) K2 E5)
        as (G5 & X5 & W5). assert (X15 := le_trans X14 X5).
      use H z u6 E6. assert (Lb : ib < length (slots u5)) by (eapply lt_le; [exact X5|]; eapply lt_le; [exact X4|]; eapply lt_le; [exact X3|]; exact L2).
      destruct (unify_good _ G5 (lt_le X15 L) Lb E6) as (G6 & X6 & S6).
      fin H. split; auto. split; [eapply le_trans; eauto|].
      pose proof (wti_le (le_trans X5 X6) W4) as (tf & Rf & Wf). pose proof (wti_le X6 W5) as (ta & Ra & Wa).
      pose proof (node_le (le_trans X4 (le_trans X5 X6)) A3) as (ta' & tb & Ra' & Rb & Rn).
      rewrite (resolves_fun Ra' Ra) in Rn. rewrite (resolves_fun Rf Rn) in Wf.
      exists tb. split; [eapply same_res; [apply same_sym; exact S6|]; auto|]. cbn. exists ta. auto.
    - cbn in H, K. destruct K as [K1 K2]. use H i u1 E1.
      destruct (@alloc_good u TyInt _ _ G I ltac:(discriminate) E1) as (G1 & X1 & L1 & tm & R1 & ->). apply ext_le in X1.
      use H a' u2 E2. destruct (IHe1 _ _ _ _ G1 (n0_le X1 N) L1 K1 E2) as (G2 & X2 & W2).
      use H b' u3 E3. assert (X12 := le_trans X1 X2). destruct (IHe2 i _ _ _ G2 (n0_le X12 N) (lt_le X2 L1) K2 E3) as (G3 & X3 & W3).
      assert (X13 := le_trans X12 X3). use H z u4 E4. fin H.
      assert (Q : good u4 /\ le u3 u4 /\ resolves u4 ex (op_term o)).
      { unfold op_term. destruct (is_cmp o).
        - use E4 r u5 E5. destruct (@alloc_good u3 TyBool _ _ G3 I ltac:(discriminate) E5) as (G5 & X5 & L5 & tm & R5 & ->). apply ext_le in X5.
          destruct (unify_good _ G5 (lt_le X5 (lt_le X13 L)) L5 E4) as (G6 & X6 & S6). split; auto. split; [eapply le_trans; eauto|].
          eapply same_res; [apply same_sym; exact S6|]. eapply leaf_le; eauto.
        - destruct (unify_good _ G3 (lt_le X13 L) (lt_le (le_trans X2 X3) L1) E4) as (G6 & X6 & S6). split; auto. split; auto.
          eapply same_res; [apply same_sym; exact S6|]. eapply leaf_le; [|exact R1]. eapply le_trans; [|exact X6]. eapply le_trans; eauto. }
      destruct Q as (G4 & X4 & R4). split; auto. split; [eapply le_trans; eauto|]. exists (op_term o). split; auto. cbn.
      pose proof (leaf_le (le_trans X2 (le_trans X3 X4)) R1) as Ri.
      pose proof (wti_le (le_trans X3 X4) W2) as (ta & Ra & Wa). rewrite (resolves_fun Ra Ri) in Wa.
      pose proof (wti_le X4 W3) as (tb & Rb & Wb). rewrite (resolves_fun Rb Ri) in Wb. auto.
    - cbn in H, K. destruct K as [K1 K2]. use H ia u1 E1. destruct (fresh_good G E1) as (G1 & X1 & L1). apply ext_le in X1.
      use H a' u2 E2. destruct (IHe1 _ _ _ _ G1 (n0_le X1 N) L1 K1 E2) as (G2 & X2 & W2). assert (X12 := le_trans X1 X2).
      use H ir u3 E3. destruct (fresh_good G2 E3) as (G3 & X3 & L3). apply ext_le in X3.
      use H fi u4 E4. assert (Hc : children_lt (TyFn ia ir) (length (slots u3))) by (cbn; split; auto; eapply lt_le; [exact X3|]; eapply lt_le; [exact X2|]; exact L1).
      destruct (@alloc_good _ _ _ _ G3 Hc ltac:(discriminate) E4) as (G4 & X4 & L4 & tm & R4 & T4). apply ext_le in X4.
      assert (A4 : node_at NFn u4 fi ia ir) by (destruct T4 as (ta & tb & A & B & ->); exists ta, tb; auto).
      assert (X14 := le_trans X12 (le_trans X3 X4)).
      use H f' u5 E5. destruct (IHe2 _ _ _ _ G4 (n0_le X14 N) L4 K2 E5) as (G5 & X5 & W5). assert (X15 := le_trans X14 X5).
      use H z u6 E6. assert (Lb : ir < length (slots u5)) by (eapply lt_le; [exact X5|]; eapply lt_le; [exact X4|]; auto).
      destruct (unify_good _ G5 (lt_le X15 L) Lb E6) as (G6 & X6 & S6).
      fin H. split; auto. split; [eapply le_trans; eauto|].
      pose proof (wti_le X6 W5) as (tf & Rf & Wf). pose proof (wti_le (le_trans X3 (le_trans X4 (le_trans X5 X6))) W2) as (ta & Ra & Wa).
      pose proof (node_le (le_trans X5 X6) A4) as (ta' & tb & Ra' & Rb & Rn).
      rewrite (resolves_fun Ra' Ra) in Rn. rewrite (resolves_fun Rf Rn) in Wf.
      exists tb. split; [eapply same_res; [apply same_sym; exact S6|]; auto|]. cbn. exists ta. auto.
    - cbn in H, K. destruct K as (K0 & K1 & K2). use H bt u1 E1. destruct (opaque_good G N K0 E1) as (G1 & X1 & t & R1 & B1).
      use H v' u2 E2. destruct (IHe1 _ _ _ _ G1 (n0_le X1 N) (res_lt G1 R1) K1 E2) as (G2 & X2 & (tv & Rv & Wv)). assert (X12 := le_trans X1 X2).
      use H e' u3 E3. destruct (IHe2 _ _ _ _ G2 (n0_le X12 N) (lt_le X12 L) K2 E3) as (G3 & X3 & (t3 & R3 & W3)). fin H.
      split; auto. split; [eapply le_trans; eauto|]. exists t3. split; auto. cbn.
      destruct X2 as [_ (f2 & F2)]. destruct X3 as [_ (f3 & F3)]. exists (subst f3 tv).
      rewrite (resolves_fun Rv (F2 _ _ R1)). split; [|split]; auto.
      + eapply bound_ref; eauto. eapply bound_ref; eauto.
      + rewrite (resolves_fun Rv (F2 _ _ R1)) in Wv. eapply wt_ref; eauto.
    - cbn in H, K. destruct K as [K1 K2]. use H di u1 E1. destruct (fresh_good G E1) as (G1 & X1 & L1). apply ext_le in X1.
      use H d' u2 E2. destruct (IHe _ _ _ _ G1 (n0_le X1 N) L1 K1 E2) as (G2 & X2 & W2). assert (X12 := le_trans X1 X2).
      use H n u3 E3.
      assert (u3 = u2) by (unfold cnorm, obind in E3; destruct (normalize k u2 di); try discriminate; injection E3; auto). subst u3.
      set (pr := match n with Some (TyFolded a b) => (a, b) | _ => (di, di) end) in *.
      assert (Sh : node_at NFolded u2 di (fst pr) (snd pr) \/ fst pr = di /\ snd pr = di).
      { subst pr. destruct n as [[| | | | | | |]|]; auto. left. eapply norm_folded; [exact G2|eauto|]. eapply lt_le; [exact X2|exact L1]. }
      clearbody pr. destruct pr as [primary rec]. cbn [fst snd] in Sh. use H cs' u4 E4.
      destruct (cases_sound HF G2 (n0_le X12 N) (lt_le X12 L) (lt_le X2 L1) Sh K2 E4) as (G4 & X4 & td & t & Rd & Rt & CW).
      fin H. split; auto. split; [eapply le_trans; eauto|]. exists t. split; auto. cbn. exists td. split; auto. split; auto.
      pose proof (wti_le X4 W2) as (td' & Rd' & Wd). rewrite (resolves_fun Rd Rd'). auto.
    - cbn in H, K. destruct K as (K1 & K2 & K3). use H b u1 E1.
      destruct (@alloc_good u TyBool _ _ G I ltac:(discriminate) E1) as (G1 & X1 & L1 & tm & R1 & ->). apply ext_le in X1.
      use H c' u2 E2. destruct (IHe1 _ _ _ _ G1 (n0_le X1 N) L1 K1 E2) as (G2 & X2 & W2). assert (X12 := le_trans X1 X2).
      use H t' u3 E3. destruct (IHe2 _ _ _ _ G2 (n0_le X12 N) (lt_le X12 L) K2 E3) as (G3 & X3 & W3). assert (X13 := le_trans X12 X3).
      use H e' u4 E4. destruct (IHe3 _ _ _ _ G3 (n0_le X13 N) (lt_le X13 L) K3 E4) as (G4 & X4 & (t4 & R4 & W4)). fin H.
      split; auto. split; [eapply le_trans; eauto|]. exists t4. split; auto. cbn.
      pose proof (wti_le (le_trans X3 X4) W2) as (tc & Rc & Wc).
      rewrite (resolves_fun Rc (leaf_le (le_trans X2 (le_trans X3 X4)) R1)) in Wc. split; auto.
      pose proof (wti_le X4 W3) as (tt & Rt & Wt). rewrite (resolves_fun Rt R4) in Wt. auto.
    - cbn in H. use H i u1 E1. destruct (@alloc_good u TyBool _ _ G I ltac:(discriminate) E1) as (G1 & X1 & L1 & tm & R1 & ->). apply ext_le in X1.
      use H z u2 E2. destruct (unify_good _ G1 (lt_le X1 L) L1 E2) as (G2 & X2 & S2). fin H. split; auto. split; [eapply le_trans; eauto|].
      eexists. split; [eapply same_res; [apply same_sym; exact S2|eapply leaf_le; eauto]|reflexivity].
    - cbn in H. use H i u1 E1. destruct (@alloc_good u TyInt _ _ G I ltac:(discriminate) E1) as (G1 & X1 & L1 & tm & R1 & ->). apply ext_le in X1.
      use H z u2 E2. destruct (unify_good _ G1 (lt_le X1 L) L1 E2) as (G2 & X2 & S2). fin H. split; auto. split; [eapply le_trans; eauto|].
      eexists. split; [eapply same_res; [apply same_sym; exact S2|eapply leaf_le; eauto]|reflexivity].
    - cbn in H. use H i u1 E1. destruct (@alloc_good u TyString _ _ G I ltac:(discriminate) E1) as (G1 & X1 & L1 & tm & R1 & ->). apply ext_le in X1.
      use H z u2 E2. destruct (unify_good _ G1 (lt_le X1 L) L1 E2) as (G2 & X2 & S2). fin H. split; auto. split; [eapply le_trans; eauto|].
      eexists. split; [eapply same_res; [apply same_sym; exact S2|eapply leaf_le; eauto]|reflexivity].
    - cbn in H, K. destruct K as [K0 K1]. use H ax u0 E0. destruct (lookup_good G N K0 E0) as (-> & Ex & Lx).
      use H ia u1 E1. destruct (fresh_good G E1) as (G1 & X1 & L1). apply ext_le in X1.
      use H ib u2 E2. destruct (fresh_good G1 E2) as (G2 & X2 & L2). apply ext_le in X2. assert (X12 := le_trans X1 X2).
      use H arg u3 E3.
      assert (Q : good u3 /\ le u2 u3 /\ arg < length (slots u3) /\ if f then node_at NFolded u3 arg ia ib else arg = ia).
      { destruct f.
        - assert (Hc : children_lt (TyFolded ia ib) (length (slots u2))) by (cbn; split; auto; eapply lt_le; [exact X2|exact L1]).
          destruct (@alloc_good _ _ _ _ G2 Hc ltac:(discriminate) E3) as (G3 & X3 & L3 & tm & R3 & T3). apply ext_le in X3.
          split; auto. split; auto. split; auto. destruct T3 as (ta & tb & A & B & ->); exists ta, tb; auto.
        - unfold cret in E3. injection E3 as <- <-. split; auto. split; [apply le_refl|]. split; auto. eapply lt_le; [exact X2|exact L1]. }
      destruct Q as (G3 & X3 & L3 & A3). assert (X13 := le_trans X12 X3).
      use H z u4 E4. destruct (unify_good _ G3 (lt_le X13 Lx) L3 E4) as (G4 & X4 & S4). assert (X14 := le_trans X13 X4).
      use H fi u5 E5. assert (Hc : children_lt (TyFn ia ib) (length (slots u4))).
      { cbn. split; (eapply lt_le; [exact X4|]); (eapply lt_le; [exact X3|]); auto. eapply lt_le; [exact X2|exact L1]. }
      destruct (@alloc_good _ _ _ _ G4 Hc ltac:(discriminate) E5) as (G5 & X5 & L5 & tm & R5 & T5). apply ext_le in X5.
      assert (A5 : node_at NFn u5 fi ia ib) by (destruct T5 as (ta & tb & A & B & ->); exists ta, tb; auto).
      assert (X15 := le_trans X14 X5). use H z' u6 E6. destruct (unify_good _ G5 (lt_le X15 L) L5 E6) as (G6 & X6 & S6).
      assert (X16 := le_trans X15 X6). use H b' u7 E7.
      destruct (IHe ib _ _ _ G6 (n0_le X16 N) ltac:(eapply lt_le; [exact X6|]; eapply lt_le; [exact X5|]; exact (proj2 Hc)) K1 E7) as (G7 & X7 & (tr & Rr & Wr)).
      fin H. split; auto. split; [eapply le_trans; eauto|].
      pose proof (node_le (le_trans X6 X7) A5) as (ta & tb & Ra & Rb & Rf). rewrite (resolves_fun Rb Rr) in *. 
      pose proof (same_res (same_sym (same_le X7 S6)) Rf) as Rex.
      pose proof (same_le (le_trans X5 (le_trans X6 X7)) S4) as Sx.
      exists (TNode NFn ta tr). split; auto. destruct f; cbn.
      + exists ta, tr. split; auto. split; auto. split; auto. exists ax. split; auto.
        pose proof (node_le (le_trans X4 (le_trans X5 (le_trans X6 X7))) A3) as (ta' & tb' & Ra' & Rb' & Rg).
        rewrite (resolves_fun Ra' Ra), (resolves_fun Rb' Rr) in Rg. eapply same_res; [apply same_sym; exact Sx|]; auto.
      + subst arg. exists ta, tr. split; auto. split; auto. exists ax. split; auto. eapply same_res; [apply same_sym; exact Sx|]; auto.
    - cbn in H, K. use H e' u1 E1. destruct (IHe _ _ _ _ G N L K E1) as (G1 & X1 & W1). fin H. auto.
    - cbn in H. fin H. split; auto. split; [apply le_refl|]. destruct (good_res G L) as [t0 R]. exists t0. auto.
  Qed.
End Sound.
