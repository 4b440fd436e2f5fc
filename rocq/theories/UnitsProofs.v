(** The type of a definition without annotation stays unknown: nothing touches its slot. *)
From Verif Require Import VerifyState TypeckAll.
From Verif Require Export Units.
Set Implicit Arguments.

Section Iso.
  Variable i : idx.
  Definition ty_apart (t : ty) : Prop :=
    match t with TyApply a b | TyFn a b | TyFolded a b => a <> i /\ b <> i | _ => True end.
  Definition slot_apart (s : slot) : Prop := match s with Infer => True | Next j => j <> i | STy t => ty_apart t end.
  Definition iso (u : uni) : Prop :=
    nth_error (slots u) i = Some Infer /\ Forall slot_apart (slots u) /\ Forall (fun p => fst p <> i /\ slot_apart (snd p)) (pending u).

  Lemma iso_get u j s : iso u -> get u j = Some s -> slot_apart s.
  Proof.
    intros (_ & A & B) H. unfold get in H. destruct (assoc j (pending u)) as [s'|] eqn:E.
    - injection H as <-. apply assoc_in in E. rewrite Forall_forall in B. destruct (B _ E). auto.
    - rewrite Forall_forall in A. apply A. eapply nth_error_In; eauto.
  Qed.
  Lemma iso_final k : forall u j f, iso u -> j <> i -> final_idx k u j = Done f -> f <> i.
  Proof.
    induction k as [|k IH]; intros u j f I N E; cbn in E; [discriminate|]. destruct (get u j) as [[|j'|t]|] eqn:G; try discriminate.
    - congruence.
    - apply (IH u j' f); auto. exact (iso_get _ I G).
    - congruence.
  Qed.
  Lemma iso_norm k u j t : iso u -> normalize k u j = Done (Some t) -> ty_apart t.
  Proof.
    intros I E. unfold normalize in E. apply obind_inv in E as (f & _ & E). destruct (get u f) as [[|j'|t']|] eqn:G; try discriminate.
    injection E as <-. apply (iso_get _ I G).
  Qed.
  Lemma iso_bind u a b : iso u -> a <> i -> b <> i -> iso (Unify.bind u a b).
  Proof. intros (A & B & C) Na Nb. split; auto. split; auto. constructor; auto. Qed.
  Lemma iso_unify k : forall u a b u' x, iso u -> a <> i -> b <> i -> unify k u a b = Done (u', x) -> iso u'.
  Proof.
    induction k as [|k IH]; intros u a b u' x I Na Nb E; cbn [unify] in E; [discriminate|].
    apply obind_inv in E as (f1 & E1 & E). apply obind_inv in E as (f2 & E2 & E).
    pose proof (@iso_final k u a f1 I Na E1) as N1. pose proof (@iso_final k u b f2 I Nb E2) as N2.
    destruct (Nat.eqb f1 f2); [injection E as <- <-; auto|]. apply obind_inv in E as (n1 & M1 & E). apply obind_inv in E as (n2 & M2 & E).
    assert (T1 : match n1 with Some t => ty_apart t | None => True end) by (destruct n1; auto; eapply iso_norm; eauto).
    assert (T2 : match n2 with Some t => ty_apart t | None => True end) by (destruct n2; auto; eapply iso_norm; eauto).
    assert (RV : forall u' x, match n2 with
        | Some _ => Done (u, false)
        | None => o <~ occurs k u f2 f1 ;; (if o then Done (u, false) else Done (Unify.bind u f2 f1, true))
        end = Done (u', x) -> iso u').
    { intros u2 x2 H. destruct n2; [injection H as <- <-; auto|]. apply obind_inv in H as ([] & _ & H); injection H as <- <-; auto. apply iso_bind; auto. }
    assert (BO : forall a1 a2 b1 b2 u' x, a1 <> i -> a2 <> i -> b1 <> i -> b2 <> i ->
      (r <~ unify k u a1 b1 ;; if snd r then unify k (fst r) a2 b2 else Done r) = Done (u', x) -> iso u').
    { intros a1 a2 b1 b2 u2 x2 A1 A2 B1 B2 H. apply obind_inv in H as ([u3 y] & Hu & H). pose proof (IH _ _ _ _ _ I A1 B1 Hu) as I3. cbn [fst snd] in H.
      destruct y; [exact (IH _ _ _ _ _ I3 A2 B2 H)|injection H as <- <-; auto]. }
    destruct n1 as [t1|].
    - destruct n2 as [t2|].
      + destruct t1, t2; cbn [ty_apart] in *; try (injection E as <- <-; auto; fail); destruct T1, T2; refine (BO _ _ _ _ _ _ _ _ _ _ E); assumption.
      + destruct t1; eapply RV; eauto.
    - apply obind_inv in E as ([] & _ & E).
      + eapply RV; eauto.
      + injection E as <- <-. apply iso_bind; auto.
  Qed.
  Lemma set_slot_nth l : forall j s n, n <> j -> nth_error (set_slot l j s) n = nth_error l n.
  Proof. induction l as [|x l IH]; intros [|j] s [|n] H; cbn; auto; try congruence. Qed.
  Lemma set_slot_apart l : forall j s, slot_apart s -> Forall slot_apart l -> Forall slot_apart (set_slot l j s).
  Proof. induction l as [|x l IH]; intros [|j] s Hs H; cbn; auto; inversion H; subst; constructor; auto. Qed.
  Lemma iso_commit u : iso u -> iso (commit u).
  Proof.
    intros (A & B & C). unfold commit, commit_in, iso. cbn. revert A B. generalize (slots u). induction C as [|[j s] l [C1 C2] _ IH]; intros sl A B; cbn; auto.
    apply IH.
    - rewrite set_slot_nth; auto.
    - apply set_slot_apart; auto.
  Qed.
  Lemma iso_rollback u : iso u -> iso (rollback u).
  Proof. intros (A & B & C). split; auto. split; auto. constructor. Qed.
  Lemma iso_push u s u' j : iso u -> slot_apart s -> push u s = (u', j) -> iso u' /\ j <> i.
  Proof.
    intros (A & B & C) Hs E. unfold push in E. injection E as <- <-.
    assert (L : i < length (slots u)) by (apply nth_error_Some; congruence). split; [|lia].
    split; cbn; [rewrite nth_error_app1; auto|]. split; auto. apply Forall_app; auto.
  Qed.

  (** Computations of the checker that leave the slot alone. *)
  Definition leaves A (Q : A -> Prop) (m : chk A) : Prop := forall u a b u', iso u -> m u = Done (a, b, u') -> iso u' /\ Q a.
  Lemma leaves_ret A (Q : A -> Prop) a : Q a -> leaves Q (cret a).
  Proof. intros H u a' b u' I E. unfold cret in E. injection E as <- <- <-. auto. Qed.
  Lemma leaves_bind A B (P : A -> Prop) (Q : B -> Prop) m f : leaves P m -> (forall a, P a -> leaves Q (f a)) -> leaves Q (cbind m f).
  Proof.
    intros Hm Hf u b r u' I E. apply cbind_inv in E as (a & r1 & u1 & r2 & Ea & Eb). destruct (Hm _ _ _ _ I Ea) as [I1 Pa]. eapply Hf; eauto.
  Qed.
  Lemma leaves_fresh : leaves (fun j => j <> i) cfresh.
  Proof. intros u a b u' I E. unfold cfresh, fresh_var in E. destruct (push u Infer) as [u1 j] eqn:P. injection E as <- <- <-. eapply iso_push; eauto. exact Logic.I. Qed.
  Lemma leaves_alloc t : ty_apart t -> leaves (fun j => j <> i) (calloc t).
  Proof. intros T u a b u' I E. unfold calloc, allocate in E. destruct (push u (STy t)) as [u1 j] eqn:P. injection E as <- <- <-. refine (iso_push I _ P); exact T. Qed.
  Lemma leaves_unify k a b : a <> i -> b <> i -> leaves (fun _ => True) (cunify k a b).
  Proof.
    intros Na Nb u x y u' I E. unfold cunify in E. apply obind_inv in E as ([u1 y1] & E1 & E). injection E as <- <- <-. split; auto. cbn.
    unfold tc_unify in E1. apply obind_inv in E1 as ([u2 y2] & E2 & E1). pose proof (iso_unify _ I Na Nb E2) as I2. cbn [fst snd] in E1.
    destruct y2; injection E1 as <- <-; [apply iso_commit|apply iso_rollback]; auto.
  Qed.
  Lemma leaves_norm k j : leaves (fun n => match n with Some t => ty_apart t | None => True end) (cnorm k j).
  Proof.
    intros u x y u' I E. unfold cnorm in E. apply obind_inv in E as (n & En & E). injection E as <- <- <-. split; auto. destruct n; auto. eapply iso_norm; eauto.
  Qed.
  Lemma iso_inst t : forall u vars u' j, iso u -> Forall (fun p => snd p <> i) vars -> instantiate u t vars = (u', j) -> iso u' /\ j <> i.
  Proof.
    induction t as [| | |s args IH|a b IHa IHb| | |a b IHa IHb] using irty_ind'; intros u vars u' j I V E; cbn [instantiate] in E;
      try (eapply iso_push; [exact I| |exact E]; exact Logic.I).
    - destruct (match assoc s vars with Some i => (u, i) | None => allocate u (TyNamed s) end) as [u0 n] eqn:E0.
      assert (I0 : iso u0 /\ n <> i).
      { destruct (assoc s vars) as [z|] eqn:Ez; [injection E0 as <- <-; split; auto; apply assoc_in in Ez; rewrite Forall_forall in V; apply (V _ Ez)|].
        eapply iso_push; [exact I| |exact E0]. exact Logic.I. }
      clear E0. destruct I0 as [I0 N0]. revert u0 n I0 N0 E. induction IH as [|a args Ha _ IHl]; intros u0 n I0 N0 E; [injection E as <- <-; auto|].
      destruct (instantiate u0 a vars) as [u1 ia] eqn:E1. destruct (allocate u1 (TyApply n ia)) as [u2 t'] eqn:E2.
      destruct (Ha _ _ _ _ I0 V E1) as [I1 N1]. destruct (@iso_push u1 (STy (TyApply n ia)) u2 t' I1 (conj N0 N1) E2) as [I2 N2]. eapply IHl; eauto.
    - destruct (instantiate u a vars) as [u1 ia] eqn:E1. destruct (instantiate u1 b vars) as [u2 ib] eqn:E2.
      destruct (IHa _ _ _ _ I V E1) as [I1 N1]. destruct (IHb _ _ _ _ I1 V E2) as [I2 N2]. exact (@iso_push u2 (STy (TyFn ia ib)) u' j I2 (conj N1 N2) E).
    - destruct (instantiate u a vars) as [u1 ia] eqn:E1. destruct (instantiate u1 b vars) as [u2 ib] eqn:E2.
      destruct (IHa _ _ _ _ I V E1) as [I1 N1]. destruct (IHb _ _ _ _ I1 V E2) as [I2 N2]. exact (@iso_push u2 (STy (TyFolded ia ib)) u' j I2 (conj N1 N2) E).
  Qed.
  Lemma leaves_inst t vars : Forall (fun p => snd p <> i) vars -> leaves (fun j => j <> i) (cinst t vars).
  Proof.
    intros V u x y u' I E. unfold cinst in E. destruct (instantiate u t vars) as [u1 j] eqn:P. injection E as <- <- <-. eapply iso_inst; eauto.
  Qed.
  Lemma leaves_freshes n : leaves (Forall (fun j => j <> i)) (cfreshes n).
  Proof.
    induction n as [|n IH]; cbn [cfreshes]; [apply leaves_ret; constructor|]. eapply leaves_bind; [apply leaves_fresh|]. intros j Nj.
    eapply leaves_bind; [apply IH|]. intros l Hl. apply leaves_ret. auto.
  Qed.
  Lemma combine_apart (vars : list sym) fs : Forall (fun j => j <> i) fs -> Forall (fun p : sym * idx => snd p <> i) (combine vars fs).
  Proof. intros F. apply Forall_forall. intros [v j] H. apply in_combine_r in H. rewrite Forall_forall in F. apply F. auto. Qed.

  Section Names.
    Variable S_ : sym -> option nty.
    Variable C_ : sym -> option dctor.
    Variable k : nat.
    Variable x : sym.
    Hypothesis HS : forall y, y <> x -> S_ y <> Some (NInfer i).
    Lemma leaves_lookup y : y <> x -> leaves (fun j => j <> i) (lookup_name S_ y).
    Proof.
      intros N. unfold lookup_name. specialize (HS N). destruct (S_ y) as [[j|t vars]|]; [apply leaves_ret; congruence| |apply leaves_alloc; exact I].
      eapply leaves_bind; [apply leaves_freshes|]. intros fs Hf. apply leaves_inst, combine_apart. auto.
    Qed.
    Lemma leaves_opaque y : y <> x -> leaves (fun j => j <> i) (lookup_name_opaque S_ y).
    Proof.
      intros N. unfold lookup_name_opaque. specialize (HS N). destruct (S_ y) as [[j|t vars]|]; [apply leaves_ret; congruence| |apply leaves_alloc; exact I].
      apply leaves_inst. constructor.
    Qed.
    Lemma leaves_name y : y <> x -> leaves (fun p => snd p <> i) (instantiate_name S_ y).
    Proof.
      intros N. unfold instantiate_name. specialize (HS N). destruct (S_ y) as [[j|t vars]|].
      - apply leaves_ret. cbn. congruence.
      - eapply leaves_bind; [apply leaves_freshes|]. intros fs Hf. eapply leaves_bind; [apply leaves_inst, combine_apart; auto|]. intros j Hj. apply leaves_ret. auto.
      - eapply leaves_bind; [apply leaves_alloc; exact I|]. intros j Hj. apply leaves_ret. auto.
    Qed.
    Lemma leaves_head vars : forall t, t <> i -> leaves (fun h => Forall (fun p => snd p <> i) (fst h) /\ snd h <> i) (ctor_head t vars).
    Proof.
      induction vars as [|v vars IH]; intros t N; cbn [ctor_head]; [apply leaves_ret; cbn; auto|].
      eapply leaves_bind; [apply leaves_fresh|]. intros j Nj. eapply leaves_bind; [apply leaves_alloc; split; auto|]. intros t' Nt.
      eapply leaves_bind; [apply IH; auto|]. intros h [H1 H2]. apply leaves_ret. cbn. auto.
    Qed.
    Lemma leaves_fields fs : forall rec inst xs, rec <> i -> Forall (fun p => snd p <> i) inst -> Forall (fun y => y <> x) xs ->
      leaves (fun _ => True) (check_fields S_ k rec inst xs fs).
    Proof.
      induction fs as [|f fs IH]; intros rec inst [|y xs] Nr Ni Nx; cbn [check_fields]; try (apply leaves_ret; auto). inversion Nx; subst.
      eapply leaves_bind; [apply leaves_lookup; auto|]. intros si Ns.
      eapply leaves_bind with (P := fun j => j <> i); [destruct f; [apply leaves_inst; auto|apply leaves_ret; auto]|]. intros fi Nf.
      eapply leaves_bind; [apply leaves_unify; auto|]. intros _ _. apply IH; auto.
    Qed.
    Lemma leaves_pattern p rec c xs : p <> i -> rec <> i -> Forall (fun y => y <> x) xs -> leaves (fun _ => True) (check_pattern S_ C_ k p rec c xs).
    Proof.
      intros Np Nr Nx. unfold check_pattern. destruct (C_ c) as [d|]; [|apply leaves_ret; auto].
      eapply leaves_bind; [apply leaves_alloc; exact I|]. intros t0 N0. eapply leaves_bind; [apply leaves_head; auto|]. intros h [H1 H2].
      eapply leaves_bind; [apply leaves_unify; auto|]. intros _ _. destruct (length xs =? length (dc_fields d)); [apply leaves_fields; auto|].
      intros u a b u' J E. unfold cerr in E. injection E as <- <- <-. auto.
    Qed.
    (** [x] is neither used nor bound in [e]. *)
    Fixpoint avoids (e : rexpr) : Prop :=
      match e with
      | RName y => y <> x
      | RBoolean _ | RNumber _ | RStr _ | RHole _ => True
      | RApply a b | RBinary a _ b | RPipe a b => avoids a /\ avoids b
      | RLet y _ v e => y <> x /\ avoids v /\ avoids e
      | RMatch d cases => avoids d /\
        (fix go (l : list (sym * list sym * rexpr)) : Prop :=
           match l with [] => True | (p, b) :: r => (Forall (fun y => y <> x) (snd p) /\ avoids b) /\ go r end) cases
      | RIf a b c => avoids a /\ avoids b /\ avoids c
      | RLam _ y b => y <> x /\ avoids b
      | RParen e => avoids e
      end.
    Notation any := (fun _ => True).
    Lemma leaves_check : forall e j, avoids e -> j <> i -> leaves any (check S_ C_ k e j).
    Proof.
      induction e using rexpr_ind'; intros j Av Nj; cbn [avoids check] in *.
      - eapply leaves_bind; [apply leaves_name; auto|]. intros p Np. eapply leaves_bind; [apply leaves_unify; auto|]. intros _ _. apply leaves_ret; auto.
      - destruct Av. eapply leaves_bind; [apply leaves_fresh|]. intros a Na. eapply leaves_bind; [apply leaves_fresh|]. intros b Nb.
        eapply leaves_bind; [apply leaves_alloc; split; auto|]. intros f Nf. eapply leaves_bind; [apply IHe1; auto|]. intros f' _.
        eapply leaves_bind; [apply IHe2; auto|]. intros a' _. eapply leaves_bind; [apply leaves_unify; auto|]. intros _ _. apply leaves_ret; auto.
      - destruct Av. eapply leaves_bind; [apply leaves_alloc; exact I|]. intros a Na. eapply leaves_bind; [apply IHe1; auto|]. intros a' _.
        eapply leaves_bind; [apply IHe2; auto|]. intros b' _. eapply leaves_bind with (P := any).
        + destruct (is_cmp o); [eapply leaves_bind; [apply leaves_alloc; exact I|]; intros r Nr; apply leaves_unify; auto|apply leaves_unify; auto].
        + intros _ _. apply leaves_ret; auto.
      - destruct Av. eapply leaves_bind; [apply leaves_fresh|]. intros a Na. eapply leaves_bind; [apply IHe1; auto|]. intros a' _.
        eapply leaves_bind; [apply leaves_fresh|]. intros r Nr. eapply leaves_bind; [apply leaves_alloc; split; auto|]. intros f Nf.
        eapply leaves_bind; [apply IHe2; auto|]. intros f' _. eapply leaves_bind; [apply leaves_unify; auto|]. intros _ _. apply leaves_ret; auto.
      - destruct Av as (N & A1 & A2). eapply leaves_bind; [apply leaves_opaque; auto|]. intros b Nb. eapply leaves_bind; [apply IHe1; auto|]. intros v' _.
        eapply leaves_bind; [apply IHe2; auto|]. intros e' _. apply leaves_ret; auto.
      - destruct Av as [A1 A2]. eapply leaves_bind; [apply leaves_fresh|]. intros d Nd. eapply leaves_bind; [apply IHe; auto|]. intros d' _.
        eapply leaves_bind; [apply leaves_norm|]. intros n Tn.
        destruct (match n with Some (TyFolded a b) => (a, b) | _ => (d, d) end) as [pr rec] eqn:Ep.
        assert (Npr : pr <> i /\ rec <> i).
        { destruct n as [[]|]; injection Ep as <- <-; auto. }
        destruct Npr as [Np Nr]. eapply leaves_bind with (P := any); [|intros cs' _; apply leaves_ret; auto].
        clear Ep Tn A1 IHe. induction H as [|[[c xs] b] cs Hb _ IH]; [apply leaves_ret; auto|]. destruct A2 as [[A2 A3] A4]. cbn [fst snd] in *.
        eapply leaves_bind; [apply leaves_pattern; auto|]. intros _ _. eapply leaves_bind; [apply Hb; auto|]. intros b' _.
        eapply leaves_bind with (P := any); [apply IH; auto|]. intros bs _. apply leaves_ret; auto.
      - destruct Av as (A1 & A2 & A3). eapply leaves_bind; [apply leaves_alloc; exact I|]. intros b Nb. eapply leaves_bind; [apply IHe1; auto|]. intros c' _.
        eapply leaves_bind; [apply IHe2; auto|]. intros t' _. eapply leaves_bind; [apply IHe3; auto|]. intros e' _. apply leaves_ret; auto.
      - eapply leaves_bind; [apply leaves_alloc; exact I|]. intros a Na. eapply leaves_bind; [apply leaves_unify; auto|]. intros _ _. apply leaves_ret; auto.
      - eapply leaves_bind; [apply leaves_alloc; exact I|]. intros a Na. eapply leaves_bind; [apply leaves_unify; auto|]. intros _ _. apply leaves_ret; auto.
      - eapply leaves_bind; [apply leaves_alloc; exact I|]. intros a Na. eapply leaves_bind; [apply leaves_unify; auto|]. intros _ _. apply leaves_ret; auto.
      - destruct Av as [N A]. eapply leaves_bind; [apply leaves_lookup; auto|]. intros ax Nx. eapply leaves_bind; [apply leaves_fresh|]. intros a Na.
        eapply leaves_bind; [apply leaves_fresh|]. intros b Nb.
        eapply leaves_bind with (P := fun j => j <> i); [destruct f; [apply leaves_alloc; split; auto|apply leaves_ret; auto]|]. intros arg Narg.
        eapply leaves_bind; [apply leaves_unify; auto|]. intros _ _. eapply leaves_bind; [apply leaves_alloc; split; auto|]. intros fi Nfi.
        eapply leaves_bind; [apply leaves_unify; auto|]. intros _ _. eapply leaves_bind; [apply IHe; auto|]. intros b' _. apply leaves_ret; auto.
      - eapply leaves_bind; [apply IHe; auto|]. intros e' _. apply leaves_ret; auto.
      - apply leaves_ret; auto.
    Qed.
  End Names.
End Iso.

Definition idxs_ok (u : uni) (l : list (sym * idx)) : Prop :=
  Forall (fun s => s = Infer) (slots u) /\ pending u = [] /\ NoDup (map snd l) /\ Forall (fun p => snd p < length (slots u)) l.
Lemma init_idxs D xs : forall u l, idxs_ok u l -> let s := fold_left (init_step D) xs (u, l) in idxs_ok (fst s) (snd s).
Proof.
  induction xs as [|x xs IH]; intros u l H; cbn [fold_left]; auto.
  assert (H1 : idxs_ok (fst (init_step D (u, l) x)) (snd (init_step D (u, l) x))).
  { unfold init_step. destruct (is_infer (assoc x D)); auto. destruct (assoc x l); auto. cbn. destruct H as (A & B & C & E).
    repeat split; cbn; auto.
    - apply Forall_app. auto.
    - constructor; auto. intros Hi. apply in_map_iff in Hi as (p & Ep & Hp). rewrite Forall_forall in E. specialize (E _ Hp). lia.
    - rewrite app_length. cbn. constructor; [cbn; lia|]. eapply Forall_impl; [|exact E]. cbn. lia. }
  destruct (init_step D (u, l) x) as [u1 l1]. apply IH. auto.
Qed.
Lemma init_iso D xs u l x i : init_types D xs = (u, l) -> assoc x l = Some i -> iso i u /\ forall y, y <> x -> assoc y l <> Some i.
Proof.
  intros E Hx. pose proof (@init_idxs D xs new_uni []) as K. cbn zeta in K. unfold init_types in E. rewrite E in K. cbn [fst snd] in K.
  destruct K as (A & B & C & F); [repeat split; constructor|]. apply assoc_in in Hx. split.
  - assert (L : i < length (slots u)) by (rewrite Forall_forall in F; apply (F _ Hx)). split; [|split].
    + destruct (nth_error (slots u) i) as [s|] eqn:Es; [|apply nth_error_None in Es; lia]. rewrite Forall_forall in A.
      rewrite (A _ (nth_error_In _ _ Es)). auto.
    + eapply Forall_impl; [|exact A]. intros s ->. exact I.
    + rewrite B. constructor.
  - intros y Ny Hy. apply assoc_in in Hy. apply Ny. clear - C Hx Hy. induction l as [|[z j] l IH]; [destruct Hx|]. inversion C as [|? ? C1 C2]; subst.
    destruct Hx as [Hx|Hx], Hy as [Hy|Hy]; auto; [congruence|..]; exfalso; apply C1; apply in_map_iff.
    + injection Hx as -> ->. exists (y, i). auto.
    + injection Hy as -> ->. exists (x, i). auto.
Qed.
Lemma iso_final_type i k u t : iso i u -> final k u i = Done t -> t = IrInfer.
Proof.
  intros (A & _ & B) E. assert (G : get u i = Some Infer).
  { unfold get. destruct (assoc i (pending u)) as [s|] eqn:Es; auto. apply assoc_in in Es. rewrite Forall_forall in B. destruct (B _ Es) as [Q _]. cbn in Q. congruence. }
  unfold final in E. destruct k as [|k]; cbn [to_ir] in E; [discriminate|]. apply obind_inv in E as (n & En & E). unfold normalize in En.
  apply obind_inv in En as (j & Ej & En). destruct k as [|k]; cbn [final_idx] in Ej; [discriminate|]. rewrite G in Ej. injection Ej as <-. rewrite G in En.
  injection En as <-. injection E as <-. auto.
Qed.
Lemma rscoped_avoids K x : forall e B, ~ In x (map fst (expr_defs e)) -> ~ In x B -> rscoped K B e = true -> avoids x e.
Proof.
  induction e using rexpr_ind'; intros B ND NB R; cbn [rscoped avoids expr_defs] in *;
    repeat match goal with H : _ && _ = true |- _ => apply andb_true_iff in H as [] end; rewrite ?map_app, ?in_app_iff in ND; auto.
  - intros ->. apply NB, mem_In. auto.
  - split; eauto.
  - split; eauto.
  - split; eauto.
  - cbn [map fst In] in ND. rewrite !map_app, !in_app_iff in ND. split; [tauto|]. split; [eapply IHe1; eauto; tauto|].
    apply (IHe2 (s :: B)); auto; [tauto|]. intros [Q|Q]; tauto.
  - split; [eapply IHe; eauto|]. assert (N2 : ~ In x (map fst (flat_map (fun c => map (fun x => (x, DValue [] IrInfer)) (snd (fst c)) ++ expr_defs (snd c)) cs))) by tauto.
    match goal with Q : forallb _ _ = true |- _ => revert Q end. clear ND. induction H as [|[p b] cs Hb _ IH]; intros Q; auto.
    cbn [forallb flat_map fst snd] in *. apply andb_true_iff in Q as [Q1 Q2]. apply andb_true_iff in Q1 as [_ Q1]. rewrite !map_app, !in_app_iff, map_map in N2. cbn [fst] in N2.
    rewrite map_id in N2. split; [|apply IH; auto]. split.
    + apply Forall_forall. intros y Hy ->. tauto.
    + apply (Hb (snd p ++ B)); auto. rewrite in_app_iff. tauto.
  - split; [eapply IHe1; eauto|]. split; [eapply IHe2; eauto|eapply IHe3; eauto].
  - cbn in ND. split; [tauto|]. apply (IHe (x0 :: B)); auto. intros [Q|Q]; tauto.
  - eauto.
Qed.
Theorem unannotated_unknown k G x e body types ok : avoids x e -> type_check k G x None e = Done (body, types, ok) -> assoc x types = Some IrInfer.
Proof.
  intros Av E. unfold type_check in E. cbn [ann_def ann_vars app instantiate] in E.
  set (D := (x, DValue [] IrInfer) :: expr_defs e ++ G) in *. destruct (init_types D _) as [u0 l] eqn:Hi. destruct (fresh_var u0) as [u1 ex] eqn:Hf.
  assert (Ax : assoc x D = Some (DValue [] IrInfer)) by (unfold D; cbn; rewrite Nat.eqb_refl; auto).
  destruct (assoc x l) as [i|] eqn:El.
  2: { destruct (init_types_ok _ _ Hi) as [_ K]. exfalso. apply (K x); auto; [|rewrite Ax; auto]. apply in_or_app. right. left. auto. }
  destruct (@init_iso _ _ _ _ x i Hi El) as [I0 Hne].
  apply obind_inv in E as ([[ie ok'] u] & Ec & E). apply obind_inv in E as (body' & Eb & E). apply obind_inv in E as (m & Em & E).
  apply obind_inv in E as (tys & Et & E). injection E as _ -> _.
  destruct (@iso_push i u0 Infer u1 ex I0 Logic.I Hf) as [I1 Nex].
  assert (HS : forall y, y <> x -> symbol_type D l y <> Some (NInfer i)).
  { intros y Ny Q. apply infer_in in Q. apply (Hne y Ny Q). }
  destruct (@leaves_check i (symbol_type D l) (ctor_def D) k x HS e ex Av Nex _ _ _ _ I1 Ec) as [I2 _].
  apply omap_spec in Et. clear - Et I2 El. induction Et as [|[y j] q l tys Eq _ IH]; [discriminate|].
  apply obind_inv in Eq as (t & Ef & Eq). injection Eq as <-. cbn in *. destruct (Nat.eqb y x); [|auto]. injection El as ->.
  rewrite (iso_final_type _ I2 Ef). auto.
Qed.
