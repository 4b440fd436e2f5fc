(** Accepted programs are typed. *)
From Verif Require Import GenFacts VerifyState.
From Verif Require Export TypeckShape TypeckProg.
Set Implicit Arguments.

Lemma irty_sty t : irty_of (sty_of t) = t.
Proof.
  induction t as [| | |s args IH|a b IHa IHb| | |a b IHa IHb] using irty_ind'; cbn; auto; try congruence.
  f_equal. rewrite map_map. induction IH as [|t args Ht _ IH]; cbn; auto. congruence.
Qed.
Lemma fields_sty (fs : list (option irty)) : map (option_map irty_of) (map (option_map sty_of) fs) = fs.
Proof. rewrite map_map. induction fs as [|[t|] fs IH]; cbn; auto; rewrite IH; auto. rewrite irty_sty. auto. Qed.

(** ** The unknowns of the local names *)
Definition init_inv (D : defset) (u : uni) (l : list (sym * idx)) : Prop :=
  good u /\ (forall x i, In (x, i) l -> i < length (slots u) /\ is_infer (assoc x D) = true).
Lemma fresh_eq u : cfresh u = Done (snd (fresh_var u), true, fst (fresh_var u)).
Proof. reflexivity. Qed.
Lemma init_step_inv D u l x : init_inv D u l -> init_inv D (fst (init_step D (u, l) x)) (snd (init_step D (u, l) x)) /\
  (is_infer (assoc x D) = true -> assoc x (snd (init_step D (u, l) x)) <> None) /\
  (forall y, assoc y l <> None -> assoc y (snd (init_step D (u, l) x)) <> None).
Proof.
  intros [G I]. unfold init_step. destruct (is_infer (assoc x D)) eqn:E; [|split; [split; auto|split; [discriminate|auto]]].
  destruct (assoc x l) eqn:El; [split; [split; auto|split; [intros _; cbn [snd]; rewrite El; discriminate|auto]]|].
  destruct (fresh_var u) as [u' i] eqn:Ef. assert (Ec : cfresh u = Done (i, true, u')) by (unfold cfresh; rewrite Ef; auto).
  destruct (fresh_good G Ec) as (G' & [Le _] & Li). cbn [fst snd]. split; [|split].
  - split; auto. intros y j [H|H]; [injection H as <- <-; auto|]. destruct (I _ _ H). split; auto. lia.
  - cbn. rewrite Nat.eqb_refl. discriminate.
  - intros y Hy. cbn. destruct (Nat.eqb x y); [discriminate|auto].
Qed.
Lemma init_fold D xs : forall u l, init_inv D u l ->
  init_inv D (fst (fold_left (init_step D) xs (u, l))) (snd (fold_left (init_step D) xs (u, l))) /\
  (forall x, In x xs \/ assoc x l <> None -> is_infer (assoc x D) = true -> assoc x (snd (fold_left (init_step D) xs (u, l))) <> None).
Proof.
  induction xs as [|x xs IH]; intros u l H; cbn [fold_left].
  - split; auto. intros x [[]|Hx] _; auto.
  - destruct (init_step_inv x H) as (A & B & C). destruct (init_step D (u, l) x) as [u1 l1]. cbn [fst snd] in *.
    destruct (IH u1 l1 A) as [E F]. split; auto. intros y [[->|Hy]|Hy] Hi; apply F; auto.
Qed.
Lemma new_good : good new_uni.
Proof. split; [constructor|]. intros i t R. inversion R; subst; destruct i; discriminate. Qed.
Lemma init_types_ok D xs u l : init_types D xs = (u, l) -> init_inv D u l /\
  forall x, In x xs -> is_infer (assoc x D) = true -> assoc x l <> None.
Proof.
  unfold init_types. intros E. destruct (@init_fold D xs new_uni []) as [A B].
  - split; [apply new_good|]. intros x i [].
  - rewrite E in *. cbn in *. split; auto.
Qed.

(** ** Scopes *)
Lemma rscoped_sscoped K : forall e B s, rscoped K B e = true -> sshape e s -> sscoped B s = true.
Proof.
  induction e using rexpr_ind'; intros B se R I; destruct se; cbn [sshape] in I; try contradiction; cbn [rscoped sscoped] in *;
    repeat match goal with H : _ && _ = true |- _ => apply andb_true_iff in H as [] end; auto.
  - subst. auto.
  - destruct I. rewrite IHe1, IHe2; auto.
  - destruct I as (? & ? & ?). rewrite IHe1, IHe2; auto.
  - destruct I. rewrite IHe1, IHe2; auto.
  - destruct I as (-> & ? & ?). rewrite IHe1, IHe2; auto.
  - destruct I as [I1 I2]. rewrite IHe; auto. cbn [andb]. rename H1 into Q. clear - H Q I2. revert cases I2.
    induction H as [|[p b] cs Hb _ IH]; intros [|[p' b'] cases] I2; try contradiction; auto.
    destruct I2 as [[<- I2] I3]. cbn [forallb fst snd] in *. apply andb_true_iff in Q as [Q1 Q2]. apply andb_true_iff in Q1 as [_ Q1].
    rewrite (Hb _ _ Q1 I2), IH; auto.
  - destruct I as (? & ? & ?). rewrite IHe1, IHe2, IHe3; auto.
  - destruct I as (_ & -> & ?). auto.
  - destruct I as (_ & -> & ?). auto.
Qed.
Notation cnt := (count_occ Nat.eq_dec).
Lemma binders_count x : forall e s, sshape e s -> cnt (sbinders s) x <= cnt (map fst (expr_defs e)) x.
Proof.
  induction e using rexpr_ind'; intros se I; destruct se; cbn [sshape] in I; try contradiction; cbn [expr_defs sbinders];
    rewrite ?map_app, ?count_occ_app; try (cbn; lia).
  - destruct I as [I1 I2]. specialize (IHe1 _ I1). specialize (IHe2 _ I2). lia.
  - destruct I as (_ & I1 & I2). specialize (IHe1 _ I1). specialize (IHe2 _ I2). lia.
  - destruct I as [I1 I2]. specialize (IHe1 _ I1). specialize (IHe2 _ I2). lia.
  - destruct I as (-> & I1 & I2). specialize (IHe1 _ I1). specialize (IHe2 _ I2). cbn [map fst].
    rewrite !map_app. cbn [count_occ]. rewrite !count_occ_app. destruct (Nat.eq_dec s0 x); lia.
  - destruct I as [I1 I2]. specialize (IHe _ I1).
    assert (K : cnt (flat_map (fun c => snd (fst c) ++ sbinders (snd c)) cases) x <=
                cnt (map fst (flat_map (fun c => map (fun x => (x, DValue [] IrInfer)) (snd (fst c)) ++ expr_defs (snd c)) cs)) x); [|lia].
    clear - H I2. revert cases I2. induction H as [|[p b] cs Hb _ IH]; intros [|[p' b'] cases] I2; try contradiction; auto.
    destruct I2 as [[<- I2] I3]. cbn [flat_map fst snd] in *. rewrite !map_app, !count_occ_app, map_map. cbn. rewrite map_id.
    specialize (Hb _ I2). specialize (IH _ I3). cbn in IH. lia.
  - destruct I as (I1 & I2 & I3). specialize (IHe1 _ I1). specialize (IHe2 _ I2). specialize (IHe3 _ I3). lia.
  - destruct I as (_ & -> & I). specialize (IHe _ I). cbn [map fst count_occ]. match goal with |- context [Nat.eq_dec ?a ?b] => destruct (Nat.eq_dec a b) end; lia.
  - destruct I as (_ & -> & I). specialize (IHe _ I). cbn [map fst count_occ]. match goal with |- context [Nat.eq_dec ?a ?b] => destruct (Nat.eq_dec a b) end; lia.
  - apply IHe; auto.
Qed.

(** ** Names of the checker *)
Lemma assoc_in A x (a : A) l : assoc x l = Some a -> In (x, a) l.
Proof. induction l as [|[y b] l IH]; cbn; [discriminate|]. destruct (Nat.eqb_spec y x) as [->|]; [intros H; injection H as ->; auto|auto]. Qed.
Lemma in_assoc A x (a : A) l : In (x, a) l -> exists b, assoc x l = Some b.
Proof. induction l as [|[y b] l IH]; cbn; [tauto|]. destruct (Nat.eqb_spec y x) as [->|]; [eauto|]. intros [H|H]; [congruence|auto]. Qed.
Lemma nodup_fun A (x : sym) (a b : A) (l : list (sym * A)) : NoDup (map fst l) -> In (x, a) l -> In (x, b) l -> a = b.
Proof. intros N Ha Hb. pose proof (@assoc_nodup _ x a l N Ha). pose proof (@assoc_nodup _ x b l N Hb). congruence. Qed.

Section Rok.
  Variable S_ : sym -> option nty.
  Variable C_ : sym -> option dctor.
  Variable D' : defset.
  Variable K : list sym.
  Hypothesis H1 : forall x vars t, In (x, DValue vars t) D' -> S_ x <> None.
  Hypothesis H2 : forall x, In (x, DValue [] IrInfer) D' -> exists i, S_ x = Some (NInfer i).
  Hypothesis HK : forall c, In c K -> C_ c <> None.
  Lemma rscoped_rok : forall e B, incl (expr_defs e) D' -> (forall y, In y B -> S_ y <> None) -> rscoped K B e = true -> TypeckSound.rok S_ C_ e.
  Proof.
    induction e using rexpr_ind'; intros B I HB R; cbn [rscoped TypeckSound.rok expr_defs] in *;
      repeat match goal with H : _ && _ = true |- _ => apply andb_true_iff in H as [] end;
      repeat match goal with
      | H : incl (_ ++ _) _ |- _ => apply incl_app_inv in H as [? ?]
      | H : incl (_ :: _) _ |- _ => apply incl_cons_inv in H as [? ?]
      end; auto.
    - apply HB. apply mem_In. auto.
    - split; eauto.
    - split; eauto.
    - split; eauto.
    - assert (Sx : S_ s <> None) by (destruct n as [[vars t]|]; cbn in *; eauto).
      split; auto. split; [eauto|]. apply (IHe2 (s :: B)); auto. intros y [<-|Hy]; auto.
    - split; [eauto|]. match goal with Q : forallb _ _ = true, J : incl (flat_map _ _) _ |- _ => revert Q J end. clear - H H1 H2 HK HB.
      induction H as [|[p b] cs Hb _ IH]; intros Q J; auto. cbn [forallb flat_map fst snd] in *. apply andb_true_iff in Q as [Q1 Q2].
      apply andb_true_iff in Q1 as [Q0 Q1]. apply incl_app_inv in J as [J1 J2]. apply incl_app_inv in J1 as [J0 J1].
      assert (F : Forall (fun x => exists i, S_ x = Some (NInfer i)) (snd p)).
      { apply Forall_forall. intros x Hx. apply H2, J0. apply in_map_iff. eauto. }
      split; [|apply IH; auto]. split; [apply HK, mem_In; auto|]. split; auto. apply (Hb (snd p ++ B)); auto.
      intros y Hy. apply in_app_or in Hy as [Hy|Hy]; auto. rewrite Forall_forall in F. destruct (F _ Hy) as [i ->]. discriminate.
    - repeat split; eauto.
    - split; auto. apply (IHe (x :: B)); auto. intros y [<-|Hy]; auto. destruct (H2 x) as [i ->]; auto. discriminate.
    - eauto.
  Qed.
End Rok.
