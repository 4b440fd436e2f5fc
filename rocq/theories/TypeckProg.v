(** Typed programs do not go wrong. *)
From Verif Require Import VerifyState GenFacts GenSpec SrcBig.
From Verif Require Export TypeckSafe.
Set Implicit Arguments.

Lemma NoDup_app_iff A (a b : list A) : NoDup (a ++ b) <-> NoDup a /\ NoDup b /\ (forall x, In x a -> ~ In x b).
Proof.
  induction a as [|x a IH]; cbn.
  - split; [intros H; split; [constructor|split; auto]|tauto].
  - rewrite !NoDup_cons_iff, IH, in_app_iff. split.
    + intros (H1 & H2 & H3 & H4). split; [tauto|]. split; auto. intros y [<-|Hy]; [tauto|auto].
    + intros ((H1 & H2) & H3 & H4). split; [intros [H|H]; [tauto|apply (H4 x); auto]|]. split; auto.
Qed.
Lemma nodup_flat_map A (f g : A -> list sym) l : (forall i, In i l -> NoDup (f i) -> NoDup (g i)) -> (forall i, incl (g i) (f i)) ->
  NoDup (flat_map f l) -> NoDup (flat_map g l).
Proof.
  intros Hn Hi. induction l as [|a l IH]; cbn; auto. intros H. apply NoDup_app_iff in H as (H1 & H2 & H3). apply NoDup_app_iff.
  split; [apply Hn; cbn; auto|]. split; [apply IH; auto; intros; apply Hn; cbn; auto|]. intros x Hx Hy.
  apply (H3 x); [apply Hi, Hx|]. apply in_flat_map in Hy as (i & Hl & Hy). apply in_flat_map. exists i. split; auto. apply Hi. auto.
Qed.
Lemma assoc_nodup A x (a : A) l : NoDup (map fst l) -> In (x, a) l -> assoc x l = Some a.
Proof.
  induction l as [|[y b] l IH]; cbn; [tauto|]. intros H [E|E]; inversion H; subst.
  - injection E as -> ->. rewrite Nat.eqb_refl. auto.
  - destruct (Nat.eqb_spec y x) as [->|N]; auto. exfalso. match goal with K : ~ In _ _ |- _ => apply K end. apply in_map_iff. exists (x, a). auto.
Qed.
Lemma lookup_nodup A x (a : A) l : NoDup (map fst l) -> In (x, a) l -> lookup x l = Some a.
Proof.
  induction l as [|[y b] l IH]; cbn; [tauto|]. intros H [E|E]; inversion H; subst.
  - injection E as -> ->. rewrite Nat.eqb_refl. auto.
  - destruct (Nat.eqb_spec x y) as [->|N]; auto. exfalso. match goal with K : ~ In _ _ |- _ => apply K end. apply in_map_iff. exists (y, a). auto.
Qed.
Lemma map_flat_map A B D (f : A -> list B) (g : B -> D) l : map g (flat_map f l) = flat_map (fun a => map g (f a)) l.
Proof. induction l; cbn; auto. rewrite map_app. congruence. Qed.

Section Prog.
  Variable is : list item.
  Hypothesis HP : program_typed is.
  Notation tys := (types_of is).
  Notation T := (is_type tys).
  Notation C := (fun c => assoc c (ctors_of is)).

  Lemma decls_keys : NoDup (map fst (decls_of is)).
  Proof.
    unfold decls_of. rewrite map_flat_map. apply (@nodup_flat_map _ item_syms); [| |apply (pt_syms HP)].
    - intros [s ps cases|x vars t ex b|m] _; cbn; try (intros; constructor; auto; fail).
      + rewrite map_map. cbn. intros H. inversion H. auto.
      + intros _. repeat constructor. tauto.
    - intros [s ps cases|x vars t ex b|m]; cbn; try rewrite map_map; intros y Hy; cbn in *; auto. destruct Hy as [<-|[]]. destruct b; cbn; auto.
  Qed.
  Lemma ctors_keys : NoDup (map fst (ctors_of is)).
  Proof.
    unfold ctors_of. rewrite map_flat_map. apply (@nodup_flat_map _ item_syms); [| |apply (pt_syms HP)].
    - intros [s ps cases|x vars t ex b|m] _; cbn; try (intros; constructor; auto; fail).
      rewrite map_map. cbn. intros H. inversion H. auto.
    - intros [s ps cases|x vars t ex b|m]; cbn; try rewrite map_map; intros y Hy; cbn in *; auto. tauto.
  Qed.
  Lemma types_keys : NoDup (map fst tys).
  Proof.
    unfold types_of. rewrite map_flat_map. apply (@nodup_flat_map _ item_syms); [| |apply (pt_syms HP)].
    - intros [s ps cases|x vars t ex b|m] _; cbn; try (intros; constructor; auto; fail). intros _. repeat constructor. tauto.
    - intros [s ps cases|x vars t ex b|m]; cbn; intros y Hy; cbn in *; auto; [|tauto]. destruct Hy as [<-|[]]. auto.
  Qed.
  Lemma case_keys s ps cases : In (ITy s ps cases) is -> NoDup (map fst cases).
  Proof.
    intros H. pose proof (pt_syms HP) as N. unfold syms in N. apply in_split in H as (a & b & ->). rewrite flat_map_app in N.
    apply NoDup_app_iff in N as (_ & N & _). cbn in N. apply NoDup_cons_iff in N as [_ N]. apply NoDup_app_iff in N as (N & _ & _). auto.
  Qed.
  Lemma type_in s ps cases : In (ITy s ps cases) is -> lookup s tys = Some (map (fun c => (fst c, map is_rec_field (snd c))) cases).
  Proof. intros H. apply lookup_nodup; [apply types_keys|]. apply in_flat_map. exists (ITy s ps cases). cbn. auto. Qed.
  Lemma item_ok i : In i is -> item_typed is i.
  Proof. intros H. pose proof (pt_items HP) as F. rewrite Forall_forall in F. auto. Qed.

  Lemma ctors_ok c d : assoc c (ctors_of is) = Some d -> ctor_ok tys c d.
  Proof.
    intros H. apply assoc_in in H. apply in_flat_map in H as (i & Hi & H). destruct i as [s ps cases|x vars t ex b|m]; try (cbn in H; tauto).
    apply in_map_iff in H as ([c' fs] & E & Hc). cbn [fst snd] in E. injection E as -> <-.
    destruct (item_ok _ Hi) as (N & A & F). destruct (F _ _ Hc) as [L K]. constructor; cbn [dc_type dc_vars dc_fields].
    - rewrite (@type_in _ _ _ Hi). eexists. split; [reflexivity|].
      assert (E : map (fun f : option irty => match f with None => true | Some _ => false end) (map (option_map irty_of) fs) = map is_rec_field fs)
        by (rewrite map_map; apply map_ext; intros []; reflexivity).
      rewrite E. apply lookup_nodup.
      + rewrite map_map. cbn. apply (@case_keys _ _ _ Hi).
      + apply in_map_iff. exists (c, fs). auto.
    - rewrite map_length. auto.
    - rewrite Forall_map. eapply Forall_impl; [|exact K]. intros [t|]; auto.
    - auto.
  Qed.

  Variable o : order.
  Notation vt := (vt tys C).
  Notation gt := (gt tys).
  Definition genv_ok (B : list sym) (en : senv) : Prop :=
    forall y, In y B -> exists v s, lookup y en = Some v /\ assoc y (decls_of is) = Some s /\ forall sg h, at_type tys sg s h -> vt v h.
  Lemma genv_cons B en x v s : genv_ok B en -> assoc x (decls_of is) = Some s -> (forall sg h, at_type tys sg s h -> vt v h) ->
    genv_ok (x :: B) ((x, v) :: en).
  Proof.
    intros E Gx V y Hy. cbn [lookup]. destruct (Nat.eqb_spec y x) as [->|N]; [eauto|]. destruct Hy as [->|Hy]; [congruence|]. auto.
  Qed.

  Lemma gt_whole sg s ps gs : NoDup ps -> apart T ps -> T s = true -> length gs = length ps ->
    gt (upd sg ps gs) (scheme [] (IrNamed s (map (fun p => IrNamed p []) ps))) = GData s gs.
  Proof.
    intros N A Ts L. cbn [scheme assoc]. rewrite map_map. rewrite gt_fold, map_map. cbn [scheme assoc map fold_left gt]. rewrite Ts, gapp_data. f_equal. cbn.
    assert (K : forall sg' ps', incl ps' ps -> map (fun x : nat => if T x then GData x [] else sg' x) ps' = map sg' ps').
    { intros sg' ps' I. apply map_ext_in. intros a Ha. unfold apart in A. rewrite Forall_forall in A. rewrite (A a); auto. }
    rewrite (K _ ps) by apply incl_refl. clear - N L. revert gs L. induction N as [|p ps Hp N IH]; intros [|g gs] L; try discriminate; auto.
    cbn [map]. f_equal; [unfold upd; cbn; rewrite Nat.eqb_refl; auto|]. injection L as L. rewrite <- (IH _ L) at 2. apply map_ext_in.
    intros a Ha. unfold upd. cbn. destruct (Nat.eqb_spec p a); [congruence|auto].
  Qed.
  Lemma gt_ctor sg s ps cases c fs gs : In (ITy s ps cases) is -> In (c, fs) cases -> length gs = length ps ->
    gt (upd sg ps gs) (scheme [] (ctor_fn_ty s ps (map (option_map irty_of) fs))) =
    arrow (map (fg tys (GData s gs) ps gs) (map (option_map irty_of) fs)) (GData s gs).
  Proof.
    intros Hi Hc L. destruct (item_ok _ Hi) as (N & A & F). destruct (F _ _ Hc) as [_ K].
    assert (Ts : T s = true) by (unfold is_type; rewrite (@type_in _ _ _ Hi); auto).
    clear F Hc. unfold ctor_fn_ty. induction K as [|f fs Hf K IH].
    - cbn [fold_right map arrow]. apply gt_whole; auto.
    - cbn [map fold_right arrow scheme]. change (gt ?s (TNode NFn ?a ?b)) with (GFn (gt s a) (gt s b)). rewrite IH. f_equal.
      destruct f as [t|]; cbn [option_map fg]; [apply closed_ext; auto|apply gt_whole; auto].
  Qed.

  Lemma decl_closed y s : assoc y (decls_of is) = Some s -> exists vars ty, s = Poly vars ty /\ closed T vars ty /\ apart T vars.
  Proof.
    intros H. apply assoc_in in H. apply in_flat_map in H as (i & Hi & H). pose proof (item_ok _ Hi) as K.
    destruct i as [x ps cases|x vars t ex b|m]; try (cbn in H; tauto).
    - apply in_map_iff in H as ([c fs] & E & Hc). cbn [fst snd] in E. injection E as -> <-. destruct K as (N & A & F).
      exists ps. eexists. split; [reflexivity|]. split; auto. destruct (F _ _ Hc) as [_ Q].
      assert (Ts : T x = true) by (unfold is_type; rewrite (@type_in _ _ _ Hi); auto).
      assert (W : closed T ps (IrNamed x (map (fun p => IrNamed p []) ps))).
      { split.
        - cbn. apply forallb_forall. intros t Ht. apply in_map_iff in Ht as (p & <- & _). auto.
        - intros s Hs. cbn in Hs. destruct Hs as [->|Hs]; auto. apply in_flat_map in Hs as (t & Ht & Hs). apply in_map_iff in Ht as (p & <- & Hp).
          cbn in Hs. destruct Hs as [->|[]]. auto. }
      clear F Hc. unfold ctor_fn_ty. induction Q as [|f fs Hf Q IH]; [exact W|]. cbn [map fold_right].
      assert (Z : closed T ps match option_map irty_of f with Some a => a | None => IrNamed x (map (fun p => IrNamed p []) ps) end)
        by (destruct f; auto).
      destruct Z as [Z1 Z2].
      destruct IH as [W1 W2].
      split; [cbn [written]; rewrite Z1, W1; auto|]. intros s Hs. cbn [tnames] in Hs. apply in_app_or in Hs as [Hs|Hs]; auto.
    - cbn in H. destruct H as [E|[]]. injection E as -> <-. destruct K as (K1 & K2 & _). eauto.
  Qed.
  Lemma no_escape_app G B : context_ok is G -> (forall y, In y B -> exists s, assoc y (decls_of is) = Some s) ->
    forall e t L, has G C T e t -> no_escape G L e -> no_escape G (L ++ B) e.
  Proof.
    intros [G1 G2] HB. induction e using sexpr_ind'; intros T' L HT HE; cbn [has no_escape] in *; auto.
    - destruct HT as (? & ? & ?). destruct HE. eauto.
    - destruct HT as (? & ? & ?). destruct HE. eauto.
    - destruct HT as (? & ? & ?). destruct HE. eauto.
    - destruct HT as (s & Gx & -> & Hv & He). destruct HE as (N & N1 & N2). split; [|split; [eapply IHe1; eauto|apply (IHe2 T' (x :: L)); auto]].
      intros v y s' Hv' Hy Gy. apply in_app_or in Hy as [Hy|Hy]; [eauto|]. destruct (HB _ Hy) as (s2 & E2). rewrite (G1 _ _ E2) in Gy. injection Gy as <-.
      destruct (@decl_closed _ _ E2) as (vars & ty & -> & [_ Hc] & _). cbn. intros [F1 F2]. destruct (Hc _ F1) as [Hi|Hi]; [auto|].
      destruct s as [t0|vars0 ty0]; [destruct Hv'|]. cbn in Hv'. destruct (G2 _ _ _ Gx) as [_ A]. unfold apart in A. rewrite Forall_forall in A.
      rewrite (A _ Hv') in Hi. discriminate.
    - destruct HT as (s & ts & rec & Ts & Hd & _ & _ & Hcs). destruct HE as [N1 N2]. split; [eauto|].
      match goal with H : Forall _ cs |- _ => induction H as [|[p b] cs Hb _ IHc] end; auto. destruct Hcs as ((_ & Hc1) & Hc2). destruct N2 as [N2 N3].
      split; [|apply IHc; auto]. rewrite app_assoc. eapply Hb; eauto.
    - destruct HT as (? & ? & ?). destruct HE as (? & ? & ?). repeat split; eauto.
    - destruct HT as (a & r & -> & Gx & Hh & Hb). apply (IHe r (x :: L)); auto.
    - destruct HT as (a & r & -> & Gx & Hb). apply (IHe r (x :: L)); auto.
    - eauto.
  Qed.

  Definition rok (A : Type) (r : res A) (P : A -> Prop) : Prop := match r with Ok a => P a | Panic => False | _ => True end.

  Lemma run_ctors s ps cases0 : In (ITy s ps cases0) is -> forall cases B en, incl cases cases0 -> genv_ok B en ->
    genv_ok (map fst cases ++ B)
      (fold_left (fun en c => (fst c, match snd c with [] => WCon false (fst c) [] | fs => WCtor (fst c) (length fs) [] end) :: en) cases en).
  Proof.
    intros Hi. induction cases as [|[c fs] cases IH]; intros B en I E; auto. cbn [map fold_left app fst snd].
    assert (Hc : In (c, fs) cases0) by (apply I; cbn; auto).
    assert (K : genv_ok (map fst cases ++ c :: B)
      (fold_left (fun en c => (fst c, match snd c with [] => WCon false (fst c) [] | fs => WCtor (fst c) (length fs) [] end) :: en) cases
        ((c, match fs with [] => WCon false c [] | y :: l => WCtor c (length (y :: l)) [] end) :: en))).
    { apply IH; [intros x Hx; apply I; cbn; auto|].
      set (d := mkDctor s ps (map (option_map irty_of) fs)).
      assert (Ec : assoc c (ctors_of is) = Some d).
      { apply assoc_nodup; [apply ctors_keys|]. apply in_flat_map. exists (ITy s ps cases0). split; auto. apply in_map_iff. exists (c, fs). auto. }
      eapply genv_cons; [auto| |].
      - apply assoc_nodup; [apply decls_keys|]. apply in_flat_map. exists (ITy s ps cases0). split; auto. apply in_map_iff. exists (c, fs). split; auto.
      - cbn [fst snd at_type]. intros sg h (gs & L & ->). rewrite (@gt_ctor sg s ps cases0 c fs gs Hi Hc L).
        destruct fs as [|f fs].
        + eapply (@vt_con _ _ false c [] d gs (GData s gs)); eauto. intros [|j] ? ?; discriminate.
        + eapply (@vt_ctor _ _ c _ [] d gs); eauto.
          * cbn. rewrite map_length. auto.
          * cbn. lia.
          * intros [|j] ? ? ? ?; discriminate. }
    intros y Hy. apply K. destruct Hy as [->|Hy]; apply in_or_app; [right; left; auto|].
    apply in_app_or in Hy as [Hy|Hy]; [auto|right; right; auto].
  Qed.
  Lemma builtin_ok b vars t sg gs : builtin_type b vars t -> apart T vars -> length gs = length vars ->
    vt (match b with BIterate => WIter [] | BStr i => WOp i [] end) (gt (upd sg vars gs) (scheme [] t)).
  Proof.
    intros H A L. destruct b as [|i]; cbn in H.
    - destruct H as (a & -> & ->). destruct gs as [|g [|? ?]]; try discriminate. unfold apart in A. rewrite Forall_forall in A. specialize (A a (or_introl eq_refl)).
      eapply (@vt_iter _ _ g []).
      + cbn. lia.
      + intros [|j] ? ? ? ?; discriminate.
      + cbn. rewrite A. unfold upd. cbn. rewrite Nat.eqb_refl. auto.
    - eapply (@vt_op _ _ i []); [destruct i; cbn; lia| |].
      + intros [|j] ? ? ? ?; discriminate.
      + destruct i; subst t; reflexivity.
  Qed.
  Lemma value_ok fuel x vars t ex e B en : In (IVal x vars t ex (inr e)) is -> sscoped B e = true -> genv_ok B en ->
    rok (seval o tys (sapply o tys fuel) en e) (fun v => forall sg h, at_type tys sg (Poly vars (irty_of t)) h -> vt v h).
  Proof.
    intros Hi Sc EN. destruct (item_ok _ Hi) as (Cl & A & G & [G1 G2] & Hb & NE).
    assert (HB : forall y, In y B -> exists s, assoc y (decls_of is) = Some s) by (intros y Hy; destruct (EN y Hy) as (v & s & _ & E & _); eauto).
    assert (NB := @no_escape_app G B (conj G1 G2) HB _ _ [] Hb NE). cbn [app] in NB.
    assert (X : forall sg h, at_type tys sg (Poly vars (irty_of t)) h -> okres tys C (seval o tys (sapply o tys fuel) en e) h).
    { intros sg h (gs & L & ->).
      apply (@seval_ok o tys C ctors_ok (sapply o tys fuel) (proj1 (@apply_ok o tys C ctors_ok fuel)) e G (upd sg vars gs) B en); auto.
      intros y Hy. destruct (EN y Hy) as (v & s & E1 & E2 & V). exists v, s. split; auto. split; auto. apply V. }
    destruct (seval o tys (sapply o tys fuel) en e) as [v| | |]; cbn in *; auto.
    apply (X (fun _ => GInt) (gt (upd (fun _ => GInt) vars (map (fun _ => GInt) vars)) (scheme [] (irty_of t)))).
    eexists. split; [|reflexivity]. apply map_length.
  Qed.

  Lemma srun_ok fuel rest : forall B en, (forall i, In i rest -> In i is) -> Forall (fun i => match i with IImport _ => False | _ => True end) rest ->
    module_scoped B rest = true -> genv_ok B en ->
    rok (srun o tys fuel en rest) (fun en' => genv_ok (values rest ++ B) en').
  Proof.
    induction rest as [|i rest IH]; intros B en Hin Hb Sc EN; cbn [srun]; [exact EN|].
    cbn [module_scoped] in Sc. apply andb_true_iff in Sc as [Sc1 Sc2].
    inversion Hb as [|? ? Hb1 Hb2]; subst.
    assert (X : rok (srun_item o tys fuel en i) (fun en' => genv_ok (usable i ++ B) en')).
    { destruct i as [s ps cases|x vars t ex body|m]; [| |tauto].
      - cbn [srun_item rok usable own_values]. eapply run_ctors; [apply Hin; cbn; auto|apply incl_refl|auto].
      - assert (Hx : In (IVal x vars t ex body) is) by (apply Hin; cbn; auto).
        assert (D : assoc x (decls_of is) = Some (Poly vars (irty_of t))).
        { apply assoc_nodup; [apply decls_keys|]. apply in_flat_map. exists (IVal x vars t ex body). cbn. auto. }
        cbn [srun_item usable own_values app]. destruct body as [b|e].
        + destruct (item_ok _ Hx) as (Cl & A & Bt).
          assert (V : forall sg h, at_type tys sg (Poly vars (irty_of t)) h -> vt (match b with BIterate => WIter [] | BStr i => WOp i [] end) h).
          { intros sg h (gs & L & ->). apply builtin_ok; auto. }
          destruct b; cbn [Eval.bind rok]; eapply genv_cons; eauto.
        + pose proof (@value_ok fuel _ _ _ _ _ B en Hx Sc1 EN) as V.
          destruct (seval o tys (sapply o tys fuel) en e) as [v| | |]; cbn [Eval.bind rok] in *; auto. eapply genv_cons; eauto. }
    destruct (srun_item o tys fuel en i) as [en'| | |]; cbn [Eval.bind rok] in *; auto.
    specialize (IH (usable i ++ B) en' (fun j Hj => Hin j (or_intror Hj)) Hb2 Sc2 X).
    destruct (srun o tys fuel en' rest) as [en''| | |]; cbn [rok] in *; auto.
    intros y Hy. apply IH. unfold values in *. cbn [flat_map] in Hy.
    assert (E : usable i = own_values i) by (destruct i; auto; tauto). rewrite E. repeat rewrite in_app_iff in *. tauto.
  Qed.

  Theorem program_safe fuel : Forall (fun i => match i with IImport _ => False | _ => True end) is ->
    match srun o tys fuel [] is with
    | Ok en => forall x vars t ex body, In (IVal x vars t ex body) is -> exists v, lookup x en = Some v /\ shaped is t v
    | Panic => False
    | Trap _ | OutOfFuel => True
    end.
  Proof.
    intros Hb. pose proof (@srun_ok fuel is [] [] (fun i H => H) Hb (pt_scoped HP) (fun y H => match H with end)) as R.
    destruct (srun o tys fuel [] is) as [en| | |]; cbn [rok] in *; auto.
    intros x vars t ex body Hi. destruct (R x) as (v & s & Lv & D & V).
    { apply in_or_app. left. apply in_flat_map. exists (IVal x vars t ex body). cbn. auto. }
    assert (D' : assoc x (decls_of is) = Some (Poly vars (irty_of t))).
    { apply assoc_nodup; [apply decls_keys|]. apply in_flat_map. exists (IVal x vars t ex body). cbn. auto. }
    rewrite D in D'. injection D' as ->. exists v. split; auto.
    destruct (item_ok _ Hi) as (_ & A & _).
    assert (Vg : vt v (gt (upd (fun _ => GInt) vars (map (fun _ => GInt) vars)) (scheme [] (irty_of t)))).
    { apply (V (fun _ => GInt)). eexists. split; [|reflexivity]. apply map_length. }
    destruct t as [| | |y args|a b| | |a b]; cbn [shaped]; auto.
    - apply (int_val Vg).
    - apply (bool_val Vg).
    - apply (str_val Vg).
    - intros Ty. cbn [irty_of scheme assoc] in Vg. fold (data y (map (scheme []) (map irty_of args))) in Vg. rewrite gt_data in Vg by auto.
      destruct (con_val Vg) as (c & fs & d & -> & E1 & E2 & _ & E3 & _). exists c, fs, d. auto.
    - apply (fn_is_fun Vg).
  Qed.
End Prog.
