(** Programs that are typed by the rules of SrcTyping.v do not go wrong. *)
From Verif Require Import VerifyState GenFacts GenSpec SrcBig.
From Verif Require Export SrcTyping UnifyProofs UnifyFacts.
Set Implicit Arguments.

(** Types of values: no unknowns, no variables. *)
Inductive gty : Type :=
| GInt | GBool | GStr
| GFn (a b : gty)
| GData (s : sym) (args : list gty)
| GFolded (s : sym) (args : list gty) (r : gty).

Definition upd (sg : sym -> gty) (vars : list sym) (gs : list gty) : sym -> gty :=
  fun s => match assoc s (combine vars gs) with Some g => g | None => sg s end.
Fixpoint arrow (l : list gty) (r : gty) : gty := match l with [] => r | a :: l => GFn a (arrow l r) end.

Section Safe.
  Variable o : order.
  Variable tys : stypes.
  Variable C : sym -> option dctor.
  Notation isT := (is_type tys).

  Definition gapp (h b : gty) : gty := match h with GData s l => GData s (l ++ [b]) | g => g end.
  Definition gfold (h b : gty) : gty := match h with GData s l => GFolded s l b | g => g end.
  Fixpoint gt (sg : sym -> gty) (t : term) : gty :=
    match t with
    | TUnknown _ | TErr => GInt
    | TLeaf LInt => GInt
    | TLeaf LBool => GBool
    | TLeaf LString => GStr
    | TLeaf (LNamed s) => if isT s then GData s [] else sg s
    | TNode NApply a b => gapp (gt sg a) (gt sg b)
    | TNode NFn a b => GFn (gt sg a) (gt sg b)
    | TNode NFolded a b =>
      match head_of a with
      | Some s => if isT s then gfold (gt sg a) (gt sg b) else gt sg a
      | None => gt sg a
      end
    end.

  Lemma gt_fold sg ts h : gt sg (fold_left (TNode NApply) ts h) = fold_left gapp (map (gt sg) ts) (gt sg h).
  Proof. revert h. induction ts as [|t ts IH]; intros h; cbn; auto. rewrite IH. reflexivity. Qed.
  Lemma gapp_data gs s l : fold_left gapp gs (GData s l) = GData s (l ++ gs).
  Proof. revert l. induction gs as [|g gs IH]; intros l; cbn; [rewrite app_nil_r; auto|]. rewrite IH, <- app_assoc. auto. Qed.
  Lemma gt_data sg s ts : isT s = true -> gt sg (data s ts) = GData s (map (gt sg) ts).
  Proof. intros H. unfold data. rewrite gt_fold. cbn. rewrite H. apply gapp_data. Qed.
  Lemma head_data s ts : head_of (data s ts) = Some s.
  Proof.
    unfold data. assert (H : head_of (TLeaf (LNamed s)) = Some s) by auto. revert H. generalize (TLeaf (LNamed s)).
    induction ts as [|t ts IH]; intros h H; cbn; auto.
  Qed.
  Lemma head_gt sg a s : head_of a = Some s -> isT s = true -> exists l, gt sg a = GData s l.
  Proof.
    intros H T. induction a as [|l| |n a IHa b _]; try discriminate.
    - destruct l; try discriminate. injection H as ->. cbn. rewrite T. eauto.
    - destruct n; try discriminate. destruct (IHa H) as [l E]. cbn. rewrite E. eexists. reflexivity.
  Qed.
  Lemma assoc_combine_map A B (f : A -> B) s vars l :
    assoc s (combine vars (map f l)) = option_map f (assoc s (combine vars l)).
  Proof. revert l. induction vars as [|v vars IH]; intros [|a l]; cbn; auto. destruct (Nat.eqb v s); auto. Qed.
  Lemma assoc_combine_in A s vars (l : list A) a : assoc s (combine vars l) = Some a -> In s vars.
  Proof. intros H. apply assoc_in in H. apply in_combine_l in H. auto. Qed.

  Notation apart := (SrcTyping.apart isT).
  Notation closed := (SrcTyping.closed isT).
  Lemma gt_scheme sg vars ts ty : written ty = true -> apart vars ->
    gt sg (scheme (combine vars ts) ty) = gt (upd sg vars (map (gt sg) ts)) (scheme [] ty).
  Proof.
    intros W Hv. induction ty as [| | |s args IH|a b IHa IHb| | |a b IHa IHb] using irty_ind'; cbn [written] in W; try discriminate; auto.
    - cbn [scheme]. rewrite !gt_fold. cbn [assoc].
      assert (E1 : map (gt sg) (map (scheme (combine vars ts)) args) =
                   map (gt (upd sg vars (map (gt sg) ts))) (map (scheme []) args)).
      { clear - W IH. induction IH as [|a args Ha _ IHl]; cbn in *; auto. apply andb_true_iff in W as [W1 W2].
        rewrite Ha, IHl; auto. }
      rewrite E1. f_equal. cbn [gt]. unfold upd. rewrite assoc_combine_map.
      destruct (assoc s (combine vars ts)) as [t|] eqn:Es; cbn.
      + apply assoc_combine_in in Es. unfold SrcTyping.apart in Hv. rewrite Forall_forall in Hv. rewrite (Hv _ Es). reflexivity.
      + reflexivity.
    - apply andb_true_iff in W as [W1 W2]. cbn. rewrite IHa, IHb; auto.
  Qed.
  (** Only the variables that occur matter. *)
  Lemma gt_ext sg sg' t : (forall s, In s (term_names t) -> isT s = false -> sg s = sg' s) -> gt sg t = gt sg' t.
  Proof.
    induction t as [v|l| |n a IHa b IHb]; cbn; auto; intros H.
    - destruct l; auto. destruct (isT s) eqn:E; auto. apply H; cbn; auto.
    - rewrite IHa, IHb by (intros s Hs; apply H; apply in_or_app; auto). reflexivity.
  Qed.
  Lemma scheme_names t s : written t = true -> In s (term_names (scheme [] t)) -> In s (tnames t).
  Proof.
    induction t as [| | |s' args IH|a b IHa IHb| | |a b IHa IHb] using irty_ind'; cbn; auto; try discriminate.
    - intros W H.
      assert (K : forall l h, In s (term_names (fold_left (TNode NApply) l h)) -> In s (term_names h) \/ exists a, In a l /\ In s (term_names a)).
      { clear. induction l as [|a l IH]; intros h H; cbn in *; auto. apply IH in H as [H|(x & Hx & Hs)]; eauto.
        cbn in H. apply in_app_or in H as [H|H]; eauto. }
      apply K in H as [[->|[]]|(a & Ha & Hs)]; auto. right. apply in_map_iff in Ha as (t & <- & Ht). apply in_flat_map.
      exists t. split; auto. rewrite Forall_forall in IH. rewrite forallb_forall in W. auto.
    - intros W H. apply andb_true_iff in W as [W1 W2]. apply in_app_or in H as [H|H]; apply in_or_app; auto.
  Qed.

  (** The declared constructors. *)
  Record ctor_ok (c : sym) (d : dctor) : Prop := mkCtorOk {
    co_tbl : exists tbl, lookup (dc_type d) tys = Some tbl /\ lookup c tbl = Some (map (fun f => match f with None => true | Some _ => false end) (dc_fields d));
    co_len : length (dc_fields d) <= max_fields;
    co_closed : Forall (fun f => match f with Some t => closed (dc_vars d) t | None => True end) (dc_fields d);
    co_vars : apart (dc_vars d) /\ NoDup (dc_vars d) }.
  Hypothesis HC : forall c d, C c = Some d -> ctor_ok c d.

  Lemma closed_ext vars t gs sg sg' : closed vars t -> length gs = length vars ->
    gt (upd sg vars gs) (scheme [] t) = gt (upd sg' vars gs) (scheme [] t).
  Proof.
    intros [W H] L. apply gt_ext. intros s Hs Ts. apply scheme_names in Hs; auto. destruct (H _ Hs) as [Hv|Hv]; [|congruence].
    unfold upd. clear -L Hv. revert gs L. induction vars as [|v vars IH]; intros [|g gs] L; cbn in *; try discriminate; [tauto|].
    destruct (Nat.eqb_spec v s); auto. destruct Hv; [congruence|]. apply IH; auto.
  Qed.
  Definition s0 : sym -> gty := fun _ => GInt.
  Definition fg (rec : gty) (vars : list sym) (gs : list gty) (f : option irty) : gty :=
    match f with None => rec | Some t => gt (upd s0 vars gs) (scheme [] t) end.
  Lemma gt_field sg rec d c ts f : C c = Some d -> In f (dc_fields d) -> length ts = length (dc_vars d) ->
    gt sg (field_term rec (combine (dc_vars d) ts) f) = fg (gt sg rec) (dc_vars d) (map (gt sg) ts) f.
  Proof.
    intros E Hf L. destruct f as [t|]; cbn; auto. destruct (HC E) as [_ _ F [A _]]. rewrite Forall_forall in F. specialize (F _ Hf). cbn in F.
    rewrite gt_scheme; auto; [|apply F]. apply closed_ext; auto. rewrite map_length. auto.
  Qed.

  Definition ig (t : Ir.ty) : gty := match t with TInt => GInt | TString => GStr | _ => GBool end.
  Definition op_params (i : intrinsic) : list gty := map ig (intrinsic_params i).
  Definition op_result (i : intrinsic) : gty :=
    match i with StringLen | StringCharAt => GInt | StringConcat | StringSubstring | StringFromChar | IntToString => GStr end.

  Definition G_ok (G : sym -> option sch) : Prop :=
    forall x vars t, G x = Some (Poly vars t) -> written t = true /\ apart vars.
  (** The types at which the value of a symbol is needed. *)
  Definition at_type (sg : sym -> gty) (s : sch) (g : gty) : Prop :=
    match s with
    | Mono t => g = gt sg t
    | Poly vars ty => exists gs, length gs = length vars /\ g = gt (upd sg vars gs) (scheme [] ty)
    end.

  Inductive vt : sval -> gty -> Prop :=
  | vt_int n : vt (WInt n) GInt
  | vt_bool b : vt (WBool b) GBool
  | vt_str s : vt (WStr s) GStr
  | vt_con (folded : bool) c fs d gs rec g : C c = Some d -> length gs = length (dc_vars d) ->
      g = (if folded then GFolded (dc_type d) gs rec else GData (dc_type d) gs) ->
      (folded = false -> rec = GData (dc_type d) gs) ->
      length fs = length (dc_fields d) ->
      (forall i f v, nth_error (dc_fields d) i = Some f -> nth_error fs i = Some v -> vt v (fg rec (dc_vars d) gs f)) ->
      vt (WCon folded c fs) g
  | vt_fun G sg (B : list sym) en x b tx tb g : G_ok G -> G x = Some (Mono tx) -> has G C isT b tb -> sscoped (x :: B) b = true ->
      no_escape G (x :: B) b ->
      (forall y, In y B -> exists v s, lookup y en = Some v /\ G y = Some s /\ forall h, at_type sg s h -> vt v h) ->
      g = GFn (gt sg tx) (gt sg tb) -> vt (WFun en x b) g
  | vt_fold G sg (B : list sym) en x b ta tb s l tbl g : G_ok G -> G x = Some (Mono (TNode NFolded ta tb)) -> has G C isT b tb ->
      sscoped (x :: B) b = true -> no_escape G (x :: B) b ->
      (forall y, In y B -> exists v s, lookup y en = Some v /\ G y = Some s /\ forall h, at_type sg s h -> vt v h) ->
      head_of ta = Some s -> gt sg ta = GData s l -> lookup s tys = Some tbl ->
      g = GFn (GData s l) (gt sg tb) -> vt (WFold tbl en x b) g
  | vt_ctor c n got d gs g : C c = Some d -> length gs = length (dc_vars d) -> n = length (dc_fields d) -> length got < n ->
      (forall i f v, nth_error (dc_fields d) i = Some f -> nth_error got i = Some v ->
         vt v (fg (GData (dc_type d) gs) (dc_vars d) gs f)) ->
      g = arrow (skipn (length got) (map (fg (GData (dc_type d) gs) (dc_vars d) gs) (dc_fields d))) (GData (dc_type d) gs) ->
      vt (WCtor c n got) g
  | vt_op i got g : length got < op_arity i ->
      (forall j h v, nth_error (op_params i) j = Some h -> nth_error got j = Some v -> vt v h) ->
      g = arrow (skipn (length got) (op_params i)) (op_result i) -> vt (WOp i got) g
  | vt_iter a got g : length got < 3 ->
      (forall j h v, nth_error [GInt; GFn a a; a] j = Some h -> nth_error got j = Some v -> vt v h) ->
      g = arrow (skipn (length got) [GInt; GFn a a; a]) a -> vt (WIter got) g.

  Definition env_ok (G : sym -> option sch) (sg : sym -> gty) (B : list sym) (en : senv) : Prop :=
    forall y, In y B -> exists v s, lookup y en = Some v /\ G y = Some s /\ forall h, at_type sg s h -> vt v h.
  Definition okres (r : res sval) (g : gty) : Prop :=
    match r with Ok v => vt v g | Panic => False | _ => True end.

  Lemma fn_is_fun v a b : vt v (GFn a b) -> is_fun v = true.
  Proof. intros H. inversion H; subst; auto; destruct folded; discriminate. Qed.
  Lemma env_cons G sg B en x v s : env_ok G sg B en -> G x = Some s -> (forall h, at_type sg s h -> vt v h) ->
    env_ok G sg (x :: B) ((x, v) :: en).
  Proof.
    intros E Gx V y Hy. cbn [lookup]. destruct (Nat.eqb_spec y x) as [->|N]; [eauto|]. destruct Hy as [->|Hy]; [congruence|]. auto.
  Qed.
  Lemma env_bind_all G sg xs : forall fs B en, env_ok G sg B en -> length xs = length fs ->
    (forall i x v, nth_error xs i = Some x -> nth_error fs i = Some v -> exists s, G x = Some s /\ forall h, at_type sg s h -> vt v h) ->
    env_ok G sg (xs ++ B) (bind_all en xs fs).
  Proof.
    induction xs as [|x xs IH]; intros [|v fs] B en E L H; try discriminate; auto.
    cbn [bind_all app]. destruct (H 0 x v eq_refl eq_refl) as (s & Gx & V).
    assert (K : env_ok G sg (xs ++ x :: B) (bind_all ((x, v) :: en) xs fs)).
    { apply IH; auto. - eapply env_cons; eauto. - intros i y w A D. apply (H (S i) y w A D). }
    intros y Hy. apply K. destruct Hy as [->|Hy]; apply in_or_app; [right; left; auto|].
    apply in_app_or in Hy as [Hy|Hy]; [auto|right; right; auto].
  Qed.
  (** Giving meaning to the variables of a local definition does not change the types of what is in scope. *)
  Lemma env_upd G sg B en vars gs : G_ok G -> env_ok G sg B en ->
    (forall v y s, In v vars -> In y B -> G y = Some s -> ~ free_names s v) -> env_ok G (upd sg vars gs) B en.
  Proof.
    intros GO E N y Hy. destruct (E y Hy) as (v & s & Lv & Gy & V). exists v, s. split; auto. split; auto. intros h Hh. apply V.
    assert (F : forall a, free_names s a -> upd sg vars gs a = sg a).
    { intros a Fa. unfold upd. destruct (assoc a (combine vars gs)) eqn:Ea; auto. apply assoc_combine_in in Ea.
      destruct (N _ _ _ Ea Hy Gy Fa). }
    destruct s as [t|vs ty]; cbn in *.
    - subst h. apply gt_ext. intros a Ha _. auto.
    - destruct Hh as (hs & L & ->). exists hs. split; auto. destruct (GO _ _ _ Gy) as [W _]. apply gt_ext. intros a Ha _.
      apply scheme_names in Ha; auto. unfold upd at 1 3. destruct (assoc a (combine vs hs)) eqn:Ea; auto. apply F. split; auto.
      intros Hi. clear - Ea Hi L. revert hs L Ea. induction vs as [|b vs IH]; intros [|h hs] L Ea; cbn in *; try discriminate; [tauto|].
      destruct (Nat.eqb_spec b a); [discriminate|]. destruct Hi; [congruence|]. eapply IH; eauto.
  Qed.
  Lemma okres_bind (r : res sval) (f : sval -> res sval) g h : okres r g -> (forall v, r = Ok v -> vt v g -> okres (f v) h) -> okres (v <- r ;; f v) h.
  Proof. destruct r; cbn; auto. Qed.

  Lemma find_case_some c cs : In c (map (fun c : sym * list sym * sexpr => fst (fst c)) cs) ->
    exists xs b, find_case c cs = Some (xs, b) /\ In ((c, xs), b) cs.
  Proof.
    induction cs as [|[[c' xs] b] cs IH]; cbn; [tauto|]. destruct (Nat.eqb_spec c' c) as [->|N].
    - intros _. exists xs, b. auto.
    - intros [H|H]; [congruence|]. destruct (IH H) as (ys & b' & E & I). exists ys, b'. auto.
  Qed.
  Lemma cases_in (P : sym * list sym -> sexpr -> Prop) cs :
    (fix go (l : list (sym * list sym * sexpr)) : Prop := match l with [] => True | (p, b) :: r => P p b /\ go r end) cs ->
    forall p b, In (p, b) cs -> P p b.
  Proof. induction cs as [|[p b] cs IH]; cbn; [tauto|]. intros [A B] p' b' [E|H]; [injection E as <- <-; auto|auto]. Qed.
  Lemma forall2_nth A B (P : A -> B -> Prop) l l' : Forall2 P l l' -> forall i a b, nth_error l i = Some a -> nth_error l' i = Some b -> P a b.
  Proof. induction 1; intros [|i] a b Ha Hb; cbn in *; try discriminate; [congruence|eauto]. Qed.

  Lemma skipn_cons A (l : list A) i : i < length l -> exists a, nth_error l i = Some a /\ skipn i l = a :: skipn (S i) l.
  Proof. revert l. induction i as [|i IH]; intros [|a l] H; cbn in *; try lia; eauto. apply IH. lia. Qed.
  Lemma arrow_fn l i r : i < length l -> exists a b, arrow (skipn i l) r = GFn a b.
  Proof. intros H. destruct (@skipn_cons _ l i H) as (a & _ & ->). cbn. eauto. Qed.
  Ltac nofn := exfalso; match goal with
    | E : _ = arrow (skipn (length ?got) ?l) ?r |- _ =>
      let H := fresh in assert (H : length got < length l) by (unfold op_params; rewrite ?map_length; auto; cbn; lia);
      destruct (@arrow_fn l (length got) r H) as (? & ? & ?); congruence
    end.
  Lemma int_val v : vt v GInt -> exists n, v = WInt n.
  Proof. intros H. inversion H; subst; eauto; try discriminate; try (destruct folded; discriminate); nofn. Qed.
  Lemma bool_val v : vt v GBool -> exists b, v = WBool b.
  Proof. intros H. inversion H; subst; eauto; try discriminate; try (destruct folded; discriminate); nofn. Qed.
  Lemma str_val v : vt v GStr -> exists b, v = WStr b.
  Proof. intros H. inversion H; subst; eauto; try discriminate; try (destruct folded; discriminate); nofn. Qed.
  Definition con_typed (folded : bool) (v : sval) (s : sym) (gs : list gty) (rec : gty) : Prop :=
    exists c fs d, v = WCon folded c fs /\ C c = Some d /\ dc_type d = s /\ length gs = length (dc_vars d) /\ length fs = length (dc_fields d) /\
      forall i f w, nth_error (dc_fields d) i = Some f -> nth_error fs i = Some w -> vt w (fg rec (dc_vars d) gs f).
  Lemma con_val v s gs : vt v (GData s gs) -> con_typed false v s gs (GData s gs).
  Proof.
    intros H. inversion H; subst; try discriminate; try nofn. destruct folded; [discriminate|].
    match goal with E : GData _ _ = GData _ _ |- _ => injection E as -> -> end.
    exists c, fs, d. do 5 (split; auto). match goal with E : false = false -> _ |- _ => rewrite (E eq_refl) in * end. auto.
  Qed.
  Lemma con_val_folded v s gs r : vt v (GFolded s gs r) -> con_typed true v s gs r.
  Proof.
    intros H. inversion H; subst; try discriminate; try nofn. destruct folded; [|discriminate].
    match goal with E : GFolded _ _ _ = GFolded _ _ _ |- _ => injection E as -> -> -> end.
    exists c, fs, d. do 5 (split; auto).
  Qed.
  Lemma arith_ok sg p n m : vt (arith p n m) (gt sg (op_term p)).
  Proof. unfold arith, op_term. destruct p; cbn; constructor. Qed.

  Section Expr.
    Variable ap : sval -> sval -> res sval.
    Hypothesis Hap : forall f a A B, vt f (GFn A B) -> vt a A -> okres (ap f a) B.
    Lemma call_ok f a A B : okres f (GFn A B) -> okres a A -> okres (call2 o ap f a) B.
    Proof.
      intros Hf Ha. unfold call2. destruct o.
      - destruct f as [f| | |]; cbn in *; auto. rewrite (fn_is_fun Hf). destruct a; cbn in *; eauto.
      - destruct a as [a| | |]; cbn in *; auto. destruct f; cbn in *; eauto.
    Qed.
    Lemma seval_ok : forall e G sg B en t, G_ok G -> has G C isT e t -> sscoped B e = true -> no_escape G B e -> env_ok G sg B en ->
      okres (seval o tys ap en e) (gt sg t).
    Proof.
      induction e using sexpr_ind'; intros G sg B en T GO HT HB HE EN; cbn [has sscoped no_escape] in *;
        repeat match goal with H : _ && _ = true |- _ => apply andb_true_iff in H as [] end;
        [| | | | |rewrite seval_match| | | | | | | | ]; cbn [seval].
      - destruct HT as (s & Gx & I). apply mem_In in HB. destruct (EN _ HB) as (v & s' & Lv & Gx' & V). rewrite Gx in Gx'. injection Gx' as <-.
        rewrite Lv. cbn. apply V. destruct s as [t|vars ty]; cbn in *; [subst; auto|]. destruct I as (ts & L & ->).
        destruct (GO _ _ _ Gx) as [W A]. exists (map (gt sg) ts). rewrite map_length. split; auto. apply gt_scheme; auto.
      - destruct HT as (ta & Hf & Ha). destruct HE. apply (@call_ok _ _ (gt sg ta) (gt sg T)); [exact (IHe1 G sg B en _ GO Hf ltac:(auto) ltac:(auto) EN)|eapply IHe2; eauto].
      - destruct HT as (Ha & Hb & ->). destruct HE.
        assert (X := IHe1 G sg B en _ GO Ha ltac:(auto) ltac:(auto) EN). cbn in X.
        destruct (seval o tys ap en e1) as [v| | |]; cbn [Eval.bind okres] in *; auto. destruct (int_val X) as [n ->]. cbn [as_int Eval.bind].
        assert (Y := IHe2 G sg B en _ GO Hb ltac:(auto) ltac:(auto) EN). cbn in Y.
        destruct (seval o tys ap en e2) as [v| | |]; cbn [Eval.bind okres] in *; auto. destruct (int_val Y) as [m ->]. cbn [as_int Eval.bind].
        apply arith_ok.
      - destruct HT as (ta & Hf & Ha). destruct HE. apply (@call_ok _ _ (gt sg ta) (gt sg T)); [exact (IHe2 G sg B en _ GO Hf ltac:(auto) ltac:(auto) EN)|eapply IHe1; eauto].
      - destruct HT as (s & Gx & -> & Hv & He). destruct HE as (N & N1 & N2).
        assert (X : forall h, at_type sg s h -> okres (seval o tys ap en e1) h).
        { destruct s as [t|vars ty]; cbn [at_type generic own_vars] in *.
          - intros h ->. eapply IHe1; eauto.
          - intros h (gs & L & ->). eapply IHe1; eauto. apply env_upd; auto. }
        assert (X0 : exists h, at_type sg s h).
        { destruct s as [t|vars ty]; cbn; eauto. exists (gt (upd sg vars (map (fun _ => GInt) vars)) (scheme [] ty)).
          eexists. split; [|reflexivity]. apply map_length. }
        destruct (seval o tys ap en e1) as [w| | |]; cbn [Eval.bind okres] in *; auto; try exact I.
        + eapply IHe2; eauto. eapply env_cons; eauto.
        + destruct X0 as [h Hh]. apply (X h Hh).
      - destruct HT as (s & ts & rec & Ts & Hd & Hr & Hc & Hcs). destruct HE as [N1 N2].
        assert (X := IHe G sg B en _ GO Hd ltac:(auto) N1 EN).
        destruct (seval o tys ap en e) as [w| | |]; cbn [Eval.bind okres] in *; auto.
        assert (K : exists c fs d, w = WCon f c fs /\ C c = Some d /\ dc_type d = s /\ length fs = length (dc_fields d) /\
          forall i fd v, nth_error (dc_fields d) i = Some fd -> nth_error fs i = Some v -> vt v (fg (gt sg rec) (dc_vars d) (map (gt sg) ts) fd)).
        { assert (Q : con_typed f w s (map (gt sg) ts) (gt sg rec)).
          { destruct f.
            - cbn [gt] in X. rewrite head_data, Ts, gt_data in X by auto. cbn [gfold] in X. apply con_val_folded in X. exact X.
            - rewrite (Hr eq_refl) in *. rewrite gt_data in * by auto. apply con_val in X. exact X. }
          destruct Q as (c & fs & d & E1 & E2 & E3 & _ & E4 & E5). exists c, fs, d. auto. }
        destruct K as (c & fs & d & -> & Ec & Ed & Lf & Hf). rewrite Bool.eqb_reflx.
        destruct (find_case_some c cs (Hc _ _ Ec Ed)) as (xs & b & -> & Hin).
        destruct (cases_in _ _ Hcs _ _ Hin) as ((d' & Ec' & _ & Lt & Fp) & Hb). cbn [fst snd] in *. rewrite Ec in Ec'. injection Ec' as <-.
        assert (Lx : length xs = length (dc_fields d)) by (clear -Fp; induction Fp; cbn; congruence). rewrite Lx, Lf, Nat.eqb_refl.
        match goal with H : Forall _ cs |- _ => rewrite Forall_forall in H; specialize (H _ Hin); cbn [snd] in H; rename H into IHb end.
        apply (IHb G sg (xs ++ B)); auto.
        + rewrite forallb_forall in *. match goal with H : forall x, In x cs -> sscoped _ _ = true |- _ => apply (H _ Hin) end.
        + apply (cases_in (fun p b => no_escape G (snd p ++ B) b) _ N2 _ _ Hin).
        + apply env_bind_all; auto; [congruence|]. intros i x v Hx Hv.
          destruct (nth_error (dc_fields d) i) as [fd|] eqn:Efd.
          * eexists. split; [apply (forall2_nth Fp _ Hx Efd)|]. cbn [at_type]. intros h ->.
            rewrite (@gt_field sg rec d c ts fd Ec (nth_error_In _ _ Efd) Lt). eapply Hf; eauto.
          * apply nth_error_None in Efd. assert (i < length xs) by (apply nth_error_Some; congruence). lia.
      - destruct HT as (Hc & Ha & Hb). destruct HE as (N1 & N2 & N3).
        assert (X := IHe1 G sg B en _ GO Hc ltac:(auto) ltac:(auto) EN). cbn in X.
        destruct (seval o tys ap en e1) as [v| | |]; cbn [Eval.bind okres] in *; auto. destruct (bool_val X) as [[] ->]; cbn [as_bool Eval.bind].
        + eapply IHe2; eauto.
        + eapply IHe3; eauto.
      - subst. constructor.
      - subst. constructor.
      - subst. constructor.
      - destruct HT as (a & r & -> & Gx & Hh & Hb).
        assert (F : (forall y, head_of a = Some y -> isT y = false) -> okres (Ok (WFun en x e)) (gt sg (TNode NFn a r))).
        { intros Hy. cbn [okres]. eapply vt_fun; eauto. cbn [gt]. destruct (head_of a) as [y|]; auto. rewrite (Hy y); auto. }
        destruct t as [| | |? ?|ta tr| | |? ?]; try (apply F; intros y Ey; congruence).
        destruct ta as [| | |y args|? ?| | |? ?]; try (apply F; intros y Ey; congruence).
        destruct (lookup y tys) as [tbl|] eqn:Ey.
        + cbn [okres]. assert (Ty : isT y = true) by (unfold is_type; rewrite Ey; auto).
          destruct (head_gt sg _ Hh Ty) as [l El]. eapply vt_fold; eauto. cbn [gt]. rewrite El. auto.
        + apply F. intros y' Ey'. assert (y' = y) by congruence. subst. unfold is_type. rewrite Ey. auto.
      - destruct HT as (a & r & -> & Gx & Hb). cbn. eapply vt_fun; eauto.
      - eapply IHe; eauto.
      - constructor.
    Qed.
  End Expr.

  Lemma snoc_typed (P : nat -> gty -> Prop) got a j v : nth_error (got ++ [a]) j = Some v ->
    nth_error got j = Some v \/ j = length got /\ v = a :> sval.
  Proof.
    destruct (Nat.lt_ge_cases j (length got)).
    - rewrite nth_error_app1 by auto. auto.
    - rewrite nth_error_app2 by auto. destruct (j - length got) as [|m] eqn:E; cbn.
      + intros X. injection X as ->. right. split; auto. lia.
      + destruct m; discriminate.
  Qed.
  Lemma str_op_ok i args : length args = op_arity i ->
    (forall j h v, nth_error (op_params i) j = Some h -> nth_error args j = Some v -> vt v h) -> okres (str_op i args) (op_result i).
  Proof.
    intros L H. unfold op_arity in L.
    destruct i; cbn in L; destruct args as [|a [|b [|c [|? ?]]]]; try discriminate; clear L;
    repeat match goal with
    | H : forall j h v, nth_error _ j = _ -> _ |- _ =>
      try (pose proof (H 0 _ _ eq_refl eq_refl)); try (pose proof (H 1 _ _ eq_refl eq_refl)); try (pose proof (H 2 _ _ eq_refl eq_refl)); clear H
    end; cbn [ig] in *;
    repeat match goal with
    | H : vt _ GInt |- _ => apply int_val in H as [? ->]
    | H : vt _ GStr |- _ => apply str_val in H as [? ->]
    end; cbn; constructor.
  Qed.

  Lemma mapM_fields (ap : sval -> res sval) fg1 fg2 fields : forall fs, length fs = length fields ->
    (forall v, vt v fg1 -> okres (ap v) fg2) ->
    forall vars gs, (forall i f v, nth_error fields i = Some f -> nth_error fs i = Some v -> vt v (fg fg1 vars gs f)) ->
    match mapM (fun rf : bool * sval => if fst rf then ap (snd rf) else Ok (snd rf))
            (combine (map (fun f : option irty => match f with None => true | Some _ => false end) fields) fs) with
    | Ok ws => length ws = length fields /\
        forall i f v, nth_error fields i = Some f -> nth_error ws i = Some v -> vt v (fg fg2 vars gs f)
    | Panic => False
    | _ => True
    end.
  Proof.
    induction fields as [|f fields IH]; intros [|v fs] L Hap vars gs H; try discriminate.
    - cbn. split; auto. intros [|i] f v; discriminate.
    - injection L as L. specialize (IH fs L Hap vars gs (fun i => H (S i))). cbn [map combine mapM].
      assert (X : exists r, okres r (fg fg2 vars gs f) /\
        (if fst (match f with None => true | Some _ => false end, v) then ap v else Ok v) = r).
      { eexists. split; [|reflexivity]. specialize (H 0 f v eq_refl eq_refl). destruct f as [t|]; cbn in *; auto. }
      destruct X as (r & X & E). cbn [fst snd] in *. rewrite E. destruct r as [w| | |]; cbn [Eval.bind okres] in *; auto.
      match type of IH with match ?m with _ => _ end => set (M := m) in * end. 
      match goal with |- context [Eval.bind ?m _] => change m with M end.
      destruct M as [ws| | |]; cbn [Eval.bind] in *; auto. destruct IH as [L' IH]. split; [cbn; congruence|].
      intros [|i] f' v' Hf Hv; cbn in *; [congruence|eauto].
  Qed.
  Lemma fold_ok k G sg (B : list sym) (en : senv) x b ta tb s l tbl a :
    (forall f a A B, vt f (GFn A B) -> vt a A -> okres (sapply o tys k f a) B) ->
    G_ok G -> G x = Some (Mono (TNode NFolded ta tb)) -> has G C isT b tb ->
    sscoped (x :: B) b = true -> no_escape G (x :: B) b -> env_ok G sg B en ->
    head_of ta = Some s -> gt sg ta = GData s l -> lookup s tys = Some tbl ->
    vt (WFold tbl en x b) (GFn (GData s l) (gt sg tb)) -> vt a (GData s l) ->
    okres (match a return res sval with
          | WCon false c fs =>
            match lookup c tbl return res sval with
            | Some recs =>
              if length recs =? length fs then
                ws <- mapM (fun rf : bool * sval => if fst rf then sapply o tys k (WFold tbl en x b) (snd rf) else Ok (snd rf)) (combine recs fs) ;;
                w <- build true c ws ;; seval o tys (sapply o tys k) ((x, w) :: en) b
              else Panic
            | None => Panic
            end
          | _ => Panic
          end) (gt sg tb).
  Proof.
    intros Hap GO Gx Hb Sc NE EN Hh Hg Ht Hf Ha.
    destruct (con_val Ha) as (c & fs & d & -> & Ec & Ed & Lg & Lf & F). subst s.
    destruct (HC Ec) as [(tbl' & T1 & T2) LN _ _]. rewrite Ht in T1. injection T1 as <-. rewrite T2, map_length, Lf, Nat.eqb_refl.
    pose proof (@mapM_fields (sapply o tys k (WFold tbl en x b)) (GData (dc_type d) l) (gt sg tb) (dc_fields d) fs Lf
      (fun v Hv => Hap _ _ _ _ Hf Hv) (dc_vars d) l F) as M.
    destruct (mapM _ _) as [ws| | |]; cbn [Eval.bind okres] in *; auto. destruct M as [Lw M].
    unfold build. rewrite Lw. destruct (Nat.leb_spec (length (dc_fields d)) max_fields); [|lia]. cbn [Eval.bind].
    eapply seval_ok; eauto. eapply env_cons; eauto. cbn [at_type]. intros h ->. cbn [gt]. rewrite Hh, Hg. unfold is_type. rewrite Ht. cbn [gfold].
    eapply vt_con with (folded := true) (rec := gt sg tb); eauto. discriminate.
  Qed.
  Lemma arrow_step got L R A B : length got < length L -> GFn A B = arrow (skipn (@length sval got) L) R ->
    nth_error L (length got) = Some A /\ B = arrow (skipn (S (length got)) L) R.
  Proof. intros H E. destruct (@skipn_cons _ L (length got) H) as (a & Ea & Es). rewrite Es in E. cbn [arrow] in E. injection E as -> ->. auto. Qed.

  Lemma apply_ok k :
    (forall f a A B, vt f (GFn A B) -> vt a A -> okres (sapply o tys k f a) B) /\
    (forall n g x A, vt n GInt -> vt g (GFn A A) -> vt x A -> okres (siter o tys k n g x) A).
  Proof.
    induction k as [|k [IHa IHi]].
    - split; [|intros; exact I]. intros f a A B Hf _. cbn [sapply]. rewrite (fn_is_fun Hf). exact I.
    - split.
      + intros f a A B Hf Ha. rewrite sapply_S, (fn_is_fun Hf). inversion Hf; subst; try discriminate; try (destruct folded; discriminate).
        * match goal with E : GFn _ _ = GFn _ _ |- _ => injection E as -> -> end.
          eapply seval_ok; eauto. eapply env_cons; eauto. cbn. intros h ->. auto.
        * match goal with E : GFn _ _ = GFn _ _ |- _ => injection E as -> -> end.
          eapply fold_ok; eauto.
        * match goal with E : GFn _ _ = arrow _ _ |- _ => apply arrow_step in E as [EA ->]; [|rewrite map_length; auto] end.
          rewrite nth_error_map in EA. destruct (nth_error (dc_fields d) (length got)) as [fd|] eqn:Efd; [|discriminate]. injection EA as <-.
          assert (S : forall i f v, nth_error (dc_fields d) i = Some f -> nth_error (got ++ [a]) i = Some v ->
                        vt v (fg (GData (dc_type d) gs) (dc_vars d) gs f)).
          { intros i f v Hi Hv. apply snoc_typed in Hv as [Hv|[-> ->]]; [eauto|congruence|exact (fun _ _ => True)]. }
          destruct (Nat.eqb_spec (Datatypes.S (length got)) (length (dc_fields d))) as [E|E].
          -- unfold build. rewrite app_length. cbn [length]. destruct (Nat.leb_spec (length got + 1) max_fields) as [_|Hl].
             ++ cbn [okres]. rewrite skipn_all2 by (rewrite map_length; lia). cbn [arrow].
                eapply vt_con with (folded := false) (rec := GData (dc_type d) gs); eauto. rewrite app_length; cbn; lia.
             ++ match goal with H : C c = Some d |- _ => destruct (HC H) as [_ LN _ _] end. lia.
          -- cbn [okres]. eapply vt_ctor; eauto; rewrite app_length; cbn [length]; [lia|]. rewrite Nat.add_1_r. auto.
        * match goal with E : GFn _ _ = arrow _ _ |- _ => apply arrow_step in E as [EA ->]; [|unfold op_params; rewrite map_length; auto] end.
          assert (S : forall j h v, nth_error (op_params i) j = Some h -> nth_error (got ++ [a]) j = Some v -> vt v h).
          { intros j h v Hi Hv. apply snoc_typed in Hv as [Hv|[-> ->]]; [eauto|congruence|exact (fun _ _ => True)]. }
          destruct (Nat.eqb_spec (Datatypes.S (length got)) (op_arity i)) as [E|E].
          -- rewrite skipn_all2 by (unfold op_params; rewrite map_length; unfold op_arity in *; lia). cbn [arrow]. apply str_op_ok; auto.
             rewrite app_length; cbn; lia.
          -- cbn [okres]. eapply vt_op; eauto; rewrite app_length; cbn [length]; [lia|]. rewrite Nat.add_1_r. auto.
        * match goal with E : GFn _ _ = arrow _ _ |- _ => apply arrow_step in E as [EA ->]; [|cbn; lia] end.
          assert (S : forall j h v, nth_error [GInt; GFn a0 a0; a0] j = Some h -> nth_error (got ++ [a]) j = Some v -> vt v h).
          { intros j h v Hi Hv. apply snoc_typed in Hv as [Hv|[-> ->]]; [eauto|congruence|exact (fun _ _ => True)]. }
          destruct got as [|n [|g [|? ?]]].
          -- cbn [okres app]. eapply (@vt_iter a0 [a]); eauto.
          -- cbn [okres app]. eapply (@vt_iter a0 [n; a]); eauto.
          -- cbn [skipn length arrow]. apply IHi; [apply (S 0)|apply (S 1)|apply (S 2)]; auto.
          -- cbn in *. lia.
      + intros n g x A Hn Hg Hx. rewrite siter_S. destruct (int_val Hn) as [m ->]. cbn [as_int Eval.bind].
        destruct (N.eqb m 0); [exact Hx|]. assert (X := IHa _ _ _ _ Hg Hx).
        destruct (sapply o tys k g x) as [w| | |]; cbn [Eval.bind okres] in *; auto. apply IHi; auto. constructor.
  Qed.
End Safe.
