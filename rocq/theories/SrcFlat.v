(** The items of a program in the order they run (C44): symbols, scoping, and that the generator emits
    them in this order. *)
From Verif Require Import GenSpec GenFacts GenNames GenItems FoldOk CompileStatic CompileCorrect SrcSem.
Set Implicit Arguments.

Definition basic (i : item) : Prop := match i with IImport _ => False | _ => True end.

Definition flat_mods : list nat -> list (nat * list item) -> list item * list nat :=
  fix go (seen : list nat) (l : list (nat * list item)) : list item * list nat :=
    match l with
    | [] => ([], seen)
    | (k, is) :: r =>
      if existsb (Nat.eqb k) seen then go seen r else
      let a := flat_items (k :: seen) is in
      let b := go (snd a) r in (fst a ++ fst b, snd b)
    end.
Lemma flat_import seen mods : flat_item seen (IImport mods) = flat_mods seen mods.
Proof. reflexivity. Qed.
Lemma flat_cons seen i is : flat_items seen (i :: is) =
  (fst (flat_item seen i) ++ fst (flat_items (snd (flat_item seen i)) is), snd (flat_items (snd (flat_item seen i)) is)).
Proof. reflexivity. Qed.
Lemma flat_basic seen i : basic i -> flat_item seen i = ([i], seen).
Proof. destruct i; simpl; tauto. Qed.
Lemma mods_cons seen k is r : flat_mods seen ((k, is) :: r) =
  if existsb (Nat.eqb k) seen then flat_mods seen r else
  (fst (flat_items (k :: seen) is) ++ fst (flat_mods (snd (flat_items (k :: seen) is)) r),
   snd (flat_mods (snd (flat_items (k :: seen) is)) r)).
Proof. reflexivity. Qed.

Lemma existsb_in k l : existsb (Nat.eqb k) l = true <-> In k l.
Proof.
  rewrite existsb_exists. split; [intros (j & Hj & E); apply Nat.eqb_eq in E; subst; auto|].
  intros H. exists k. split; auto. apply Nat.eqb_refl.
Qed.

Lemma sscoped_incl e : forall D D', (forall x, In x D -> In x D') -> sscoped D e = true -> sscoped D' e = true.
Proof.
  induction e using sexpr_ind'; simpl; intros D D' HI HS; rewrite ?andb_true_iff in *; auto;
    try (intuition eauto; fail).
  - apply mem_In. apply HI. apply mem_In. auto.
  - destruct HS. split; [eauto|]. eapply IHe2; [|eauto]. simpl. intros y [?|?]; auto.
  - destruct HS as [HS1 HS2]. split; [eauto|]. rewrite forallb_forall in *. intros c Hc. rewrite Forall_forall in H.
    eapply (H c Hc (snd (fst c) ++ D)); [|auto]. intros y. rewrite !in_app_iff. intros [?|?]; auto.
  - eapply IHe; [|eauto]. simpl. intros y [?|?]; auto.
  - eapply IHe; [|eauto]. simpl. intros y [?|?]; auto.
Qed.
Lemma module_scoped_incl is : forall D D', (forall x, In x D -> In x D') -> module_scoped D is = true -> module_scoped D' is = true.
Proof.
  induction is as [|i is IH]; simpl; intros D D' HI HS; auto. apply andb_true_iff in HS as [H1 H2]. apply andb_true_iff. split.
  - destruct i as [| ? ? ? ? [|] |]; auto. eapply sscoped_incl; eauto.
  - eapply IH; [|exact H2]. intros y. rewrite !in_app_iff. intros [?|?]; auto.
Qed.
Lemma module_scoped_app l1 : forall D l2, Forall basic l1 -> module_scoped D l1 = true -> module_scoped (values l1 ++ D) l2 = true ->
  module_scoped D (l1 ++ l2) = true.
Proof.
  induction l1 as [|i l1 IH]; simpl; intros D l2 HB H1 H2; auto. inversion HB as [|? ? Hb HB']; subst.
  apply andb_true_iff in H1 as [H1 H1']. apply andb_true_iff. split; auto. apply IH; auto.
  eapply module_scoped_incl; [|exact H2]. intros y. unfold values. simpl. rewrite !in_app_iff.
  destruct i; simpl in *; tauto.
Qed.

(** What flattening gives, and that the generator follows it. *)
Lemma value_emitted emit x vars t ex body s u s' : gen_value_item emit x vars t ex body s = Some (u, s') -> g_emitted s' = g_emitted s.
Proof.
  unfold gen_value_item. intros H.
  apply gbind_some in H as (n & s1 & E1 & H). apply gen_name_eq in E1 as [-> E1].
  apply gbind_some in H as (t' & s2 & E2 & H). apply inst_ty_ext in E2 as (X2 & N2 & L2).
  apply gbind_some in H as (u1 & s3 & E3 & H). apply fresh_inst_ext in E3 as (X3 & N3 & L3).
  apply gbind_some in H as (v & s4 & E4 & H). injection H as <- <-. simpl.
  assert (g_emitted s4 = g_emitted s3).
  { destruct body as [[|i]|e].
    - apply iterate_made in E4 as (X & _). apply X.
    - apply string_made in E4 as (X & _). apply X.
    - apply gbind_some in E4 as (v' & s5 & E5 & E4). apply gbind_some in E4 as (vs & s6 & E6 & E4). gb.
      apply (@pure_map _ _ _ _ tv_of_pure) in E6. subst. apply gen_expr_ext in E5. apply E5. }
  destruct X2, X3. rewrite H, e_emitted0, e_emitted, E1. auto.
Qed.
Lemma basic_emitted emit i s u s' : basic i -> emit_item emit i s = Some (u, s') -> g_emitted s' = g_emitted s.
Proof.
  intros Hb H. destruct i as [x ps cs|x vars t ex b|]; [| |destruct Hb].
  - cbn [emit_item] in H. apply gbind_some in H as (u0 & s0 & E0 & H). injection E0 as <- <-.
    apply gbind_some in H as (u1 & s1 & E1 & H). apply keeps_type in E1, H. simpl in *. congruence.
  - eapply value_emitted. exact H.
Qed.

Inductive emits : gst -> list (bool * item) -> gst -> Prop :=
| emits_nil s : emits s [] s
| emits_mark s l is s' : emits (up_emitted s l) is s' -> emits s is s'
| emits_item s b i u s1 is s' : basic i -> emit_item b i s = Some (u, s1) -> emits s1 is s' -> emits s ((b, i) :: is) s'.
Lemma emits_app s1 l1 s2 l2 s3 : emits s1 l1 s2 -> emits s2 l2 s3 -> emits s1 (l1 ++ l2) s3.
Proof. induction 1; simpl; intros H2; auto; [eapply emits_mark; eauto|eapply emits_item; eauto]. Qed.

Definition follows (emit : bool) (is : list item) : Prop := forall s u s', emit_items emit is s = Some (u, s') ->
  exists l, emits s l s' /\ map snd l = fst (flat_items (g_emitted s) is) /\ g_emitted s' = snd (flat_items (g_emitted s) is) /\
    (forall i, basic i -> In i is -> In (emit, i) l) /\ (forall i, In (true, i) l -> emit = true /\ In i is).

Lemma follow_mods N : (forall is, msize is < N -> follows false is) -> forall mods,
  (forall m, In m mods -> msize (snd m) < N) -> forall s u s', emit_mods mods s = Some (u, s') ->
  exists l, emits s l s' /\ map snd l = fst (flat_mods (g_emitted s) mods) /\ g_emitted s' = snd (flat_mods (g_emitted s) mods) /\
    forall i, ~ In (true, i) l.
Proof.
  intros IH. induction mods as [|[k is] mods IHm]; intros HM s u s' H.
  - simpl in H. gb. exists []. split; [constructor|auto].
  - simpl in H. fold emit_mods in H. apply gbind_some in H as (seen & s1 & E & H). apply gget_some in E as [E ->]. injection E as E.
    rewrite mods_cons, E. destruct seen.
    + eapply IHm; [intros; apply HM; right; auto|exact H].
    + apply gbind_some in H as (u0 & s1 & E1 & H). injection E1 as <- <-.
      apply gbind_some in H as (u1 & s2 & E2 & H).
      destruct (IH is (HM _ (or_introl eq_refl)) _ _ _ E2) as (l1 & M1 & S1 & G1 & _ & T1). simpl in S1, G1.
      destruct (IHm (fun m Hm => HM m (or_intror Hm)) _ _ _ H) as (l2 & M2 & S2 & G2 & T2).
      exists (l1 ++ l2). split; [|split; [|split]].
      * eapply emits_mark. eapply emits_app; eauto.
      * rewrite map_app, S1, S2, G1. reflexivity.
      * rewrite G2, G1. reflexivity.
      * intros i Hi. apply in_app_or in Hi as [Hi|Hi]; [apply T1 in Hi as [Hi _]; discriminate|apply (T2 _ Hi)].
Qed.
Lemma follow_le N : forall emit is, msize is < N -> follows emit is.
Proof.
  induction N as [|N IHN]; [intros; lia|]. intros emit is Hsz.
  assert (HM : forall emit is', msize is' < msize is -> follows emit is') by (intros; apply IHN; lia). clear IHN Hsz.
  intros s u s' H. destruct is as [|i is].
  - simpl in H. gb. exists []. split; [constructor|]. split; [auto|split; [auto|split; auto]].
  - assert (Hlt : msize is < msize (i :: is)) by (unfold msize; simpl; destruct i; simpl; lia).
    simpl in H. fold (emit_items emit) in H. apply gbind_some in H as (u1 & s1 & E1 & H).
    assert (R : exists l, emits s l s1 /\ map snd l = fst (flat_item (g_emitted s) i) /\ g_emitted s1 = snd (flat_item (g_emitted s) i) /\
                  (basic i -> In (emit, i) l) /\ (forall j, In (true, j) l -> emit = true /\ j = i)).
    { destruct i as [x ps cs|x vars t ex b|mods].
      - exists [(emit, ITy x ps cs)]. split; [eapply emits_item; [exact I|exact E1|constructor]|]. split; [auto|]. split; [|split; [intros; left; auto|intros j [Hj|[]]; injection Hj; auto]].
        eapply basic_emitted in E1; [exact E1|exact I].
      - exists [(emit, IVal x vars t ex b)]. split; [eapply emits_item; [exact I|exact E1|constructor]|]. split; [auto|]. split; [|split; [intros; left; auto|intros j [Hj|[]]; injection Hj; auto]].
        eapply basic_emitted in E1; [exact E1|exact I].
      - rewrite import_eq in E1. rewrite flat_import. eapply follow_mods in E1 as (l & M & S1 & G & T).
        + exists l. split; [auto|split; [auto|split; [auto|split]]]; [intros []|]. intros j Hj. destruct (T _ Hj).
        + intros is' Hs. apply (HM false is' Hs).
        + intros m Hm. apply sum_mods in Hm. unfold msize in *. simpl. lia. }
    destruct R as (l1 & M1 & S1 & G1 & B1 & T1).
    destruct (HM emit is Hlt _ _ _ H) as (l2 & M2 & S2 & G2 & B2 & T2).
    exists (l1 ++ l2). rewrite flat_cons. split; [eapply emits_app; eauto|]. split; [|split; [|split]].
    + rewrite map_app, S1, S2, G1. reflexivity.
    + rewrite G2, G1. reflexivity.
    + intros j Hj [->|Hin]; apply in_or_app; auto.
    + intros j Hj. apply in_app_or in Hj as [Hj|Hj].
      * apply T1 in Hj as [? ->]. split; auto. left; auto.
      * apply T2 in Hj as [? ?]. split; auto. right; auto.
Qed.
Theorem emits_flat root u s : emit_items true root g0 = Some (u, s) ->
  exists l, emits g0 l s /\ map snd l = flat root /\ (forall i, basic i -> In i root -> In (true, i) l) /\
    (forall i, In (true, i) l -> In i root).
Proof.
  intros H. destruct (@follow_le (S (msize root)) true root (Nat.lt_succ_diag_r _) _ _ _ H) as (l & H1 & H2 & _ & H3 & H4).
  exists l. repeat split; auto. intros i Hi. apply (H4 i Hi).
Qed.

(** Symbols and scoping. *)
Section Flat.
  Variable T : list (nat * list item).
  Hypothesis Same : forall k a b, In (k, a) T -> In (k, b) T -> a = b.
  Hypothesis Nodup : forall k a, In (k, a) T -> NoDup (syms a).
  Hypothesis Apart : forall k a j b x, In (k, a) T -> In (j, b) T -> k <> j -> In x (syms a) -> ~ In x (syms b).
  Hypothesis Scoped : forall k a, In (k, a) T -> module_scoped [] a = true.

  (** [from seen seen' l x]: [x] is a symbol of a module that was added. *)
  Definition added (seen seen' : list nat) (x : sym) : Prop :=
    exists k a, In (k, a) T /\ ~ In k seen /\ In k seen' /\ In x (syms a).
  Record flat_spec (own : list sym) (vals : list sym) (seen : list nat) (O : list nat) (D : list sym) (l : list item) (seen' : list nat) : Prop := mkFlat {
    f_seen : forall k, In k seen -> In k seen';
    f_basic : Forall basic l;
    f_scoped : module_scoped D l = true;
    f_own : forall x, In x vals -> In x (values l ++ D);
    f_mods : forall k a x, In (k, a) T -> In k seen' -> ~ In k O -> In x (values a) -> In x (values l ++ D);
    f_syms : forall x, In x (syms l) -> In x own \/ added seen seen' x;
    f_nodup : NoDup (syms l) }.

  Definition flat_good (is : list item) : Prop := forall seen Dm D O,
    (forall m, In m (reached is) -> In m T) ->
    NoDup (syms is) -> (forall k a x, In (k, a) T -> ~ In k O -> In x (syms is) -> ~ In x (syms a)) ->
    (forall k a, In k O -> In (k, a) T -> msize is <= msize a) -> (forall k, In k O -> In k seen) ->
    (forall k a x, In (k, a) T -> In k seen -> ~ In k O -> In x (values a) -> In x D) ->
    (forall x, In x Dm -> In x D) -> module_scoped Dm is = true ->
    flat_spec (syms is) (values is) seen O D (fst (flat_items seen is)) (snd (flat_items seen is)).

  Lemma values_app l1 l2 : values (l1 ++ l2) = values l1 ++ values l2.
  Proof. unfold values. apply flat_map_app. Qed.
  Lemma syms_app l1 l2 : syms (l1 ++ l2) = syms l1 ++ syms l2.
  Proof. unfold syms. apply flat_map_app. Qed.

  Lemma flat_mods_ok N : (forall is, msize is < N -> flat_good is) -> forall mods seen D O,
    (forall m, In m mods -> In m T /\ msize (snd m) < N /\ (forall m', In m' (reached (snd m)) -> In m' T)) ->
    (forall k a, In k O -> In (k, a) T -> N <= msize a) -> (forall k, In k O -> In k seen) ->
    (forall k a x, In (k, a) T -> In k seen -> ~ In k O -> In x (values a) -> In x D) ->
    flat_spec [] [] seen O D (fst (flat_mods seen mods)) (snd (flat_mods seen mods)) /\
    (forall m, In m mods -> In (fst m) (snd (flat_mods seen mods))).
  Proof.
    intros IH. induction mods as [|[k is] mods IHm]; intros seen D O HM HO HOs HD.
    - split; [|intros m []]. simpl. split; simpl; auto; try tauto; try (intros; eapply HD; eauto; fail). constructor.
    - rewrite mods_cons. destruct (HM (k, is) (or_introl eq_refl)) as (HTk & Hsz & Hcl). simpl in Hsz, Hcl.
      assert (HM' : forall m, In m mods -> In m T /\ msize (snd m) < N /\ (forall m', In m' (reached (snd m)) -> In m' T)) by (intros; apply HM; right; auto).
      destruct (existsb (Nat.eqb k) seen) eqn:Ek.
      + apply existsb_in in Ek. destruct (IHm seen D O HM' HO HOs HD) as [F S]. split; auto.
        intros m [<-|Hm]; auto. simpl. apply (f_seen F). auto.
      + assert (Hk : ~ In k seen) by (intros Hc; apply existsb_in in Hc; congruence).
        assert (HkO : ~ In k O) by auto.
        assert (F1 : flat_spec (syms is) (values is) (k :: seen) (k :: O) D (fst (flat_items (k :: seen) is)) (snd (flat_items (k :: seen) is))).
        { apply (IH is Hsz (k :: seen) [] D (k :: O)); auto.
          - eapply Nodup; eauto.
          - intros j b x Hj Hn Hx. apply (@Apart _ _ _ _ x HTk Hj); auto. intros ->. apply Hn. left; auto.
          - intros j b [<-|Hj] Hjb; [rewrite (@Same _ _ _ Hjb HTk); auto|]. specialize (HO j b Hj Hjb). lia.
          - intros j [<-|Hj]; [left; auto|right; auto].
          - intros j b x Hj Hjs HjO Hx. simpl in Hjs. destruct Hjs as [->|Hjs]; [exfalso; apply HjO; left; auto|].
            eapply HD; eauto. intros Hc. apply HjO. right; auto.
          - intros x [].
          - eapply Scoped; eauto. }
        set (l1 := fst (flat_items (k :: seen) is)) in *. set (seen1 := snd (flat_items (k :: seen) is)) in *.
        destruct (IHm seen1 (values l1 ++ D) O HM' HO) as [F2 S2].
        { intros j Hj. apply (f_seen F1). right; auto. }
        { intros j b x Hj Hjs HjO Hx. destruct (Nat.eq_dec j k) as [->|Hne].
          - rewrite (@Same _ _ _ Hj HTk) in Hx. apply (f_own F1). auto.
          - apply (@f_mods _ _ _ _ _ _ _ F1 j b x); auto. intros [->|Hc]; auto. }
        destruct F1 as [A1 A2 A3 A4 A5 A6 A7], F2 as [B1 B2 B3 B4 B5 B6 B7]. cbn [fst snd]. split.
        * split.
          -- intros j Hj. apply B1, A1. right; auto.
          -- apply Forall_app; auto.
          -- apply module_scoped_app; auto.
          -- intros x [].
          -- intros j b x Hj Hjs HjO Hx. rewrite values_app. specialize (B5 j b x Hj Hjs HjO Hx). rewrite !in_app_iff in *. tauto.
          -- intros x Hx. rewrite syms_app in Hx. apply in_app_or in Hx as [Hx|Hx]; right.
             ++ destruct (A6 x Hx) as [Ho|(j & b & Hj & Hn & Hi & Hxs)].
                ** exists k, is. repeat split; auto. apply B1, A1. left; auto.
                ** exists j, b. repeat split; auto. intros Hc. apply Hn. right; auto.
             ++ destruct (B6 x Hx) as [[]|(j & b & Hj & Hn & Hi & Hxs)]. exists j, b. repeat split; auto.
                intros Hc. apply Hn, A1. right; auto.
          -- rewrite syms_app. apply NoDup_app_iff. split; [auto|split; auto]. intros x Hx Hx2.
             destruct (B6 x Hx2) as [[]|(j & b & Hj & Hn & Hi & Hxs)].
             destruct (A6 x Hx) as [Ho|(j' & b' & Hj' & Hn' & Hi' & Hxs')].
             ++ apply (@Apart _ _ _ _ x HTk Hj); auto. intros ->. apply Hn, A1. left; auto.
             ++ apply (@Apart _ _ _ _ x Hj' Hj); auto. intros ->. auto.
        * intros m [<-|Hm]; auto. simpl. apply B1, A1. left; auto.
  Qed.

  Lemma flat_le N : forall is, msize is < N -> flat_good is.
  Proof.
    induction N as [|N IHN]; [intros; lia|]. intros is Hsz.
    assert (HM : forall is', msize is' < msize is -> flat_good is') by (intros; apply IHN; lia). clear IHN Hsz.
    intros seen Dm D O Hcl HN Hap HO HOs HD HDm HS. destruct is as [|i is].
    { simpl. split; simpl; auto; try tauto; try (intros; eapply HD; eauto; fail). }
    assert (Hlt : msize is < msize (i :: is)) by (unfold msize; simpl; destruct i; simpl; lia).
    rewrite flat_cons. cbn [fst snd].
    simpl in HS. apply andb_true_iff in HS as [HS1 HS2].
    unfold syms in HN, Hap. cbn [flat_map] in HN, Hap. fold (syms is) in HN, Hap.
    apply NoDup_app_iff in HN as (N1 & N2 & N3).
    assert (F1 : flat_spec (item_syms i) (usable i) seen O D (fst (flat_item seen i)) (snd (flat_item seen i))).
    { assert (BAS : basic i -> flat_spec (item_syms i) (usable i) seen O D [i] seen).
      { intros Hb. split; auto.
        - simpl. rewrite andb_true_r. destruct i as [| ? ? ? ? [|] |]; auto. eapply sscoped_incl; eauto.
        - intros x Hx. unfold values. simpl. rewrite app_nil_r. apply in_or_app. left. destruct i; auto.
        - intros k a x Hk Hks HkO Hx. apply in_or_app. right. eapply HD; eauto.
        - intros x Hx. left. unfold syms in Hx. simpl in Hx. rewrite app_nil_r in Hx. auto.
        - unfold syms. simpl. rewrite app_nil_r. auto. }
      destruct i as [x ps cs|x vars t ex b|mods]; try (apply BAS; exact I).
      rewrite flat_import.
      assert (HT : forall m, In m mods -> In m T /\ msize (snd m) < msize (IImport mods :: is) /\ (forall m', In m' (reached (snd m)) -> In m' T)).
      { intros m Hm. split; [|split].
        - apply Hcl. unfold reached. cbn [flat_map imports]. apply in_or_app. left. apply in_flat_map. exists m. split; auto. left; auto.
        - apply sum_mods in Hm. unfold msize in *. simpl. lia.
        - intros m' Hm'. apply Hcl. unfold reached. cbn [flat_map imports]. apply in_or_app. left.
          apply in_flat_map. exists m. split; auto. right. exact Hm'. }
      destruct (@flat_mods_ok _ HM mods seen D O HT HO HOs HD) as [F S]. destruct F as [A1 A2 A3 A4 A5 A6 A7].
      split; auto. intros x Hx. cbn [usable] in Hx. apply in_flat_map in Hx as ([k a] & Hm & Hx). destruct (HT _ Hm) as (HTm & Hsz & _).
      apply (A5 k a x); auto; [apply (S _ Hm)|]. intros HkO. specialize (HO k a HkO HTm). simpl in Hsz. lia. }
    set (l1 := fst (flat_item seen i)) in *. set (seen1 := snd (flat_item seen i)) in *.
    destruct F1 as [A1 A2 A3 A4 A5 A6 A7].
    assert (F2 : flat_spec (syms is) (values is) seen1 O (values l1 ++ D) (fst (flat_items seen1 is)) (snd (flat_items seen1 is))).
    { apply (HM is Hlt seen1 (usable i ++ Dm) (values l1 ++ D) O); auto.
      - intros m Hm. apply Hcl. unfold reached. simpl. apply in_or_app. auto.
      - intros k a x Hk HkO Hx. apply (Hap k a x); auto. apply in_or_app; auto.
      - intros k a Hk Hka. specialize (HO k a Hk Hka). lia.
      - intros x Hx. apply in_app_or in Hx as [Hx|Hx]; auto. apply in_or_app. auto. }
    destruct F2 as [B1 B2 B3 B4 B5 B6 B7]. split.
    - auto.
    - apply Forall_app; auto.
    - apply module_scoped_app; auto.
    - intros x Hx. rewrite values_app. unfold values in Hx. cbn [flat_map] in Hx. apply in_app_or in Hx as [Hx|Hx].
      + assert (Hu : In x (usable i)) by (destruct i; auto; destruct Hx). specialize (A4 x Hu). rewrite !in_app_iff in *. tauto.
      + specialize (B4 x Hx). rewrite !in_app_iff in *. tauto.
    - intros k a x Hk Hks HkO Hx. rewrite values_app. specialize (B5 k a x Hk Hks HkO Hx). rewrite !in_app_iff in *. tauto.
    - intros x Hx. rewrite syms_app in Hx. unfold syms at 1. cbn [flat_map]. rewrite in_app_iff. apply in_app_or in Hx as [Hx|Hx].
      + destruct (A6 x Hx) as [?|(j & b & Hj & Hn & Hi & Hxs)]; auto. right. exists j, b. repeat split; auto.
      + destruct (B6 x Hx) as [?|(j & b & Hj & Hn & Hi & Hxs)]; auto. right. exists j, b. repeat split; auto.
    - rewrite syms_app. apply NoDup_app_iff. split; [auto|split; auto]. intros x Hx Hx2.
      destruct (A6 x Hx) as [Ho|(j & b & Hj & Hn & Hi & Hxs)], (B6 x Hx2) as [Ho'|(j' & b' & Hj' & Hn' & Hi' & Hxs')].
      + eapply N3; eauto.
      + apply (Hap j' b' x Hj'); auto. apply in_or_app; auto.
      + apply (Hap j b x Hj); auto. apply in_or_app; auto.
      + apply (@Apart _ _ _ _ x Hj Hj'); auto. intros ->. auto.
  Qed.
End Flat.

Theorem flat_resolved root : resolved root -> NoDup (syms (flat root)) /\ module_scoped [] (flat root) = true /\ Forall basic (flat root).
Proof.
  intros [R1 [R2 R2'] [R3 R3'] [R4 R4']].
  destruct (@flat_le (reached root) R1 R2' R3' R4' (S (msize root)) root (Nat.lt_succ_diag_r _) [] [] [] []) as [A1 A2 A3 A4 A5 A6 A7]; auto.
  - intros k a x Hk _ Hx. eapply R3; eauto.
  - intros k a [].
Qed.
