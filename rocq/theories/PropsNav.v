(** C53: go to definition and find references. *)
From Verif Require Import TypeckProg ResolveFacts ResolveProofs ResolveLex NavSpec NavProofs NavUnits.
Set Implicit Arguments.

Lemma names_app a : forall xs ys, exists zs, names_of_items (xs ++ ys) a = names_of_items xs a ++ zs /\ length zs = length ys.
Proof.
  intros xs. revert a. induction xs as [|x xs IH]; intros a ys; cbn.
  - eexists. split; [reflexivity|]. revert a. induction ys; intros; cbn; auto.
  - destruct (IH (after_item x a) ys) as (zs & E & L). exists zs. rewrite E. auto.
Qed.
Lemma in_items_app : forall ps1 at_ ps2 fs1 fs2, length fs1 = length ps1 -> in_items at_ (ps1 ++ ps2) (fs1 ++ fs2) -> in_items at_ ps1 fs1 /\ in_items (end_of at_ ps1) ps2 fs2.
Proof.
  induction ps1 as [|p ps1 IH]; intros at_ ps2 [|f fs1] fs2 L H; try discriminate; cbn in *; auto. destruct H as (A & B & C). injection L as L. destruct (IH _ _ _ _ L C). auto.
Qed.
Lemma in_items_at n : forall at_ ps fs f, in_items at_ ps fs -> In f fs -> In n (map fst (fst f) ++ snd f) -> at_ <= id_at n.
Proof.
  intros a ps0. revert a. induction ps0 as [|q qs IH]; intros a [|g gs] f0 HI Hf0 Hn0; try contradiction. destruct HI as (A1 & A2 & A3).
  destruct Hf0 as [->|Hf0]; [apply (A2 _ Hn0)|]. specialize (IH _ _ _ A3 Hf0 Hn0). lia.
Qed.
Lemma in_items_grows : forall ps at_ fs, in_items at_ ps fs -> ps <> [] -> at_ < end_of at_ ps.
Proof.
  induction ps as [|p ps IH]; intros at_ [|f fs] H N; try contradiction. destruct H as (A & _ & B). cbn. destruct ps as [|q ps]; [cbn; auto|].
  assert (q :: ps <> []) as Nq by discriminate. specialize (IH _ _ B Nq). lia.
Qed.
Lemma combine_in {A B} (R : A -> B -> Prop) l l' a b : Forall2 R l l' -> In (a, b) (combine l l') -> R a b /\ In a l /\ In b l'.
Proof. intros F H. split; [|split; [eapply in_combine_l; eauto|eapply in_combine_r; eauto]]. induction F; cbn in H; [destruct H|]. destruct H as [H|H]; auto. injection H as -> ->. auto. Qed.
Lemma forall2_l {A B} (R : A -> B -> Prop) l l' a : Forall2 R l l' -> In a l -> exists b, In b l' /\ R a b.
Proof. induction 1 as [|x y l l' H _ IH]; intros []; [subst; exists y; cbn; auto|]. destruct IH as (b & Hb & Q); auto. exists b. cbn. auto. Qed.
Lemma forall2_r {A B} (R : A -> B -> Prop) l l' b : Forall2 R l l' -> In b l' -> exists a, In a l /\ R a b.
Proof. induction 1 as [|x y l l' H _ IH]; intros []; [subst; exists x; cbn; auto|]. destruct IH as (a & Ha & Q); auto. exists a. cbn. auto. Qed.
Lemma first_find {A} (p : A -> bool) (g : nitem -> list A) L : first_some (fun i => find p (g i)) L = find p (flat_map g L).
Proof.
  induction L as [|i L IH]; cbn; auto. rewrite IH. induction (g i) as [|x l IHl]; cbn; auto. destruct (p x); auto.
Qed.

Lemma nodup_fst (l : list (ident * ident)) n a b : NoDup (map fst l) -> In (n, a) l -> In (n, b) l -> a = b.
Proof.
  induction l as [|[x y] l IH]; [intros _ []|]. cbn. intros N Ha Hb. inversion_clear N as [|? ? N1 N2]. destruct Ha as [Ha|Ha], Hb as [Hb|Hb]; auto.
  - congruence.
  - injection Ha as -> ->. exfalso. apply N1. apply (in_map fst _ _ Hb).
  - injection Hb as -> ->. exfalso. apply N1. apply (in_map fst _ _ Ha).
Qed.

Section Nav.
  Variable sy : nat -> sym.
  Hypothesis J : forall a b, sy a = sy b -> a = b.
  Variable ps : list placed.
  Hypothesis LO : laid_out ps.
  Let L := nv_items (run sy 0 ps c0 0).
  Variable ps1 : list placed.
  Hypothesis P1 : exists ps2, ps = ps1 ++ ps2.
  Let L1 := nv_items (run sy 0 ps1 c0 0).
  Variable pos : nat.
  Hypothesis HP : ps1 = ps \/ pos + 1 <= end_of 0 ps1.

  Lemma names_split : exists ps2 fs2, ps = ps1 ++ ps2 /\ names_of ps = names_of ps1 ++ fs2 /\ in_items 0 ps1 (names_of ps1) /\ in_items (end_of 0 ps1) ps2 fs2.
  Proof.
    destruct P1 as (ps2 & E). unfold names_of. pose proof (lo_items LO) as H. unfold names_of in H. rewrite E in H |- *. rewrite map_app in *.
    destruct (names_app a0 (map pl_item ps1) (map pl_item ps2)) as (zs & Z & _). rewrite Z in *. exists ps2, zs. split; auto. split; auto.
    apply in_items_app in H; auto. clear. generalize a0. induction ps1 as [|p q IH]; intros; cbn; auto.
  Qed.
  Lemma located f n : In f (names_of ps) -> In n (map fst (fst f) ++ snd f) -> on n pos = true -> In f (names_of ps1).
  Proof.
    intros Hf Hn O. destruct names_split as (ps2 & fs2 & E & N & I1 & I2). rewrite N in Hf. apply in_app_iff in Hf as [Hf|Hf]; auto.
    pose proof (@in_items_at n _ _ _ _ I2 Hf Hn) as Q. unfold on in O. apply andb_true_iff in O as [O _]. apply Nat.leb_le in O. destruct HP as [->|H]; [|lia].
    rewrite <- (app_nil_r ps) in E at 1. apply app_inv_head in E. subst ps2. destruct fs2; [destruct Hf|contradiction].
  Qed.
  Lemma names_sub f : In f (names_of ps1) -> In f (names_of ps).
  Proof. intros H. destruct names_split as (ps2 & fs2 & E & N & _). rewrite N. apply in_app_iff. auto. Qed.
  Lemma items_sub i : In i L1 -> In i L.
  Proof. intros H. unfold L. destruct P1 as (ps2 & ->). rewrite run_app. cbn [nv_items]. apply in_app_iff. auto. Qed.
  Lemma owns_sub s d : owns L1 s d -> owns L s d.
  Proof. intros (e & He & Q). exists e. split; auto. apply in_flat_map in He as (i & Hi & He). apply in_flat_map. exists i. split; auto. apply items_sub. auto. Qed.
  Lemma spans1 : spans 0 ps1 L1. Proof. apply run_spans. Qed.
  Lemma owns1 : Forall2 (item_ok (owns L1)) L1 (names_of ps1). Proof. apply run_owns. Qed.
  Lemma use_in f u : In f (names_of ps) -> In u (fst f) -> In u (uses ps).
  Proof. intros Hf Hu. apply in_flat_map. eauto. Qed.
  Lemma bind_in f d : In f (names_of ps) -> In d (snd f) -> In d (binders ps).
  Proof. intros Hf Hu. apply in_flat_map. eauto. Qed.
  Lemma apart_use a b : In a (map fst (uses ps) ++ binders ps) -> In b (map fst (uses ps) ++ binders ps) -> on a pos = true -> on b pos = true -> a = b.
  Proof. apply (lo_apart LO). Qed.

  Lemma ref_found n d : In (n, d) (uses ps) -> on n pos = true -> exists r, find_ref_at L1 pos = Some r /\ r_name r = n /\ owns L1 (r_sym r) d.
  Proof.
    intros Hu O. pose proof Hu as Hu'. apply in_flat_map in Hu as (f & Hf & Hu). assert (Hn : In n (map fst (fst f) ++ snd f)) by (apply in_app_iff; left; apply (in_map fst _ _ Hu)).
    pose proof (@located _ _ Hf Hn O) as Hf1. destruct names_split as (ps2 & fs2 & _ & _ & I1 & _).
    destruct (@name_at pos _ O _ _ _ _ _ I1 spans1 Hf1 Hn) as (i & Hi & G). apply (@combine_in _ _ _ _ _ _ _ owns1) in Hi as ((_ & F) & Hi & _). unfold find_ref_at. rewrite G.
    change (ui_refs (ni_unit i)) with (irefs i). destruct (@forall2_r _ _ _ _ _ _ F Hu) as (r & Hr & Rn & Rd). cbn [fst snd] in *.
    destruct (find _ (irefs i)) as [r'|] eqn:Ef.
    - apply find_some in Ef as [Hr' O']. destruct (@forall2_l _ _ _ _ _ _ F Hr') as ([n' d'] & Hu2 & Rn' & Rd'). cbn [fst snd] in *. rewrite Rn' in O'.
      assert (n' = n) by (apply apart_use; auto; apply in_app_iff; left; [apply (in_map fst _ _ (@use_in _ _ Hf Hu2))|apply (in_map fst _ _ Hu')]). clear Rn. subst n.
      exists r'. split; auto. split; auto. replace d with d'; auto.
      pose proof (lo_once LO) as N. apply NoDup_app_iff in N as (N & _). exact (@nodup_fst _ _ _ _ N (@use_in _ _ Hf Hu2) Hu').
    - exfalso. apply (find_none _ _ Ef) in Hr. cbn in Hr. congruence.
  Qed.
  Lemma ref_none : (forall n d, In (n, d) (uses ps) -> on n pos = false) -> find_ref_at L1 pos = None.
  Proof.
    intros H. destruct names_split as (ps2 & fs2 & _ & _ & I1 & _). unfold find_ref_at.
    destruct (@item_at pos _ _ _ _ I1 spans1) as [(i & f & Hi & _ & G)|(G & _)]; rewrite G; auto. change (ui_refs (ni_unit i)) with (irefs i).
    apply (@combine_in _ _ _ _ _ _ _ owns1) in Hi as ((_ & F) & Hi & Hf). destruct (find _ (irefs i)) as [r|] eqn:Ef; auto. exfalso. apply find_some in Ef as [Hr O].
    destruct (@forall2_l _ _ _ _ _ _ F Hr) as ([n d] & Hu & Rn & _). cbn in Rn. rewrite Rn in O. rewrite (H n d) in O; [discriminate|]. apply (@use_in f); auto. apply names_sub. auto.
  Qed.
  Lemma def_found d : In d (binders ps) -> on d pos = true -> exists e, find_def_at L1 pos = Some e /\ d_name e = d /\ In e (flat_map idefs L1).
  Proof.
    intros Hd O. pose proof Hd as Hd'. apply in_flat_map in Hd as (f & Hf & Hd). assert (Hn : In d (map fst (fst f) ++ snd f)) by (apply in_app_iff; auto).
    pose proof (@located _ _ Hf Hn O) as Hf1. destruct names_split as (ps2 & fs2 & _ & _ & I1 & _).
    destruct (@name_at pos _ O _ _ _ _ _ I1 spans1 Hf1 Hn) as (i & Hi & G). apply (@combine_in _ _ _ _ _ _ _ owns1) in Hi as ((B & _) & Hi & _). unfold find_def_at. rewrite G.
    change (ui_defs (ni_unit i)) with (idefs i). rewrite <- B in Hd. apply in_map_iff in Hd as (e & Ee & He).
    destruct (find _ (idefs i)) as [e'|] eqn:Ef.
    - apply find_some in Ef as [He' O']. exists e'. split; auto. split; [|apply in_flat_map; eauto]. apply apart_use; auto; apply in_app_iff; right; auto.
      apply (@bind_in f); auto. rewrite <- B. apply in_map. auto.
    - exfalso. apply (find_none _ _ Ef) in He. cbn in He. congruence.
  Qed.
  Lemma def_none : (forall d, In d (binders ps) -> on d pos = false) -> find_def_at L1 pos = None.
  Proof.
    intros H. destruct names_split as (ps2 & fs2 & _ & _ & I1 & _). unfold find_def_at.
    destruct (@item_at pos _ _ _ _ I1 spans1) as [(i & f & Hi & _ & G)|(G & _)]; rewrite G; auto. change (ui_defs (ni_unit i)) with (idefs i).
    apply (@combine_in _ _ _ _ _ _ _ owns1) in Hi as ((B & _) & Hi & Hf). destruct (find _ (idefs i)) as [e|] eqn:Ef; auto. exfalso. apply find_some in Ef as [He O].
    rewrite (H (d_name e)) in O; [discriminate|]. apply (@bind_in f); [apply names_sub; auto|]. rewrite <- B. apply in_map. auto.
  Qed.
  (** On a definition there is no reference. *)
  Lemma def_no_ref d : In d (binders ps) -> on d pos = true -> find_ref_at L1 pos = None.
  Proof.
    intros Hd O. apply ref_none. intros n d' Hu. destruct (on n pos) eqn:On; auto. exfalso. pose proof (in_map fst _ _ Hu) as Hu'. cbn in Hu'.
    assert (n = d) by (apply apart_use; auto; apply in_app_iff; auto). subst n. pose proof (lo_once LO) as N. apply NoDup_app_iff in N as (_ & _ & N). eapply N; eauto.
  Qed.
  Lemma owner s d e : owns L s d -> In e (flat_map idefs L) -> d_sym e = s -> d_name e = d.
  Proof. intros (e' & He' & E1 & E2) He E. rewrite <- E2. f_equal. eapply nodup_sym; [apply (@run_distinct sy J ps)| | |]; eauto. congruence. Qed.
  Lemma def_sub e : In e (flat_map idefs L1) -> In e (flat_map idefs L).
  Proof. intros He. apply in_flat_map in He as (i & Hi & He). apply in_flat_map. exists i. split; auto. apply items_sub. auto. Qed.
  Lemma find_def_ok s d : owns L1 s d -> option_map d_name (find_def L1 s) = Some d.
  Proof.
    intros H. unfold find_def. rewrite (first_find (fun e => d_sym e =? s) idefs). destruct (find _ _) as [e|] eqn:Ef.
    - apply find_some in Ef as [He E]. apply Nat.eqb_eq in E. cbn. f_equal. eapply owner; eauto; [apply owns_sub; eauto|apply def_sub; auto].
    - exfalso. destruct H as (e & He & E & _). apply (find_none _ _ Ef) in He. cbn in He. apply Nat.eqb_neq in He. auto.
  Qed.
  Lemma find_item_ok s d : owns L1 s d -> exists i e, find_def_item L1 s = Some (i, e) /\ In i L1 /\ In e (idefs i) /\ d_sym e = s.
  Proof.
    intros (e & He & E & _). unfold find_def_item. change (fun i => option_map (pair i) (find (fun d => d_sym d =? s) (ui_defs (ni_unit i)))) with (fun i => option_map (pair i) (find (fun d => d_sym d =? s) (idefs i))).
    induction L1 as [|i l IH]; [destruct He|]. cbn in He. apply in_app_iff in He. cbn [first_some]. destruct (find _ (idefs i)) as [e'|] eqn:Ef.
    - cbn. apply find_some in Ef as [He' E']. apply Nat.eqb_eq in E'. exists i, e'. cbn. auto.
    - destruct He as [He|He]; [exfalso; apply (find_none _ _ Ef) in He; cbn in He; apply Nat.eqb_neq in He; auto|].
      destruct (IH He) as (j & e' & Q & Hj & R). exists j, e'. cbn. auto.
  Qed.
  (** All references to a definition. *)
  Lemma binder_names : map d_name (flat_map idefs L) = binders ps.
  Proof.
    pose proof (run_owns sy ps) as F. fold L in F. unfold binders. induction F as [|i f l fs [B _] _ IH]; cbn; auto. rewrite map_app, B. f_equal. exact IH.
  Qed.
  Lemma all_uses : Forall2 (use_ok (owns L)) (flat_map irefs L) (uses ps).
  Proof.
    pose proof (run_owns sy ps) as F. fold L in F. unfold uses. remember (owns L) as D. clear HeqD. induction F as [|i f l fs [_ B] _ IH]; cbn; auto. apply Forall2_app; auto.
  Qed.
  Lemma owns_binder s d : owns L s d -> In d (binders ps).
  Proof. intros (e & He & _ & <-). rewrite <- binder_names. apply in_map. auto. Qed.
  Lemma on_start d : on d (id_at d) = true.
  Proof. unfold on. apply andb_true_iff. split; apply Nat.leb_le; lia. Qed.
  Lemma sym_iff s d s' d' : owns L s d -> owns L s' d' -> (s' =? s) = (id_at d' =? id_at d).
  Proof.
    intros H H'. destruct (Nat.eqb_spec s' s) as [->|N]; destruct (Nat.eqb_spec (id_at d') (id_at d)) as [E|N']; auto.
    - exfalso. apply N'. destruct H' as (e & He & E1 & <-). rewrite (@owner _ _ _ H He E1). auto.
    - exfalso. apply N. assert (d' = d).
      { apply (lo_apart LO) with (pos := id_at d); [| | |apply on_start].
        - apply in_app_iff. right. eapply owns_binder; eauto.
        - apply in_app_iff. right. eapply owns_binder; eauto.
        - rewrite <- E. apply on_start. }
      subst d'. destruct H as (e & He & <- & Ed), H' as (e' & He' & <- & Ed'). f_equal. pose proof (lo_once LO) as ND. apply NoDup_app_iff in ND as (_ & ND & _). rewrite <- binder_names in ND.
      clear - ND He He' Ed Ed'. induction (flat_map idefs L) as [|x l IH]; [destruct He|]. cbn in *. inversion_clear ND as [|? ? N1 N2]. destruct He as [->|He], He' as [->|He']; auto.
      + exfalso. apply N1. rewrite Ed, <- Ed'. apply in_map. auto.
      + exfalso. apply N1. rewrite Ed', <- Ed. apply in_map. auto.
  Qed.
  Lemma all_refs s d : owns L s d -> refs_to s (flat_map irefs L) = users ps d.
  Proof.
    intros H. unfold refs_to, users. induction all_uses as [|r u rs us [A B] _ IH]; auto. cbn [filter]. rewrite (@sym_iff _ _ _ _ H B). destruct (_ =? _); cbn; rewrite ?IH, ?A; auto.
  Qed.
  Lemma refs_app s a b : refs_to s (a ++ b) = refs_to s a ++ refs_to s b.
  Proof. unfold refs_to. rewrite filter_app, map_app. auto. Qed.
  Lemma no_refs s l : (forall i r, In i l -> In r (irefs i) -> r_sym r <> s) -> refs_to s (flat_map irefs l) = [].
  Proof.
    intros H. induction l as [|i l IH]; auto. cbn [flat_map]. rewrite refs_app, IH by (intros j r Hj; apply H; right; auto). rewrite app_nil_r.
    assert (Q : forall r, In r (irefs i) -> r_sym r <> s) by (intros r; apply H; left; auto). unfold refs_to. induction (irefs i) as [|r rs IHr]; auto. cbn.
    destruct (Nat.eqb_spec (r_sym r) s) as [E|N]; [exfalso; apply (Q r); cbn; auto|]. apply IHr. intros; apply Q; cbn; auto.
  Qed.
  Lemma local_all i e : In i L -> In e (idefs i) -> d_vis e = Local -> refs_to (d_sym e) (irefs i) = refs_to (d_sym e) (flat_map irefs L).
  Proof.
    intros Hi He V. pose proof (@run_distinct sy J ps) as ND. fold L in ND.
    assert (LR : forall j r, In j L -> In r (irefs j) -> r_sym r = d_sym e -> In e (idefs j)).
    { intros j r Hj Hr E. apply (@local_refs sy J ps j r e); auto. apply in_flat_map. eauto. }
    destruct (in_split _ _ Hi) as (A & B & E). rewrite E in *. rewrite flat_map_app, map_app in ND. cbn [flat_map] in ND. rewrite map_app in ND.
    apply NoDup_app_iff in ND as (_ & ND & N1). apply NoDup_app_iff in ND as (_ & _ & N2). rewrite flat_map_app. cbn [flat_map]. rewrite !refs_app.
    assert (Z1 : refs_to (d_sym e) (flat_map irefs A) = []).
    { apply no_refs. intros j r Hj Hr Er. apply (N1 (d_sym e)).
      - apply in_map. apply in_flat_map. exists j. split; auto. apply (LR j r); auto. apply in_app_iff. auto.
      - apply in_app_iff. left. apply in_map. auto. }
    assert (Z2 : refs_to (d_sym e) (flat_map irefs B) = []).
    { apply no_refs. intros j r Hj Hr Er. apply (N2 (d_sym e)); [apply in_map; auto|].
      apply in_map. apply in_flat_map. exists j. split; auto. apply (LR j r); auto. apply in_app_iff. right. right. auto. }
    rewrite Z1, Z2, app_nil_r. auto.
  Qed.
End Nav.
Lemma to_end_all sy ps v ps1 : laid_out ps -> reached sy ps v ps1 -> nv_items (nav_to_end sy ps v) = nv_items (run sy 0 ps c0 0).
Proof.
  intros LO R. unfold nav_to_end. rewrite end_rev. destruct (@up_to_reached sy ps v ps1 (end_of 0 ps) R) as (ps2 & R2 & D). destruct R2 as [Q ->].
  assert (E : ps2 = ps); [|rewrite E; auto]. destruct D as [D|D]; auto. destruct (@names_split ps LO ps2 Q) as (p3 & fs2 & E & _ & _ & I2).
  destruct p3 as [|p p3]; [rewrite E, app_nil_r; auto|]. exfalso. rewrite E, end_app in D. assert (N : p :: p3 <> []) by discriminate. pose proof (@in_items_grows _ _ _ I2 N). lia.
Qed.

(** Whatever was compiled before: on a use, go to definition finds the definition the name refers to; on a
    definition, that definition; elsewhere, nothing. *)
Theorem C53_go_to_definition sy ps offs pos : (forall a b, sy a = sy b -> a = b) -> laid_out ps ->
  let found := snd (find_definition sy ps pos (nav_after sy ps offs)) in
  (forall n d, In (n, d) (uses ps) -> on n pos = true -> found = Some d) /\
  (forall d, In d (binders ps) -> on d pos = true -> found = Some d) /\
  ((forall n, In n (map fst (uses ps) ++ binders ps) -> on n pos = false) -> found = None).
Proof.
  intros J LO. destruct (after_reached sy ps offs) as (ps0 & R0). destruct (@up_to_reached sy ps _ ps0 (pos + 1) R0) as (ps1 & (P1 & E) & HP). cbn zeta. unfold find_definition. cbn [snd]. rewrite E. split; [|split].
  - intros n d Hu O. destruct (@ref_found sy ps LO ps1 P1 pos HP n d Hu O) as (r & -> & _ & H). apply (@find_def_ok sy J ps LO ps1 P1 pos HP); auto.
  - intros d Hd O. rewrite (@def_no_ref sy ps LO ps1 P1 pos d Hd O). destruct (@def_found sy ps LO ps1 P1 pos HP d Hd O) as (e & -> & <- & _). auto.
  - intros H. rewrite (@ref_none sy ps LO ps1 P1 pos), (@def_none sy ps LO ps1 P1 pos); auto.
    + intros d Hd. apply H, in_app_iff. auto.
    + intros n d Hu. apply H, in_app_iff. left. apply (in_map fst _ _ Hu).
Qed.
Print Assumptions C53_go_to_definition.

(** Find references gives all uses of the definition, in the whole unit, wherever it is asked. *)
Theorem C53_find_references sy ps offs pos : (forall a b, sy a = sy b -> a = b) -> laid_out ps ->
  let found := snd (find_references sy ps pos (nav_after sy ps offs)) in
  (forall n d, In (n, d) (uses ps) -> on n pos = true -> found = Some (users ps d)) /\
  (forall d, In d (binders ps) -> on d pos = true -> found = Some (users ps d)) /\
  ((forall n, In n (map fst (uses ps) ++ binders ps) -> on n pos = false) -> found = None).
Proof.
  intros J LO. destruct (after_reached sy ps offs) as (ps0 & R0). destruct (@up_to_reached sy ps _ ps0 (pos + 1) R0) as (ps1 & R1 & HP). pose proof R1 as (P1 & E).
  assert (G : forall s d, owns (nv_items (run sy 0 ps1 c0 0)) s d -> find_def_or_ref_at (nv_items (run sy 0 ps1 c0 0)) pos = Some s ->
    snd (find_references sy ps pos (nav_after sy ps offs)) = Some (users ps d)).
  { intros s d O F. unfold find_references. rewrite E, F. destruct (@find_item_ok sy ps1 s d O) as (i & e & -> & Hi & He & <-).
    pose proof (@owns_sub sy ps LO ps1 P1 pos HP _ _ O) as OL. destruct (d_vis e) eqn:V; cbn [snd]; f_equal.
    - change (ui_refs (ni_unit i)) with (irefs i). rewrite (@local_all sy J ps i e); auto; [apply (@all_refs sy J ps LO ps1 pos HP); auto|apply (@items_sub sy ps LO ps1 P1 pos HP); auto].
    - change (fun i => ui_refs (ni_unit i)) with irefs. rewrite <- E, (@to_end_all sy ps _ ps1 LO R1). apply (@all_refs sy J ps LO ps1 pos HP); auto.
    - change (fun i => ui_refs (ni_unit i)) with irefs. rewrite <- E, (@to_end_all sy ps _ ps1 LO R1). apply (@all_refs sy J ps LO ps1 pos HP); auto. }
  cbn zeta. split; [|split].
  - intros n d Hu O. destruct (@ref_found sy ps LO ps1 P1 pos HP n d Hu O) as (r & F & _ & H). apply (G (r_sym r)); auto. unfold find_def_or_ref_at. rewrite F. auto.
  - intros d Hd O. destruct (@def_found sy ps LO ps1 P1 pos HP d Hd O) as (e & F & <- & He). apply (G (d_sym e)); [exists e; auto|].
    unfold find_def_or_ref_at. rewrite (@def_no_ref sy ps LO ps1 P1 pos _ Hd O), F. auto.
  - intros H. unfold find_references, find_def_or_ref_at. rewrite E, (@ref_none sy ps LO ps1 P1 pos), (@def_none sy ps LO ps1 P1 pos); auto.
    + intros d Hd. apply H, in_app_iff. auto.
    + intros n d Hu. apply H, in_app_iff. left. apply (in_map fst _ _ Hu).
Qed.
Print Assumptions C53_find_references.

(** ** The specification: names refer to definitions of the unit with the same text *)
Definition same (f : found) : Prop := Forall (fun u => id_text (fst u) = id_text (snd u)) (fst f).
Lemma same_both x y : same x -> same y -> same (x +++ y). Proof. intros A B. apply Forall_app. auto. Qed.
Lemma same_nothing : same nothing. Proof. constructor. Qed.
Lemma closest_same l n d : closest l n = Some d -> id_text n = id_text d.
Proof. intros E. apply find_some in E as [_ E]. unfold text_eqb in E. destruct (list_eq_dec _ _ _); [auto|discriminate]. Qed.
Lemma same_look l n : same (look l n).
Proof. unfold look. destruct (closest l n) as [d|] eqn:E; [|apply same_nothing]. constructor; [cbn; eapply closest_same; eauto|constructor]. Qed.
#[local] Hint Resolve same_both same_nothing same_look : same.
Lemma same_ty a : forall t, same (ty_names_of a t).
Proof. induction t using xty_ind'; cbn [ty_names_of]; auto with same. apply same_both; auto with same. induction H; auto with same. Qed.
Lemma same_ann : forall t a, same (fst (ann_names_of t a)).
Proof.
  induction t using xty_ind'; intros a; cbn [ann_names_of]; auto with same.
  - specialize (IHt1 a). destruct (ann_names_of t1 a) as [f a1]. specialize (IHt2 a1). destruct (ann_names_of t2 a1) as [g a2]. cbn in *. auto with same.
  - match goal with |- context [let '(f, a1) := ?p in _] => assert (Q : same (fst p)); [|destruct p as [f a1]] end.
    { destruct (closest (ar_types a) n) as [d|] eqn:E; [constructor; [cbn; eapply closest_same; eauto|constructor]|]. destruct (small_letter _ && _); constructor. }
    match goal with |- context [let '(g, a2) := ?p in _] => assert (Q2 : same (fst p)); [|destruct p as [g a2]; cbn in *; auto with same] end.
    clear Q. revert a1. induction H as [|t args Ht _ IH]; intros a1; auto with same. specialize (Ht a1). destruct (ann_names_of t a1) as [g a3]. specialize (IH a3).
    match goal with |- context [let '(g, a2) := ?p in _] => destruct p as [h a4] end. cbn in *. auto with same.
Qed.
Lemma same_opt ann a : same (fst (opt_names_of ann a)). Proof. destruct ann; cbn; [apply same_ann|apply same_nothing]. Qed.
Lemma same_binders xs : same ([], xs). Proof. constructor. Qed.
#[local] Hint Resolve same_ty same_opt same_binders : same.
Lemma same_define d : same (define d). Proof. constructor. Qed.
#[local] Hint Resolve same_define : same.
Lemma same_expr : forall e a, same (expr_names_of e a).
Proof.
  induction e using xexpr_ind'; intros a'; cbn [expr_names_of]; auto with same. apply same_both; auto.
  induction H as [|[[n xs] b] cs Hb _ IH]; auto with same.
Qed.
Lemma same_fields a : forall fs, same (fields_names_of a fs). Proof. induction fs as [|[t|] fs IH]; cbn [fields_names_of]; auto with same. Qed.
Lemma same_cases a : forall cs seen, same (cases_names_of a seen cs).
Proof. induction cs as [|[n fs] cs IH]; intros seen; cbn [cases_names_of]; auto with same. apply same_both; [apply same_fields|]. destruct (closest seen n); auto with same. Qed.
Lemma same_item x a : same (item_names_of x a).
Proof.
  destruct x as [n e1 e2 ps cs|n ex ann [b|e]]; cbn [item_names_of]; repeat apply same_both; auto with same; [apply same_cases|apply same_expr].
Qed.
Theorem C53_uses_are_of_the_unit ps n d : In (n, d) (uses ps) -> id_text n = id_text d /\ In d (binders ps).
Proof.
  intros H. split.
  - unfold uses, names_of in H. apply in_flat_map in H as (f & Hf & H). assert (Q : same f).
    { clear H. revert Hf. generalize a0. induction (map pl_item ps) as [|x xs IH]; intros a Hf; [destruct Hf|]. destruct Hf as [<-|Hf]; [apply same_item|eauto]. }
    unfold same in Q. rewrite Forall_forall in Q. apply (Q _ H).
  - destruct (@forall2_r _ _ _ _ _ _ (all_uses (fun n => n) ps) H) as (r & _ & _ & O). eapply (@owns_binder (fun n => n)); eauto.
Qed.
Print Assumptions C53_uses_are_of_the_unit.

From Verif Require Import PropsResolve.
(** A unit that meets the hypotheses: the program of C52 in the source. *)
Definition ident_eqb (a b : ident) : bool := text_eqb (id_text a) (id_text b) && (id_at a =? id_at b).
Definition away (a b : ident) : bool := (id_at a + length (id_text a) <? id_at b) || (id_at b + length (id_text b) <? id_at a).
Fixpoint pairwise (l : list ident) : bool := match l with [] => true | a :: r => forallb (away a) r && pairwise r end.
Lemma away_on a b pos : away a b = true -> on a pos = true -> on b pos = true -> False.
Proof.
  unfold away, on. intros A B C. apply andb_true_iff in B as [B1 B2]. apply andb_true_iff in C as [C1 C2]. apply Nat.leb_le in B1, B2, C1, C2.
  apply orb_true_iff in A as [A|A]; apply Nat.ltb_lt in A; lia.
Qed.
Lemma on_self d : on d (id_at d) = true.
Proof. unfold on. apply andb_true_iff. split; apply Nat.leb_le; lia. Qed.
Lemma pairwise_ok l : pairwise l = true -> NoDup l /\ forall a b pos, In a l -> In b l -> on a pos = true -> on b pos = true -> a = b.
Proof.
  induction l as [|x l IH]; cbn; intros H; [split; [constructor|intros a b pos []]|]. apply andb_true_iff in H as [A H]. destruct (IH H) as [N Q]. rewrite forallb_forall in A. split.
  - constructor; auto. intros I. eapply away_on; [apply (A _ I)|apply on_self|apply on_self].
  - intros a b pos [->|Ha] [->|Hb] Oa Ob; [auto|exfalso|exfalso|eauto].
    + exact (@away_on _ _ pos (A _ Hb) Oa Ob).
    + exact (@away_on _ _ pos (A _ Ha) Ob Oa).
Qed.
Definition np : list placed := map (fun p => mkPlaced (fst p) (snd p)) (combine xp [33; 115; 305; 410]).
Lemma np_laid_out : laid_out np.
Proof.
  assert (P : pairwise (map fst (uses np) ++ binders np) = true) by (vm_compute; reflexivity). apply pairwise_ok in P as [N A]. constructor; auto.
  assert (Z : names_of np = ltac:(let v := eval vm_compute in (names_of np) in exact v)) by (vm_compute; reflexivity). rewrite Z. clear Z.
  unfold np, xp. cbn [combine map fst snd in_items pl_end]. repeat (split; [lia|split; [|]]); try exact I;
    intros n Hn; cbn in Hn; repeat (destruct Hn as [<-|Hn]; [cbn; lia|]); destruct Hn.
Qed.
(** On the second [map] of [main], after asking about [sum]: the local definition, used once. *)
Example C53_example : laid_out np /\
  (exists n d, In (n, d) (uses np) /\ on n 371 = true /\ id_at d = 320 /\ length (users np d) = 1) /\
  option_map id_at (snd (find_definition xp_sy np 371 (nav_after xp_sy np [40]))) = Some 320 /\
  option_map (map id_at) (snd (find_references xp_sy np 371 (nav_after xp_sy np [40]))) = Some [370] /\
  option_map (map id_at) (snd (find_references xp_sy np 8 nav_new)) = Some [42; 150; 170].
Proof.
  split; [apply np_laid_out|]. split; [|vm_compute; auto].
  exists (mkIdent [109;97;112]%N 370), (mkIdent [109;97;112]%N 320). split; [vm_compute; tauto|]. vm_compute. auto.
Qed.
