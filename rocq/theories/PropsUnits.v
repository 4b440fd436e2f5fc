(** C51: what is reported about a unit does not depend on what was asked before. *)
From Verif Require Import Units UnitsProofs TypeckShape TypeckProg PropsTypeck.
Set Implicit Arguments.

(** Annotations that are written are types. *)
Definition written (r : ritem) : Prop := match r with RVal _ (Some (_, t)) _ _ => t <> IrInfer | _ => True end.
(** A definition without annotation does not refer to itself, and its annotation is a type if it has one. *)
Definition good_item (r : ritem) : Prop :=
  match r with RVal x None _ (inr e) => avoids x e | RVal _ (Some (_, t)) _ _ => t <> IrInfer | _ => True end.

Lemma defs_kept types r : written r -> match r with RVal x None _ _ => assoc x types = Some IrInfer | _ => True end ->
  map (found_types types) (item_defs r) = item_defs r.
Proof.
  assert (O : forall vs : list sym, map (found_types types) (map (fun v => (v, DType 0 CtorOpaque)) vs) = map (fun v => (v, DType 0 CtorOpaque)) vs)
    by (intros vs; rewrite map_map; apply map_ext; auto).
  destruct r as [s ps cases|x [[vars t]|] ex b]; cbn; intros A U.
  - f_equal. rewrite map_app, O. f_equal. rewrite map_map. apply map_ext. auto.
  - rewrite O. f_equal. destruct t; auto. congruence.
  - rewrite U. auto.
Qed.
Lemma compile_item_defs k defs r c : good_item r -> compile_item k defs r = Done c -> cu_defs c = item_defs r.
Proof.
  intros A E. unfold compile_item in E. apply obind_inv in E as (res & _ & E). destruct r as [s ps cases|x ann ex [b|e]].
  - injection E as <-. auto.
  - injection E as <-. auto.
  - apply obind_inv in E as ([[b ty] o] & Et & E). injection E as <-. unfold cu_defs. refine (@defs_kept ty (RVal x ann ex (inr e)) _ _); destruct ann as [[vs t]|]; cbn; auto.
    cbn in A. eapply unannotated_unknown; eauto.
Qed.
Lemma good_items : forall rs K B, Forall written rs -> ritems_scoped K B rs = true -> NoDup (map fst (all_defs rs)) ->
  (forall y, In y B -> ~ In y (map fst (all_defs rs))) -> Forall good_item rs.
Proof.
  induction rs as [|r rs IH]; intros K B W R ND HB; constructor; inversion W as [|? ? W1 W2]; subst.
  - cbn [ritems_scoped] in R. apply andb_true_iff in R as [R _]. destruct r as [s ps cs|x [[vs t]|] ex [b|e]]; cbn; auto.
    apply (@rscoped_avoids K x e B); auto.
    + cbn in ND. inversion ND as [|? ? N _]; subst. intros Q. apply N. rewrite map_app, in_app_iff. auto.
    + intros Q. apply (HB _ Q). cbn. auto.
  - cbn [ritems_scoped] in R. apply andb_true_iff in R as [_ R]. cbn [all_defs flat_map] in ND, HB. rewrite map_app in ND, HB. apply NoDup_app_iff in ND as (_ & ND & D).
    apply (IH _ _ W2 R ND). intros y Hy. apply in_app_iff in Hy as [Hy|Hy].
    + apply D. rewrite map_app, in_app_iff. left. destruct r as [s ps cs|x ann ex b]; cbn in *.
      * right. rewrite map_app, in_app_iff. right. rewrite map_map. auto.
      * tauto.
    + intros Q. apply (HB _ Hy). rewrite in_app_iff. auto.
Qed.
Lemma loop_defs k rs : Forall good_item rs -> forall defs cs, compile_loop k defs rs = Done cs -> map cu_defs cs = map item_defs rs.
Proof.
  induction 1 as [|r rs A _ IH]; intros defs cs E; cbn in E; [injection E as <-; auto|].
  apply obind_inv in E as (c & Ec & E). apply obind_inv in E as (cs' & Es & E). injection E as <-. cbn.
  rewrite (compile_item_defs _ _ _ A Ec). f_equal. eauto.
Qed.
Lemma loop_app k a : forall defs b, compile_loop k defs (a ++ b) =
  (x <~ compile_loop k defs a ;; y <~ compile_loop k (flat_map item_defs (rev a) ++ defs) b ;; Done (x ++ y)).
Proof.
  induction a as [|r a IH]; intros defs b; cbn [app compile_loop].
  - cbn. destruct (compile_loop k defs b); auto.
  - destruct (compile_item k defs r) as [c| |]; cbn [obind]; auto. rewrite IH. destruct (compile_loop k (item_defs r ++ defs) a); cbn [obind]; auto.
    cbn [rev]. rewrite flat_map_app. cbn. rewrite app_nil_r, <- app_assoc. destruct (compile_loop k _ b); auto.
Qed.
Lemma loop_length k rs : forall defs cs, compile_loop k defs rs = Done cs -> length cs = length rs.
Proof.
  induction rs as [|r rs IH]; intros defs cs E; cbn in E; [injection E as <-; auto|].
  apply obind_inv in E as (c & Ec & E). apply obind_inv in E as (cs' & Es & E). injection E as <-. cbn. eauto.
Qed.
Lemma flat_rev (cs : list compiled) rs : map cu_defs cs = map item_defs rs -> flat_map cu_defs (rev cs) = flat_map item_defs (rev rs).
Proof. intros E. rewrite !flat_map_concat_map, !map_rev. apply f_equal, f_equal. exact E. Qed.

Lemma queries_loop k rs : Forall good_item rs -> forall ns a b done, rs = a ++ b -> compile_loop k [] a = Done done ->
  queries k rs (ns ++ [length rs]) done = compile_loop k [] rs.
Proof.
  intros A.
  assert (St : forall n a b done, rs = a ++ b -> compile_loop k [] a = Done done ->
    match compile_up_to k n rs done with
    | Done done' => exists a' b', rs = a' ++ b' /\ compile_loop k [] a' = Done done' /\ (n = length rs -> b' = [])
    | Loop => compile_loop k [] rs = Loop
    | Bad => compile_loop k [] rs = Bad
    end).
  { intros n a b done E Hd. pose proof (@loop_length k _ _ _ Hd) as L. unfold compile_up_to. destruct (Nat.leb_spec n (length done)) as [Le|Gt].
    - exists a, b. split; auto. split; auto. intros ->. rewrite E, app_length, L in Le. destruct b; cbn in Le; auto. lia.
    - rewrite L.
      assert (EA : rs = (a ++ firstn (n - length a) b) ++ skipn (n - length a) b) by (rewrite <- app_assoc, firstn_skipn; auto).
      assert (Sk : skipn (length a) rs = b) by (rewrite E, skipn_app, skipn_all, Nat.sub_diag; auto).
      assert (DF : flat_map cu_defs (rev done) = flat_map item_defs (rev a)).
      { apply flat_rev. apply (@loop_defs k a) with (defs := []); auto. rewrite E in A. apply Forall_app in A. tauto. }
      rewrite Sk, DF. assert (LA : compile_loop k [] (a ++ firstn (n - length a) b) =
        (y <~ compile_loop k (flat_map item_defs (rev a)) (firstn (n - length a) b) ;; Done (done ++ y))) by (rewrite loop_app, Hd; cbn [obind]; rewrite app_nil_r; auto).
      destruct (compile_loop k (flat_map item_defs (rev a)) (firstn (n - length a) b)) as [new| |]; cbn [obind] in *.
      + exists (a ++ firstn (n - length a) b), (skipn (n - length a) b). split; auto. split; auto. intros ->. apply skipn_all2. rewrite E, app_length. lia.
      + rewrite EA, loop_app, LA. auto.
      + rewrite EA, loop_app, LA. auto. }
  induction ns as [|n ns IH]; intros a b done E Hd; cbn [app queries].
  - specialize (St (length rs) a b done E Hd). destruct (compile_up_to k (length rs) rs done) as [d| |]; cbn [obind]; auto.
    destruct St as (a' & b' & E' & Hd' & N). rewrite (N eq_refl), app_nil_r in E'. congruence.
  - specialize (St n a b done E Hd). destruct (compile_up_to k n rs done) as [d| |]; cbn [obind]; auto.
    destruct St as (a' & b' & E' & Hd' & _). eauto.
Qed.
Lemma after_loop k rs : resolved_items rs -> Forall written rs -> forall ns,
  compiled_after k rs ns = (cs <~ compile_loop k [] rs ;; Done (map cu_result cs)).
Proof.
  intros R W ns. assert (A : Forall good_item rs) by (destruct R as [R1 R2 _]; apply (@good_items rs [] [] W R2 R1); intros y []).
  unfold compiled_after. rewrite (@queries_loop k rs A ns [] rs []); auto.
Qed.
(** Every sequence of queries ends with the same items and the same errors as compiling everything at once. *)
Theorem C51_queries_do_not_matter k rs : resolved_items rs -> Forall written rs -> forall ns,
  compiled_after k rs ns = compiled_after k rs [].
Proof. intros R W ns. rewrite !after_loop; auto. Qed.
Print Assumptions C51_queries_do_not_matter.

(** The type of a definition without annotation is never found out: whatever is asked, the type known for it to
    later items, to importers and to hover is unknown. *)
Theorem C51_unannotated_stays_unknown k rs x export body n cs : resolved_items rs -> Forall written rs ->
  nth_error rs n = Some (RVal x None export body) -> queries k rs [length rs] [] = Done cs ->
  exists c, nth_error cs n = Some c /\ cu_defs c = [(x, DValue [] IrInfer)].
Proof.
  intros R W Hn H. set (r := RVal x None export body) in *.
  assert (A : Forall good_item rs) by (destruct R as [R1 R2 _]; apply (@good_items rs [] [] W R2 R1); intros y []).
  pose proof (@queries_loop k rs A [] [] rs [] eq_refl eq_refl) as Hc. cbn [app] in Hc. rewrite H in Hc. symmetry in Hc. rename cs into all.
  apply (@loop_defs k rs A) in Hc. assert (E : nth_error (map cu_defs all) n = Some (item_defs r)) by (rewrite Hc, nth_error_map, Hn; auto).
  rewrite nth_error_map in E. destruct (nth_error all n) as [c|]; [|discriminate]. injection E as E. eauto.
Qed.
Print Assumptions C51_unannotated_stays_unknown.

(** Programs that meet the hypotheses: five items asked about in pieces, and two of which one has no
    annotation. *)
Example C51_example : resolved_items tx /\ Forall written tx /\
  compiled_after 100 tx [] = Done (map Some tx_out) /\ compiled_after 100 tx [2; 0; 4; 3] = Done (map Some tx_out).
Proof.
  split; [exact tx_resolved|]. split; [unfold tx; repeat apply Forall_cons; try apply Forall_nil; cbn; auto; discriminate|]. split; vm_compute; reflexivity.
Qed.
Example C51_example_unannotated : Forall written na /\ exists a b, compiled_after 100 na [] = Done [Some a; Some b] /\ compiled_after 100 na [1] = Done [Some a; Some b].
Proof.
  split; [unfold na; repeat apply Forall_cons; try apply Forall_nil; cbn; auto; discriminate|]. eexists _, _. split; vm_compute; reflexivity.
Qed.

(** ** From queries to running: C50 for a unit that reports no errors, whatever was asked before *)
Lemma loop_accepts k : forall rs G cs out, compile_loop k G rs = Done cs -> map cu_result cs = map Some out -> accepts k G rs out.
Proof.
  induction rs as [|r rs IH]; intros G cs out E M; cbn [compile_loop] in E.
  - injection E as <-. destruct out; [exact I|discriminate].
  - apply obind_inv in E as (c & Ec & E). apply obind_inv in E as (cs' & Es & E). injection E as <-. cbn [map] in M. destruct out as [|p out]; [discriminate|].
    injection M as M1 M2. cbn [accepts]. split; [|eapply IH; eauto]. unfold compile_item in Ec. apply obind_inv in Ec as (res & Er & Ec). rewrite Er. f_equal.
    destruct r as [s ps cs|x ann ex [b|e]]; [injection Ec as <-; auto|injection Ec as <-; auto|]. apply obind_inv in Ec as (t & _ & Ec). injection Ec as <-. auto.
Qed.
Lemma queries_accept k rs out ns : resolved_items rs -> Forall written rs -> compiled_after k rs ns = Done (map Some out) -> accepted k rs out.
Proof.
  intros R W H. rewrite after_loop in H; auto. apply obind_inv in H as (cs & Hc & H). injection H as H. eapply loop_accepts; eauto.
Qed.
(** Whatever was asked before: a unit without errors, all its definitions annotated and the type variables of
    local definitions staying inside them, runs without going wrong. *)
Theorem C51_no_errors_no_panics k rs out ns root :
  compiled_after k rs ns = Done (map Some out) -> resolved_items rs -> Forall written rs -> Forall ordinary rs -> Forall2 item_keeps rs out ->
  flat root = map fst out -> forall o fuel, run_source o fuel root <> Panic.
Proof.
  intros H R W O K F o fuel. apply (@queries_accept _ _ _ _ R W) in H. apply (@C50_accepted_programs_safe k rs out root H R O K F).
Qed.
Print Assumptions C51_no_errors_no_panics.
