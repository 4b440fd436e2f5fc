(** std/array.tic meets its specification: trees with four branches, whose depth is in the functions that
    are stored with them.  The size of a branch wraps around at 2^64 for trees that are deep enough; the search
    then always takes the last branch, with the index it was given. *)
From Verif Require Import StdTac StdList StdInt.
Set Implicit Arguments.

Fixpoint cap (d : nat) : N := match d with O => 4%N | S d => (4 * cap d)%N end.
Lemma cap_pow d : cap d = (2 ^ (2 * N.of_nat d + 2))%N.
Proof. induction d as [|d IH]; auto. cbn [cap]. rewrite IH. replace (2 * N.of_nat (S d) + 2)%N with (2 + (2 * N.of_nat d + 2))%N by lia. rewrite (N.pow_add_r 2 2). reflexivity. Qed.
Definition quarter (d : nat) : N := wrap (cap d).
Lemma quarter_cases d : quarter d = 0%N /\ (W64 <= cap d)%N \/ quarter d = cap d /\ (4 * cap d <= W64)%N /\ (0 < cap d)%N.
Proof.
  unfold quarter, wrap. rewrite cap_pow. destruct (Nat.le_gt_cases 31 d) as [H|H].
  - left. change W64 with (2 ^ 64)%N. split.
    + replace (2 * N.of_nat d + 2)%N with (64 + (2 * N.of_nat d - 62))%N by lia. rewrite N.pow_add_r. rewrite N.mul_comm. apply N.mod_mul. apply N.pow_nonzero. lia.
    + apply N.pow_le_mono_r; lia.
  - right. change W64 with (2 ^ 64)%N. assert (E : (4 * 2 ^ (2 * N.of_nat d + 2) <= 2 ^ 64)%N).
    { change 4%N with (2 ^ 2)%N. rewrite <- N.pow_add_r. apply N.pow_le_mono_r; lia. }
    assert (0 < 2 ^ (2 * N.of_nat d + 2))%N by (apply N.neq_0_lt_0, N.pow_nonzero; lia).
    split; [apply N.mod_small; lia|split; auto].
Qed.
Lemma quarter_S d : wrap (quarter d * 4) = quarter (S d).
Proof. unfold quarter. rewrite wrap_mul_l. cbn [cap]. f_equal. lia. Qed.

(** The elements of a tree. *)
Fixpoint data_is (d : nat) (t : sval) (c : N -> sval) : Prop :=
  match d with
  | O => t = WCon false array_Leaf [c 0%N; c 1%N; c 2%N; c 3%N]
  | S d => exists t0 t1 t2 t3, t = WCon false array_Node [t0; t1; t2; t3] /\
      if N.eqb (quarter d) 0 then data_is d t3 c
      else data_is d t0 c /\ data_is d t1 (fun i => c (i + quarter d)%N) /\
           data_is d t2 (fun i => c (i + quarter d * 2)%N) /\ data_is d t3 (fun i => c (i + quarter d * 3)%N)
  end.
Lemma data_is_ext d : forall t c c', (forall i, (i < W64)%N -> (i < cap d)%N -> c i = c' i) -> data_is d t c -> data_is d t c'.
Proof.
  induction d as [|d IH]; cbn [data_is]; intros t c c' E H.
  - subst t. rewrite !E by (cbn [cap]; unfold W64; lia). auto.
  - destruct H as (t0 & t1 & t2 & t3 & -> & H). exists t0, t1, t2, t3. split; auto. cbn [cap] in E.
    destruct (quarter_cases d) as [[Q L]|[Q [L P]]].
    + rewrite Q in *. cbn [N.eqb] in *. eapply IH; [|exact H]. intros. apply E; auto. lia.
    + rewrite Q in *. destruct (N.eqb_spec (cap d) 0); [lia|].
      destruct H as (H0 & H1 & H2 & H3). repeat split; (eapply IH; [|eassumption]); intros; cbv beta; apply E; lia.
Qed.

Section Array.
  Variable o : order.
  Variable tys : stypes.
  Notation evals := (evals o tys).
  Notation call := (call o tys).
  Notation calls := (calls o tys).
  Variable en : senv.
  Hypothesis HT : lookup list_List tys = Some list_tbl.
  Hypothesis Hnone : lookup option_None en = Some (of_option None).
  Hypothesis Hsome : lookup option_Some en = Some (WCtor option_Some 1 []).
  Hypothesis Hleaf : lookup array_Leaf en = Some (WCtor array_Leaf 4 []).
  Hypothesis Hnode : lookup array_Node en = Some (WCtor array_Node 4 []).
  Hypothesis Hne : lookup array_NonEmptyArray en = Some (WCtor array_NonEmptyArray 4 []).
  Hypothesis He : lookup array_EmptyArray en = Some (WCon false array_EmptyArray []).

  Definition gets (d : nat) (g : sval) : Prop := forall t c i, data_is d t c -> (i < W64)%N -> (i < cap d)%N -> calls g [WInt i; t] (c i).
  Definition maps (d : nat) (m : sval) : Prop := forall t c i f r c', data_is d t c -> (i < W64)%N -> (i < cap d)%N ->
    call f (c i) r -> c' i = r -> (forall j, j <> i -> c' j = c j) -> exists t', calls m [WInt i; f; t] t' /\ data_is d t' c'.
  Definition is_array (v : sval) (xs : list sval) : Prop :=
    v = WCon false array_EmptyArray [] /\ xs = [] \/
    exists d t m g c, v = WCon false array_NonEmptyArray [WInt (N.of_nat (length xs)); t; m; g] /\ maps d m /\ gets d g /\ data_is d t c /\
      (N.of_nat (length xs) < W64)%N /\ (N.of_nat (length xs) <= cap d)%N /\ forall i x, nth_error xs i = Some x -> c (N.of_nat i) = x.

  Lemma array_getLeaf_ok : exists v, evals en e_array_getLeaf v /\ gets 0 v.
  Proof.
    start. intros t c i H _ Hi. cbn [data_is cap] in *. subst t. eapply calls2; [ap|]. ap.
    destruct (N.eqb_spec i 0) as [->|]; [ev|]. ev. destruct (N.eqb_spec i 1) as [->|]; [ev|]. ev.
    destruct (N.eqb_spec i 2) as [->|]; [ev|]. assert (i = 3%N) by lia. subst i. ev.
  Qed.
  Lemma array_mapLeaf_ok : exists v, evals en e_array_mapLeaf v /\ maps 0 v.
  Proof.
    start. intros t c i f r c' H _ Hi Hf Hr Hc. cbn [data_is cap] in *. subst t.
    exists (WCon false array_Leaf [c' 0%N; c' 1%N; c' 2%N; c' 3%N]). split; auto.
    eapply calls3; [ap|ap|]. ap.
    destruct (N.eqb_spec i 0) as [->|]; [rewrite Hr, !Hc by lia; ev|]. ev. destruct (N.eqb_spec i 1) as [->|]; [rewrite Hr, !Hc by lia; ev|]. ev.
    destruct (N.eqb_spec i 2) as [->|]; [rewrite Hr, !Hc by lia; ev|]. assert (i = 3%N) by lia. subst i. rewrite Hr, !Hc by lia; ev.
  Qed.

  Lemma child d i : (i < W64)%N -> (i < cap (S d))%N -> quarter d <> 0%N ->
    wrap (quarter d * 2) = (cap d * 2)%N /\ wrap (quarter d * 3) = (cap d * 3)%N /\ quarter d = cap d.
  Proof.
    intros H1 H2 H3. destruct (quarter_cases d) as [[Q L]|[Q [L P]]]; [congruence|]. rewrite Q. rewrite !wrap_small by lia. auto.
  Qed.
  Lemma array_getNode_ok : exists v, evals en e_array_getNode v /\
    forall d g, gets d g -> exists g', calls v [WInt (quarter d); g] g' /\ gets (S d) g'.
  Proof.
    start. intros d g HG. eexists. split; [eapply calls2; ap|].
    intros t c i H H64 Hi. cbn [data_is] in H. destruct H as (t0 & t1 & t2 & t3 & -> & H). eapply calls2; [ap|].
    destruct (N.eqb_spec (quarter d) 0) as [Q|Q].
    - assert (L : (W64 <= cap d)%N) by (destruct (quarter_cases d) as [[_ L]|[Q' [_ P]]]; [auto|lia]).
      assert (E : wrap (i + (W64 - wrap (quarter d * 3))) = i) by (rewrite Q; change (wrap (0 * 3)) with 0%N; rewrite wrap_sub; lia).
      assert (C : calls g [WInt (wrap (i + (W64 - wrap (quarter d * 3)))); t3] (c i)) by (rewrite E; apply HG; auto; lia). ex.
      ap. replace (i <? quarter d)%N with false by (symmetry; apply N.ltb_ge; lia). ev.
      replace (i <? wrap (quarter d * 2))%N with false by (symmetry; apply N.ltb_ge; rewrite Q; change (wrap (0 * 2)) with 0%N; lia). ev.
      replace (i <? wrap (quarter d * 3))%N with false by (symmetry; apply N.ltb_ge; rewrite Q; change (wrap (0 * 3)) with 0%N; lia). ev.
    - destruct (child d H64 Hi Q) as (E2 & E3 & E1). destruct H as (H0 & H1 & H2 & H3). cbn [cap] in Hi. rewrite E1 in H1, H2, H3.
      ap. destruct (N.ltb_spec i (quarter d)) as [L1|L1].
      { specialize (HG _ _ i H0 H64 ltac:(lia)). ex. ev. }
      ev. destruct (N.ltb_spec i (wrap (quarter d * 2))) as [L2|L2].
      { assert (C : calls g [WInt (wrap (i + (W64 - quarter d))); t1] (c i)).
        { rewrite (wrap_sub L1 H64), E1. replace (c i) with (c (i - cap d + cap d)%N) by (f_equal; lia). exact (HG _ _ (i - cap d)%N H1 ltac:(lia) ltac:(lia)). }
        ex. ev. }
      ev. destruct (N.ltb_spec i (wrap (quarter d * 3))) as [L3|L3].
      { assert (C : calls g [WInt (wrap (i + (W64 - wrap (quarter d * 2)))); t2] (c i)).
        { rewrite (wrap_sub L2 H64), E2. replace (c i) with (c (i - cap d * 2 + cap d * 2)%N) by (f_equal; lia). exact (HG _ _ (i - cap d * 2)%N H2 ltac:(lia) ltac:(lia)). }
        ex. ev. }
      { assert (C : calls g [WInt (wrap (i + (W64 - wrap (quarter d * 3)))); t3] (c i)).
        { rewrite (wrap_sub L3 H64), E3. replace (c i) with (c (i - cap d * 3 + cap d * 3)%N) by (f_equal; lia). exact (HG _ _ (i - cap d * 3)%N H3 ltac:(lia) ltac:(lia)). }
        ex. ev. }
  Qed.

  Lemma array_mapNode_ok : exists v, evals en e_array_mapNode v /\
    forall d m, maps d m -> exists m', calls v [WInt (quarter d); m] m' /\ maps (S d) m'.
  Proof.
    start. intros d m HM. eexists. split; [eapply calls2; ap|].
    intros t c i f r c' H H64 Hi Hf Hr Hc. cbn [data_is] in H. destruct H as (t0 & t1 & t2 & t3 & -> & H).
    destruct (N.eqb_spec (quarter d) 0) as [Q|Q].
    - assert (L : (W64 <= cap d)%N) by (destruct (quarter_cases d) as [[_ L]|[Q' [_ P]]]; [auto|lia]).
      assert (E : wrap (i + (W64 - wrap (quarter d * 3))) = i) by (rewrite Q; change (wrap (0 * 3)) with 0%N; rewrite wrap_sub; lia).
      destruct (@HM t3 c i f r c' H H64 ltac:(lia) Hf Hr Hc) as (t' & C & D).
      assert (C' : calls m [WInt (wrap (i + (W64 - wrap (quarter d * 3)))); f; t3] t') by (rewrite E; exact C). clear C. ex.
      assert (L1 : (quarter d <= i)%N) by lia. assert (L2 : (wrap (quarter d * 2) <= i)%N) by (rewrite Q; change (wrap (0 * 2)) with 0%N; lia).
      assert (L3 : (wrap (quarter d * 3) <= i)%N) by (rewrite Q; change (wrap (0 * 3)) with 0%N; lia).
      eexists. split; [eapply calls3; [ap|ap|ap]; rewrite (proj2 (N.ltb_ge _ _)) by assumption; ev; rewrite (proj2 (N.ltb_ge _ _)) by assumption; ev; rewrite (proj2 (N.ltb_ge _ _)) by assumption; ev|].
      cbn [data_is]. exists t0, t1, t2, t'. split; [reflexivity|]. rewrite Q. exact D.
    - assert (QN : (quarter d =? 0)%N = false) by (apply N.eqb_neq; auto).
      destruct (child d H64 Hi Q) as (E2 & E3 & E1). destruct H as (H0 & H1 & H2 & H3). cbn [cap] in Hi. rewrite E1 in H1, H2, H3.
      destruct (N.lt_ge_cases i (quarter d)) as [L1|L1].
      { destruct (@HM t0 c i f r c' H0 H64 ltac:(lia) Hf Hr Hc) as (t' & C & D). ex.
        eexists. split; [eapply calls3; [ap|ap|ap]; rewrite (proj2 (N.ltb_lt _ _)) by assumption; ev|]. cbn [data_is]. exists t', t1, t2, t3. split; [reflexivity|]. rewrite QN, E1. 
        repeat split; first [exact D|eapply data_is_ext; [|eassumption]; intros j J1 J2; symmetry; apply Hc; cbv beta; lia]. }
      destruct (N.lt_ge_cases i (wrap (quarter d * 2))) as [L2|L2].
      { destruct (@HM t1 _ (i - cap d)%N f r (fun j => c' (j + cap d)%N) H1) as (t' & C & D); cbv beta; try lia.
        { replace (i - cap d + cap d)%N with i by lia. auto. }
        { replace (i - cap d + cap d)%N with i by lia. auto. }
        { intros j Hj. apply Hc. lia. }
        assert (C' : calls m [WInt (wrap (i + (W64 - quarter d))); f; t1] t') by (rewrite (wrap_sub L1 H64), E1; exact C). clear C. ex.
        eexists. split; [eapply calls3; [ap|ap|ap]; rewrite (proj2 (N.ltb_ge _ _)) by assumption; ev; rewrite (proj2 (N.ltb_lt _ _)) by assumption; ev|]. cbn [data_is]. exists t0, t', t2, t3. split; [reflexivity|]. rewrite QN, E1. 
        repeat split; first [exact D|eapply data_is_ext; [|eassumption]; intros j J1 J2; symmetry; apply Hc; cbv beta; lia]. }
      destruct (N.lt_ge_cases i (wrap (quarter d * 3))) as [L3|L3].
      { destruct (@HM t2 _ (i - cap d * 2)%N f r (fun j => c' (j + cap d * 2)%N) H2) as (t' & C & D); cbv beta; try lia.
        { replace (i - cap d * 2 + cap d * 2)%N with i by lia. auto. }
        { replace (i - cap d * 2 + cap d * 2)%N with i by lia. auto. }
        { intros j Hj. apply Hc. lia. }
        assert (C' : calls m [WInt (wrap (i + (W64 - wrap (quarter d * 2)))); f; t2] t') by (rewrite (wrap_sub L2 H64), E2; exact C). clear C. ex.
        eexists. split; [eapply calls3; [ap|ap|ap]; rewrite (proj2 (N.ltb_ge _ _)) by assumption; ev; rewrite (proj2 (N.ltb_ge _ _)) by assumption; ev; rewrite (proj2 (N.ltb_lt _ _)) by assumption; ev|]. cbn [data_is]. exists t0, t1, t', t3. split; [reflexivity|]. rewrite QN, E1. 
        repeat split; first [exact D|eapply data_is_ext; [|eassumption]; intros j J1 J2; symmetry; apply Hc; cbv beta; lia]. }
      { destruct (@HM t3 _ (i - cap d * 3)%N f r (fun j => c' (j + cap d * 3)%N) H3) as (t' & C & D); cbv beta; try lia.
        { replace (i - cap d * 3 + cap d * 3)%N with i by lia. auto. }
        { replace (i - cap d * 3 + cap d * 3)%N with i by lia. auto. }
        { intros j Hj. apply Hc. lia. }
        assert (C' : calls m [WInt (wrap (i + (W64 - wrap (quarter d * 3)))); f; t3] t') by (rewrite (wrap_sub L3 H64), E3; exact C). clear C. ex.
        eexists. split; [eapply calls3; [ap|ap|ap]; rewrite (proj2 (N.ltb_ge _ _)) by assumption; ev; rewrite (proj2 (N.ltb_ge _ _)) by assumption; ev; rewrite (proj2 (N.ltb_ge _ _)) by assumption; ev|]. cbn [data_is]. exists t0, t1, t2, t'. split; [reflexivity|]. rewrite QN, E1. 
        repeat split; first [exact D|eapply data_is_ext; [|eassumption]; intros j J1 J2; symmetry; apply Hc; cbv beta; lia]. }
  Qed.

  Lemma array_length_ok : exists v, evals en e_array_length v /\ array_length_spec o tys is_array v /\
    (forall n t m g, calls v [WCon false array_NonEmptyArray [WInt n; t; m; g]] (WInt n)).
  Proof.
    start. split.
    - intros a xs [[-> ->]|(d & t & m & g & c & -> & _)]; apply calls1; ap.
    - intros. apply calls1; ap.
  Qed.
  Lemma array_empty_ok : exists v, evals en e_array_empty v /\ array_empty_spec is_array v.
  Proof. start. left. auto. Qed.

  Lemma iters_inv (I : nat -> sval -> Prop) g : (forall k v, I k v -> exists w, call g v w /\ I (S k) w) ->
    forall n k v, I k v -> exists w, iters o tys g n v w /\ I (k + n) w.
  Proof.
    intros H. induction n as [|n IH]; intros k v HI.
    - exists v. split; [constructor|]. replace (k + 0) with k by lia. auto.
    - destruct (H _ _ HI) as (w & H1 & H2). destruct (IH _ _ H2) as (u & H3 & H4). exists u. split; [econstructor; eauto|].
      replace (k + S n) with (S k + n) by lia. auto.
  Qed.
  Lemma array_new_ok vi vl ml mn gl gn :
    lookup int_iterate en = Some vi -> int_iterate_spec o tys vi ->
    lookup array_length en = Some vl -> (forall n t m g, calls vl [WCon false array_NonEmptyArray [WInt n; t; m; g]] (WInt n)) ->
    lookup array_mapLeaf en = Some ml -> maps 0 ml -> lookup array_getLeaf en = Some gl -> gets 0 gl ->
    lookup array_mapNode en = Some mn -> (forall d m, maps d m -> exists m', calls mn [WInt (quarter d); m] m' /\ maps (S d) m') ->
    lookup array_getNode en = Some gn -> (forall d g, gets d g -> exists g', calls gn [WInt (quarter d); g] g' /\ gets (S d) g') ->
    exists v, evals en e_array_new v /\ array_new_spec o tys is_array v.
  Proof.
    intros Li HI Ll HL Lml Hml Lgl Hgl Lmn Hmn Lgn Hgn. start. intros n x Hn.
    let t := eval cbv delta [e_array_new] in e_array_new in match t with
      SLam ?y1 _ _ (SLam ?y2 _ _ (SLet ?g _ (SLam ?z _ _ ?b) (SLet ?tg _ (SLam ?z' _ _ ?b') _))) =>
      pose (E0 := (y2, x) :: (y1, WInt n) :: en); pose (G := WFun E0 z b); pose (T := WFun ((g, G) :: E0) z' b') end.
    pose (I := fun k v => exists d t m g, v = WCon false array_NonEmptyArray [WInt (quarter d); t; m; g] /\ maps d m /\ gets d g /\ data_is d t (fun _ => x) /\
             (d = k \/ n <= quarter d)%N).
    destruct (@iters_inv I T) with (n := 64) (k := 0) (v := WCon false array_NonEmptyArray [WInt 4; WCon false array_Leaf [x; x; x; x]; ml; gl]) as (w & H1 & H2).
    { intros k v (d & t & m & g & -> & Hm & Hg & Hd & Hk). pose proof (HL (quarter d) t m g) as C.
      destruct (N.lt_ge_cases (quarter d) n) as [L|L].
      - destruct (Hmn _ _ Hm) as (m' & Cm & Hm'). destruct (Hgn _ _ Hg) as (g' & Cg & Hg'). ex.
        exists (WCon false array_NonEmptyArray [WInt (wrap (quarter d * 4)); WCon false array_Node [t; t; t; t]; m'; g']). split.
        + unfold T. ap. rewrite (proj2 (N.ltb_lt _ _)) by assumption. unfold G, E0. ev.
        + exists (S d), (WCon false array_Node [t; t; t; t]), m', g'. rewrite quarter_S. split; auto. split; auto. split; auto. split.
          * cbn [data_is]. exists t, t, t, t. split; auto. destruct (N.eqb _ _); auto.
          * left. destruct Hk as [->|Hk]; auto. lia.
      - ex. exists (WCon false array_NonEmptyArray [WInt (quarter d); t; m; g]). split.
        + unfold T. ap. rewrite (proj2 (N.ltb_ge _ _)) by assumption. unfold E0. ev.
        + exists d, t, m, g. auto 6. }
    { exists 0, (WCon false array_Leaf [x; x; x; x]), ml, gl. repeat split; auto. }
    destruct H2 as (d & t & m & g & -> & Hm & Hg & Hd & Hk).
    assert (H3 := HI 64%N T _ _ eq_refl H1).
    exists (WCon false array_NonEmptyArray [WInt n; t; m; g]). split.
    - ex. eapply calls2; [ap|]. ap.
    - right. exists d, t, m, g, (fun _ => x). rewrite repeat_length, N2Nat.id. split; auto. split; auto. split; auto. split; auto. split; auto. split.
      + destruct Hk as [->|Hk].
        * enough (2 ^ 64 <= cap (0 + 64))%N by lia. rewrite cap_pow. apply N.pow_le_mono_r; lia.
        * destruct (quarter_cases d) as [[Q L]|[Q _]]; lia.
      + intros i y Hy. apply nth_error_In in Hy. apply repeat_spec in Hy. auto.
  Qed.

  Lemma replace_nth_length i y xs : length (replace_nth i y xs) = length xs.
  Proof.
    unfold replace_nth. destruct (Nat.ltb_spec i (length xs)); auto. rewrite app_length, firstn_length. cbn [length]. rewrite skipn_length. lia.
  Qed.
  Lemma replace_nth_same i y xs : i < length xs -> nth_error (replace_nth i y xs) i = Some y.
  Proof.
    intros H. unfold replace_nth. rewrite (proj2 (Nat.ltb_lt _ _) H). rewrite nth_error_app2; rewrite firstn_length; [|lia].
    replace (i - Nat.min i (length xs)) with 0 by lia. auto.
  Qed.
  Lemma replace_nth_other i y xs j : j <> i -> nth_error (replace_nth i y xs) j = nth_error xs j.
  Proof.
    intros H. unfold replace_nth. destruct (Nat.ltb_spec i (length xs)) as [L|L]; auto.
    destruct (Nat.lt_ge_cases j i) as [J|J].
    - rewrite nth_error_app1; [|rewrite firstn_length; lia]. clear - J. revert j xs J. induction i; intros [|j] [|x xs] J; cbn; auto; try lia. apply IHi. lia.
    - rewrite nth_error_app2; rewrite firstn_length; [|lia]. replace (j - Nat.min i (length xs)) with (S (j - S i)) by lia. cbn [nth_error].
      clear - J H. assert (E : j = S i + (j - S i)) by lia. rewrite E at 2. generalize (j - S i). intros k. clear. revert xs. generalize (S i). induction n; intros [|x xs]; cbn; auto.
      destruct k; auto.
  Qed.
  Lemma nth_error_some_lt {A} (xs : list A) i x : nth_error xs i = Some x -> i < length xs.
  Proof. intros H. apply nth_error_Some. congruence. Qed.

  Lemma array_mapIdx_ok : exists v, evals en e_array_mapIdx v /\ array_mapIdx_spec o tys is_array v.
  Proof.
    start. intros a xs i f HR Hi.
    destruct (nth_error xs (N.to_nat i)) as [x|] eqn:E.
    - pose proof (nth_error_some_lt _ _ E) as Hl. intros y Hy. destruct HR as [[_ ->]|(d & t & m & g & c & -> & Hm & Hg & Hd & H64 & Hc & Hx)]; [cbn in Hl; lia|].
      pose proof (Hx _ _ E) as Ex. rewrite N2Nat.id in Ex. subst x.
      destruct (@Hm t c i f y (fun j => if N.eqb j i then y else c j) Hd) as (t' & C & D); auto; try lia.
      { rewrite N.eqb_refl. auto. }
      { intros j Hj. destruct (N.eqb_spec j i); congruence. }
      ex. eexists. split.
      + eapply calls3; [ap|ap|ap]. rewrite (proj2 (N.ltb_lt _ _)) by lia. ev.
      + right. exists d, t', m, g, (fun j => if N.eqb j i then y else c j). rewrite replace_nth_length. repeat (split; [auto; fail|]).
        intros j z Hz. destruct (N.eqb_spec (N.of_nat j) i) as [Ej|Ej].
        * subst i. rewrite Nat2N.id in *. rewrite replace_nth_same in Hz; congruence.
        * apply Hx. rewrite <- Hz. symmetry. apply replace_nth_other. lia.
    - apply nth_error_None in E. exists a. split; auto. destruct HR as [[-> ->]|(d & t & m & g & c & -> & _)].
      + eapply calls3; [ap|ap|ap].
      + eapply calls3; [ap|ap|ap]. rewrite (proj2 (N.ltb_ge _ _)) by lia. ev.
  Qed.
  Lemma array_get_ok : exists v, evals en e_array_get v /\ array_get_spec o tys is_array v.
  Proof.
    start. intros a xs i HR Hi. destruct HR as [[-> ->]|(d & t & m & g & c & -> & Hm & Hg & Hd & H64 & Hc & Hx)].
    - replace (nth_error (@nil sval) (N.to_nat i)) with (@None sval) by (destruct (N.to_nat i); auto). eapply calls2; ap.
    - destruct (nth_error xs (N.to_nat i)) as [x|] eqn:E.
      + pose proof (nth_error_some_lt _ _ E) as Hl. pose proof (Hx _ _ E) as Ex. rewrite N2Nat.id in Ex. subst x.
        pose proof (Hg t c i Hd Hi ltac:(lia)) as C. ex. eapply calls2; ap. rewrite (proj2 (N.leb_gt _ _)) by lia. ev.
      + apply nth_error_None in E. eapply calls2; ap. rewrite (proj2 (N.leb_le _ _)) by lia. ev.
  Qed.
  Lemma array_set_ok vm : lookup array_mapIdx en = Some vm -> array_mapIdx_spec o tys is_array vm -> exists v, evals en e_array_set v /\ array_set_spec o tys is_array v.
  Proof.
    intros Lm HM. start. intros a xs i x HR Hi.
    match goal with |- context [WFun en _ (SLam _ _ _ (SLam ?z _ _ (SApply (SApply _ (SParen (SLam ?y _ _ ?b))) _)))] =>
      specialize (HM a xs i (WFun ((z, a) :: (array_set_value, x) :: (array_set_idx, WInt i) :: en) y b) HR Hi) end.
    destruct (nth_error xs (N.to_nat i)) as [w|] eqn:E.
    - destruct (HM x) as (a' & C & D); [ap|]. exists a'. split; auto. ex. eapply calls3; ap.
    - destruct HM as (a' & C & D). exists a'. split; [ex; eapply calls3; ap|]. unfold replace_nth. apply nth_error_None in E.
      rewrite (proj2 (Nat.ltb_ge _ _)) by lia. auto.
  Qed.
  Lemma array_truncate_ok : exists v, evals en e_array_truncate v /\ array_truncate_spec o tys is_array v.
  Proof.
    start. intros a xs n HR. destruct HR as [[-> ->]|(d & t & m & g & c & -> & Hm & Hg & Hd & H64 & Hc & Hx)].
    - eexists. split; [eapply calls2; ap|]. left. rewrite firstn_nil. auto.
    - destruct (N.le_gt_cases (N.of_nat (length xs)) n) as [L|L].
      + eexists. split; [eapply calls2; ap; rewrite (proj2 (N.leb_le _ _)) by lia; ev|]. rewrite firstn_all2 by lia. right. exists d, t, m, g, c. auto 9.
      + eexists. split; [eapply calls2; ap; rewrite (proj2 (N.leb_gt _ _)) by lia; ev|]. right. exists d, t, m, g, c.
        rewrite firstn_length, Nat.min_l, N2Nat.id by lia. repeat (split; [auto; lia|]). intros i x E. apply Hx.
        rewrite <- (firstn_skipn (N.to_nat n) xs). rewrite nth_error_app1; auto. eapply nth_error_some_lt; eauto.
  Qed.

  Lemma somes_all (xs : list sval) : flat_map (fun y => match y with Some z => [z] | None => [] end) (map (@Some sval) xs) = xs.
  Proof. induction xs; cbn; f_equal; auto. Qed.
  Lemma array_toList_ok vl vr vf vg : lookup array_length en = Some vl -> array_length_spec o tys is_array vl ->
    lookup list_range en = Some vr -> list_range_spec o tys vr -> lookup list_filterMap en = Some vf -> list_filterMap_spec o tys vf ->
    lookup array_get en = Some vg -> array_get_spec o tys is_array vg ->
    exists v, evals en e_array_toList v /\ array_toList_spec o tys is_array v.
  Proof.
    intros Ll HL Lr HR' Lf HF Lg HG. start. intros a xs HR.
    assert (H64 : (N.of_nat (length xs) < 2 ^ 64)%N).
    { destruct HR as [[_ ->]|(d & t & m & g & c & _ & _ & _ & _ & H & _)]; [cbn; lia|exact H]. }
    pose proof (HL _ _ HR) as C1. pose proof (proj1 HR' 0%N _ ltac:(lia) H64) as C2.
    match goal with |- context [WFun en ?z (SPipe _ (SApply _ (SParen (SLam ?y _ _ ?b))))] => pose (F := WFun ((z, a) :: en) y b) end.
    assert (C3 : calls vf [F; of_ints (count_from 0 (N.to_nat (N.of_nat (length xs) - 0)))] (of_list xs)).
    { rewrite <- (somes_all xs) at 2. apply HF. replace (N.to_nat (N.of_nat (length xs) - 0)) with (length xs) by lia.
      assert (G : forall k l, (forall i x, nth_error l i = Some x -> nth_error xs (k + i) = Some x) -> k + length l <= length xs ->
        Forall2 (fun x y => call F x (of_option y)) (map WInt (count_from (N.of_nat k) (length l))) (map (@Some sval) l)).
      { intros k l. revert k. induction l as [|x l IH]; intros k H L; cbn [length count_from map]; constructor.
        - pose proof (HG a xs (N.of_nat k) HR ltac:(cbn [length] in L; lia)) as C. rewrite Nat2N.id in C.
          rewrite <- (Nat.add_0_r k) in C at 2. rewrite (H 0 x eq_refl) in C. ex. unfold F. ap.
        - replace (N.of_nat k + 1)%N with (N.of_nat (S k)) by lia. apply IH; [|cbn [length] in L; lia].
          intros i y Hy. rewrite <- (H (S i) y Hy). f_equal. lia. }
      apply (G 0 xs); auto. }
    ex. apply calls1. ap.
  Qed.
  Lemma array_fromList_ok ve vn vl vs : lookup array_empty en = Some ve -> array_empty_spec is_array ve ->
    lookup array_new en = Some vn -> array_new_spec o tys is_array vn -> lookup list_length en = Some vl -> list_length_spec o tys vl ->
    lookup array_set en = Some vs -> array_set_spec o tys is_array vs ->
    lookup list_Nil en = Some wnil -> lookup list_Cons en = Some (WCtor list_Cons 2 []) ->
    exists v, evals en e_array_fromList v /\ array_fromList_spec o tys is_array v.
  Proof.
    intros Le HE Ln HN Ll HL Ls HS Lnil Lcons. start. intros xs Hxs.
    destruct xs as [|x l].
    { exists ve. split; [apply calls1; ap|exact HE]. }
    match goal with |- context [WFold ?t ?e ?y ?b] => pose (F := WFold t e y b) end.
    assert (G : forall l2 l1 a, is_array a (l1 ++ l2) \/ (exists r, length r = length l2 /\ is_array a (l1 ++ r)) -> (N.of_nat (length l1 + length l2) < 2 ^ 64)%N ->
      exists h, call F (of_list l2) h /\ (forall l1 a r, length r = length l2 -> is_array a (l1 ++ r) -> (N.of_nat (length l1 + length l2) < 2 ^ 64)%N ->
        exists a', calls h [WInt (N.of_nat (length l1)); a] a' /\ is_array a' (l1 ++ l2))).
    { intros l2 _ _ _ _. induction l2 as [|y l2 IH].
      - eexists. split; [unfold F; cbn [of_list fold_right]; unfold wnil; fo|]. intros l1 a r Hr HR _. destruct r; [|discriminate]. exists a. split; auto.
        eapply calls2; ap.
      - destruct IH as (h & Hh & IH). eexists. split; [unfold F in *; cbn [of_list fold_right]; unfold wcons; fo|].
        intros l1 a r Hr HR H64. destruct r as [|z r]; [discriminate|]. cbn [length] in *.
        destruct (HS a _ (N.of_nat (length l1)) y HR ltac:(lia)) as (a1 & C1 & R1). rewrite Nat2N.id in R1.
        assert (E : replace_nth (length l1) y (l1 ++ z :: r) = (l1 ++ [y]) ++ r).
        { unfold replace_nth. rewrite app_length. cbn [length]. rewrite (proj2 (Nat.ltb_lt _ _)) by lia.
          rewrite firstn_app, Nat.sub_diag, firstn_all, firstn_O, app_nil_r, skipn_app, skipn_all2 by lia.
          replace (S (length l1) - length l1) with 1 by lia. cbn. rewrite <- app_assoc. auto. }
        rewrite E in R1. destruct (IH (l1 ++ [y]) a1 r ltac:(lia) R1) as (a2 & C2 & R2); [rewrite app_length; cbn [length]; lia|].
        rewrite <- app_assoc in R2. exists a2. split; auto.
        rewrite app_length in C2. cbn [length] in C2. replace (N.of_nat (length l1 + 1)) with (wrap (N.of_nat (length l1) + 1)) in C2 by (rewrite wrap_small; unfold W64; lia).
        ex. eapply calls2; ap. }
    destruct (HN (N.of_nat (length (x :: l)) mod 2 ^ 64)%N x) as (a & C1 & R1); [apply N.mod_lt; lia|].
    pose proof (HL (x :: l)) as C2. rewrite N.mod_small in R1 by auto. rewrite Nat2N.id in R1.
    destruct (G (x :: l) [] a) as (h & Ch & Hh).
    { right. eexists. split; [|exact R1]. apply repeat_length. } { auto. }
    destruct (Hh [] a _ (repeat_length _ _) R1 Hxs) as (a' & C3 & R3). exists a'. split; auto. unfold F in Ch.
    change (N.of_nat (length (@nil sval))) with 0%N in C3. cbn [of_list fold_right] in *. unfold wcons at 1. unfold wcons at 1 in C2. unfold wcons at 1 in Ch.
    ex. apply calls1. ap.
  Qed.
End Array.
