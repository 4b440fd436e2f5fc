(** C54: completion. *)
From Coq Require Import Sorted NArith.
From Verif Require Import TypeckProg ResolveFacts ResolveProofs ResolveLex NavSpec NavProofs NavUnits Compl ComplSpec ComplProofs.
Set Implicit Arguments.

(** ** Sorting *)
Lemma cmp_eq a : forall b, text_cmp a b = Eq -> a = b.
Proof. induction a as [|x a IH]; intros [|y b]; cbn; try discriminate; auto. destruct (N.compare_spec x y); try discriminate. subst. intros E. f_equal. auto. Qed.
Lemma cmp_lt a : forall b, text_cmp a b = Lt -> before a b.
Proof.
  induction a as [|x a IH]; intros [|y b]; cbn; try discriminate; [constructor|]. destruct (N.compare_spec x y); try discriminate; intros E; [subst; constructor 3; auto|constructor 2; auto].
Qed.
Lemma cmp_gt a : forall b, text_cmp a b = Gt -> before b a.
Proof.
  induction a as [|x a IH]; intros [|y b]; cbn; try discriminate; [constructor|]. destruct (N.compare_spec x y); try discriminate; intros E; [subst; constructor 3; auto|constructor 2; auto].
Qed.
Lemma before_trans a b c : before a b -> before b c -> before a c.
Proof.
  intros H. revert c. induction H; intros c K; inversion K; subst; try (constructor; fail).
  - constructor 2. lia.
  - constructor 2. auto.
  - constructor 2. auto.
  - constructor 3. auto.
Qed.
Definition upto (a b : list N) : Prop := a = b \/ before a b.
Lemma upto_trans a b c : upto a b -> upto b c -> upto a c.
Proof. intros [->|H] [->|K]; [left; auto|right; auto|right; auto|right; eapply before_trans; eauto]. Qed.
Lemma insert_in t l x : In x (insert t l) <-> x = t \/ In x l.
Proof. induction l as [|y l IH]; cbn; [intuition|]. destruct (text_cmp y t); cbn; rewrite ?IH; intuition. Qed.
Lemma insert_sorted t l : StronglySorted upto l -> StronglySorted upto (insert t l).
Proof.
  induction 1 as [|y l S IH F]; cbn; [repeat constructor|]. rewrite Forall_forall in F. destruct (text_cmp y t) eqn:E.
  - constructor; auto. apply Forall_forall. intros x Hx. apply insert_in in Hx as [->|Hx]; [left; apply cmp_eq|]; auto.
  - constructor; auto. apply Forall_forall. intros x Hx. apply insert_in in Hx as [->|Hx]; [right; apply cmp_lt|]; auto.
  - apply cmp_gt in E. constructor; [constructor; auto; apply Forall_forall; auto|]. constructor; [right; auto|]. apply Forall_forall. intros x Hx. eapply upto_trans; [right; eauto|auto].
Qed.
Lemma sort_ok l : StronglySorted upto (sort l) /\ forall x, In x (sort l) <-> In x l.
Proof.
  unfold sort. assert (G : forall l acc, StronglySorted upto acc -> StronglySorted upto (fold_left (fun l t => insert t l) l acc) /\ forall x, In x (fold_left (fun l t => insert t l) l acc) <-> In x l \/ In x acc).
  { clear l. induction l as [|t l IH]; intros acc S; cbn; [split; auto; tauto|]. destruct (IH (insert t acc) (insert_sorted t S)) as [A B]. split; auto. intros x. rewrite B, insert_in. intuition. }
  destruct (G l [] (SSorted_nil _)) as [A B]. split; auto. intros x. rewrite B. cbn. tauto.
Qed.
Lemma dedup_in l x : In x (dedup l) <-> In x l.
Proof.
  induction l as [|y l IH]; cbn; [tauto|]. destruct (dedup l) as [|z r] eqn:E; [rewrite <- IH; cbn; tauto|]. unfold text_eqb. destruct (list_eq_dec _ y z) as [->|]; rewrite <- IH; cbn; tauto.
Qed.
Lemma dedup_sorted l : StronglySorted upto l -> StronglySorted before (dedup l).
Proof.
  induction 1 as [|y l S IH F]; cbn; [constructor|]. destruct (dedup l) as [|z r] eqn:E; [repeat constructor|]. unfold text_eqb. destruct (list_eq_dec _ y z) as [->|Ne]; auto.
  assert (B : before y z). { rewrite Forall_forall in F. destruct (F z) as [|B]; [|contradiction|auto]. apply dedup_in. rewrite E. left. auto. }
  constructor; auto. inversion_clear IH as [|? ? ? G]. constructor; auto. eapply Forall_impl; [|exact G]. intros w. apply before_trans. auto.
Qed.

(** ** The name at the position *)
Lemma offered_last pos : forall (m : met) r0,
  let r := fold_left (fun r e => let '(n, u, k) := e in if on n pos then Some (dedup (sort (k_names u k))) else r) m r0 in
  (exists n u k, In (n, u, k) m /\ on n pos = true /\ r = Some (dedup (sort (k_names u k)))) \/
  ((forall n, In n (met_names m) -> on n pos = false) /\ r = r0).
Proof.
  induction m as [|[[n u] k] m IH]; intros r0; cbn [fold_left]; [right; split; auto; intros n []|].
  destruct (IH (if on n pos then Some (dedup (sort (k_names u k))) else r0)) as [(n' & u' & k' & H & O & E)|[H E]].
  - left. exists n', u', k'. split; [right; auto|]. auto.
  - destruct (on n pos) eqn:O.
    + left. exists n, u, k. split; [left; auto|]. auto.
    + right. split; auto. intros x [<-|Hx]; auto.
Qed.
Lemma offered_ok x k a pos : same k a -> NoDup (map id_at (item_idents true x)) ->
  match offered x k pos with
  | None => forall n, In n (item_idents false x) -> on n pos = false
  | Some l => StronglySorted before l /\ exists n, In n (item_idents false x) /\ on n pos = true /\ forall t, In t l <-> refers x a (id_at n) t
  end.
Proof.
  intros S ND. unfold offered. pose proof (met_item_names x k) as EN. destruct (@offered_last pos (met_item x k) None) as [(n & u & k' & H & O & ->)|[H ->]]; [|rewrite <- EN; auto].
  destruct (sort_ok (k_names u k')) as [S1 S2]. split; [apply dedup_sorted; auto|]. exists n. split; [rewrite <- EN; eapply in_names; eauto|]. split; auto. intros t. rewrite dedup_in, S2.
  destruct (@good_item (id_at n) t x k a S ND) as [_ G]. exact (G _ _ _ H eq_refl).
Qed.

(** ** The item and the scope *)
Lemma run_keys sy : forall ps at_ c a n, keys c a -> keys (scope_of c (nv_items (run sy at_ ps c n))) (fold_left (fun a p => after_item (pl_item p) a) ps a).
Proof.
  induction ps as [|p ps IH]; intros at_ c a n K; cbn [run fold_left]; [exact K|]. destruct (resolve_item sy (pl_item p) c _) as [t s] eqn:E. cbn [nv_items].
  apply (@nav_item sy _ _ _ K) in E as (ds & M & L). unfold scope_of. cbn [fold_left]. apply IH. unfold idefs. cbn. pose proof (m_defs M) as Ed. cbn in Ed. rewrite Ed. apply L.
Qed.
(** Items that are not empty. *)
Fixpoint grow (at_ : nat) (ps : list placed) : Prop := match ps with [] => True | p :: r => at_ < pl_end p /\ grow (pl_end p) r end.
Lemma grow_end : forall ps at_, grow at_ ps -> at_ <= end_of at_ ps.
Proof. induction ps as [|p ps IH]; intros at_ G; cbn in *; auto. destruct G as [A B]. specialize (IH _ B). lia. Qed.
Lemma find_item_at pos : forall ps at_ L k i p, grow at_ ps -> spans at_ ps L -> nth_error ps i = Some p -> end_of at_ (firstn i ps) < pos <= pl_end p -> find_item pos L k = Some (k + i).
Proof.
  induction ps as [|q ps IH]; intros at_ [|n L] k i p G S E H; try contradiction; [destruct i; discriminate|]. destruct S as (S1 & S2 & S3), G as [G1 G2]. cbn [find_item]. rewrite S1, S2. destruct i as [|i].
  - injection E as ->. cbn in H. destruct (Nat.leb_spec at_ pos), (Nat.leb_spec pos (pl_end p)); try lia. cbn. f_equal. lia.
  - cbn [nth_error firstn end_of] in *. assert (pl_end q <= end_of (pl_end q) (firstn i ps)).
    { apply grow_end. clear - G2. revert G2. generalize (pl_end q). revert i. induction ps; intros [|i] x G; cbn; auto. destruct G. split; auto. }
    destruct (Nat.leb_spec pos (pl_end q)); [lia|]. rewrite andb_false_r. rewrite (IH _ L (S k) i p G2 S3 E ltac:(lia)). f_equal. lia.
Qed.
Lemma find_item_none pos : forall ps at_ L k, spans at_ ps L -> grow at_ ps -> pos < at_ \/ end_of at_ ps < pos -> find_item pos L k = None.
Proof.
  induction ps as [|q ps IH]; intros at_ [|n L] k S G H; try contradiction; auto. destruct S as (S1 & S2 & S3), G as [G1 G2]. cbn in *. rewrite S1, S2. pose proof (@grow_end _ _ G2).
  destruct (Nat.leb_spec at_ pos), (Nat.leb_spec pos (pl_end q)); cbn; try lia; eapply IH; eauto; lia.
Qed.
Lemma grow_app : forall a at_ b, grow at_ (a ++ b) -> grow at_ a /\ grow (end_of at_ a) b.
Proof. induction a as [|p a IH]; intros at_ b G; cbn in *; auto. destruct G as [G1 G2]. destruct (IH _ _ G2). auto. Qed.

(** In an item (the identifier put at the position parsed with it), completion offers names if there is a name in the
    place of a use there: exactly the texts that, written there, refer to a definition, in alphabetical order, each
    once.  What was asked before does not matter. *)
Theorem C54_completions sy ps offs again pos i p : grow 0 ps ->
  nth_error ps i = Some p -> end_of 0 (firstn i ps) < pos <= pl_end p -> NoDup (map id_at (item_idents true (again i))) ->
  match snd (completions_at sy ps again pos (nav_after sy ps offs)) with
  | None => forall n, In n (item_idents false (again i)) -> on n pos = false
  | Some l => StronglySorted before l /\
    exists n, In n (item_idents false (again i)) /\ on n pos = true /\ forall t, In t l <-> refers (again i) (around_after (firstn i ps)) (id_at n) t
  end.
Proof.
  intros G E H ND. destruct (after_reached sy ps offs) as (ps0 & R0). destruct (@up_to_reached sy ps _ ps0 pos R0) as (ps1 & ((ps2 & P1) & Ev) & HP).
  assert (E1 : nth_error ps1 i = Some p /\ firstn i ps = firstn i ps1).
  { destruct (Nat.lt_ge_cases i (length ps1)) as [Lt|Ge].
    - rewrite P1, nth_error_app1 in E by auto. split; auto. rewrite P1, firstn_app. replace (i - length ps1) with 0 by lia. apply app_nil_r.
    - exfalso. destruct HP as [->|HP]; [apply nth_error_None in Ge; congruence|]. assert (end_of 0 ps1 <= end_of 0 (firstn i ps)); [|lia].
      rewrite P1, firstn_app, firstn_all2, end_app by lia. apply grow_end. rewrite P1 in G. apply grow_app in G as [_ G]. clear - G. revert G. generalize (end_of 0 ps1) as x. generalize (i - length ps1) as j. clear.
      induction ps2; intros [|j] x G; cbn; auto. destruct G. split; auto. }
  destruct E1 as [E1 EF]. unfold completions_at. cbn [snd]. rewrite Ev. pose proof G as G'. rewrite P1 in G. apply grow_app in G as [G _].
  rewrite EF in H |- *. rewrite (@find_item_at pos ps1 0 _ 0 i p G (run_spans sy ps1 0 _ _) E1 H). cbn [Nat.add].
  apply offered_ok; auto.
  assert (Q : firstn i (nv_items (run sy 0 ps1 c0 0)) = nv_items (run sy 0 (firstn i ps1) c0 0)).
  { rewrite <- (firstn_skipn i ps1) at 1. rewrite run_app. cbn [nv_items]. rewrite firstn_app, run_length, firstn_length. 
    assert (i < length ps1) by (apply nth_error_Some; congruence). replace (i - Nat.min i (length ps1)) with 0 by lia. rewrite firstn_O, app_nil_r. apply firstn_all2. rewrite run_length, firstn_length. lia. }
  rewrite Q. apply (@run_keys sy (firstn i ps1) 0 c0 a0 0). repeat split.
Qed.
Print Assumptions C54_completions.
(** Outside the items there is nothing. *)
Theorem C54_outside sy ps offs again pos : grow 0 ps -> pos = 0 /\ offs = [] \/ end_of 0 ps < pos -> snd (completions_at sy ps again pos (nav_after sy ps offs)) = None.
Proof.
  intros G H. destruct (after_reached sy ps offs) as (ps0 & R0). destruct (@up_to_reached sy ps _ ps0 pos R0) as (ps1 & ((ps2 & P1) & Ev) & HP).
  destruct H as [[-> ->]|H]; [reflexivity|]. unfold completions_at. cbn [snd]. rewrite Ev. rewrite P1 in G, H. apply grow_app in G as [G1 G2]. rewrite end_app in H.
  destruct HP as [HP|HP].
  - rewrite (@find_item_none pos ps1 0 _ 0 (run_spans sy ps1 0 _ _) G1); auto. right. assert (end_of 0 ps1 <= end_of (end_of 0 ps1) ps2) by (apply grow_end; auto). lia.
  - pose proof (@grow_end _ _ G2). lia.
Qed.
Print Assumptions C54_outside.

(** [type T = A; let f : T = A; let g : a -> | = \x -> |;] with completions at the two bars. *)
Section Example.
  Let i t n := mkIdent [t]%N n.
  Let hack := [116;105;99;99;95;97]%N.
  Let g (ty : ident) (b : xexpr) := XValue (i 103 32) false (Some (XFn (XNamed (i 97 36) []) (XNamed ty []))) (inr (XLam false (i 120 46) b)).
  Definition cp : list placed := [
    mkPlaced (XType (i 84 5) false false [] [(i 65 9, [])]) 11;
    mkPlaced (XValue (i 102 16) false (Some (XNamed (i 84 20) [])) (inr (XName (i 65 24)))) 26;
    mkPlaced (XValue (i 103 32) false (Some (XFn (XNamed (i 97 36) []) XInt)) (inr (XLam false (i 120 46) (XHole [])))) 53].
  Definition cp_again1 (k : nat) : xitem := g (mkIdent hack 41) (XHole []).
  Definition cp_again2 (k : nat) : xitem := g (i 97 41) (XName (mkIdent hack 51)).
  Example C54_example_type : grow 0 cp /\ NoDup (map id_at (item_idents true (cp_again1 2))) /\ end_of 0 (firstn 2 cp) < 41 <= 53 /\
    snd (completions_at (fun n => n) cp cp_again1 41 (nav_after (fun n => n) cp [3; 30])) = Some [[84]; [97]]%N /\
    refers (cp_again1 2) (around_after (firstn 2 cp)) 41 [97%N] /\ ~ refers (cp_again1 2) (around_after (firstn 2 cp)) 41 [98%N].
  Proof.
    split; [cbn; repeat split; lia|]. split; [cbn; repeat constructor; cbn; intuition lia|]. split; [cbn; lia|]. split; [vm_compute; reflexivity|]. split.
    - eexists. vm_compute. left. reflexivity.
    - intros [d H]. vm_compute in H. exact H.
  Qed.
  Example C54_example_value : NoDup (map id_at (item_idents true (cp_again2 2))) /\
    snd (completions_at (fun n => n) cp cp_again2 51 (nav_after (fun n => n) cp [])) = Some [[65]; [102]; [120]]%N /\
    snd (completions_at (fun n => n) cp cp_again2 46 (nav_after (fun n => n) cp [])) = None.
  Proof. split; [cbn; repeat constructor; cbn; intuition lia|]. split; vm_compute; reflexivity. Qed.
End Example.
