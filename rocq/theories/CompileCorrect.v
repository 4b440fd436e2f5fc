(** Simulation between the evaluator (arguments first) and the bytecode machine. *)
From Verif Require Import EvalFacts Vm CompileStatic.
Set Implicit Arguments.

(** ** Names *)
Lemma retain_new_In d l x : In x (retain_new d l) <-> In x l /\ ~ In x d.
Proof.
  revert d; induction l as [|y l IH]; intros d; simpl; [tauto|].
  destruct (mem y d) eqn:E.
  - apply mem_In in E. rewrite IH. split; [tauto|]. intros [[->|H] H']; tauto.
  - apply mem_false in E. simpl. rewrite IH. simpl. split.
    + intros [->|[H1 H2]]; tauto.
    + intros [[->|H] H']; auto. destruct (Nat.eq_dec y x); auto. right; split; auto. intros [?|?]; auto.
Qed.
Lemma retain_new_NoDup d l : NoDup (retain_new d l).
Proof.
  revert d; induction l as [|y l IH]; intros d; simpl; [constructor|].
  destruct (mem y d); auto. constructor; auto. rewrite retain_new_In. simpl; tauto.
Qed.

Lemma free_variables_In e x : In x (free_variables e) <-> In x (used_names e) /\ ~ In x (binders e).
Proof. apply retain_new_In. Qed.

Lemma forallb_In {A} (f : A -> bool) l : forallb f l = true <-> (forall x, In x l -> f x = true).
Proof. apply forallb_forall. Qed.

Lemma scoped_weaken e : forall S S', scoped S e = true ->
  (forall x, In x (used_names e) -> In x S -> In x S') -> scoped S' e = true.
Proof.
  assert (HA : forall args S S', Forall (fun e => forall S S', scoped S e = true ->
            (forall x, In x (used_names e) -> In x S -> In x S') -> scoped S' e = true) args ->
     forallb (scoped S) args = true ->
     (forall x, In x (flat_map used_names args) -> In x S -> In x S') -> forallb (scoped S') args = true).
  { intros args S S' HF Hs Hx. rewrite forallb_In in *. rewrite Forall_forall in HF.
    intros a Ha. apply (HF a Ha S); auto. intros x Hxa; apply Hx. apply in_flat_map; eauto. }
  assert (HX : forall (xs S S' : list name) (u : list name), (forall x, In x u -> In x S -> In x S') ->
                (forall x, In x u -> In x (xs ++ S) -> In x (xs ++ S'))).
  { intros xs S S' u H x Hu Hx. rewrite in_app_iff in *. destruct Hx; auto. }
  induction e using expr_ind'; intros S S' Hs Hx; simpl in *; auto.
  - apply mem_In. apply mem_In in Hs. auto.
  - apply andb_prop in Hs as [H1 H2]. apply andb_true_intro; split.
    + apply (IHe S); auto. intros; apply Hx; auto; apply in_or_app; auto.
    + eapply HA; eauto. intros; apply Hx; auto; apply in_or_app; auto.
  - apply andb_prop in Hs as [Hs H3]. apply andb_prop in Hs as [H1 H2].
    rewrite (IHe1 S S'), (IHe2 S S'), (IHe3 S S'); auto; intros; apply Hx; auto; rewrite !in_app_iff; auto.
  - apply andb_prop in Hs as [H1 H2].
    rewrite (IHe1 S S'), (IHe2 S S'); auto; intros; apply Hx; auto; rewrite !in_app_iff; auto.
  - eapply HA; eauto.
  - eapply IHe; eauto.
  - apply andb_prop in Hs as [H1 H2]. rewrite (IHe S S'); auto.
    2:{ intros; apply Hx; auto; rewrite !in_app_iff; auto. }
    simpl. rewrite forallb_In in *. rewrite Forall_forall in H. intros br Hbr.
    apply (H br Hbr (snd (fst br) ++ S)); auto. apply HX. intros x Hxb; apply Hx.
    rewrite in_app_iff; right; apply in_flat_map; eauto.
  - eapply HA; eauto.
  - apply andb_prop in Hs as [H1 H2]. rewrite (IHe1 S S'), (IHe2 (n :: S) (n :: S')); auto.
    + intros x Hu Hi; simpl in *. destruct Hi; auto. right; apply Hx; auto. apply in_or_app; auto.
    + intros; apply Hx; auto; apply in_or_app; auto.
  - apply andb_prop in Hs as [H1 H2]. rewrite (IHe1 (n :: S) (n :: S')), (IHe2 (n :: S) (n :: S')); auto.
    + intros x Hu Hi; simpl in *. destruct Hi; auto. right; apply Hx; auto. apply in_or_app; auto.
    + intros x Hu Hi; simpl in *. destruct Hi; auto. right; apply Hx; auto. apply in_or_app; auto.
  - eapply IHe; eauto.
  - eapply IHe; eauto.
Qed.

Lemma scoped_used e : forall S, scoped S e = true ->
  forall x, In x (used_names e) -> In x S \/ In x (binders e).
Proof.
  assert (HA : forall args S, Forall (fun e => forall S, scoped S e = true ->
             forall x, In x (used_names e) -> In x S \/ In x (binders e)) args ->
     forallb (scoped S) args = true ->
     forall x, In x (flat_map used_names args) -> In x S \/ In x (flat_map binders args)).
  { intros args S HF Hs x Hx. rewrite forallb_In in *. rewrite Forall_forall in HF.
    apply in_flat_map in Hx as (a & Ha & Hxa). destruct (HF a Ha S (Hs a Ha) x Hxa); auto.
    right; apply in_flat_map; eauto. }
  induction e using expr_ind'; intros S Hs x Hx; simpl in *; try tauto.
  - destruct Hx as [<-|[]]. left; apply mem_In; auto.
  - apply andb_prop in Hs as [H1 H2]. rewrite in_app_iff in *. destruct Hx as [Hx|Hx].
    + destruct (IHe S H1 x Hx); auto.
    + destruct (HA args S H H2 x Hx); auto.
  - apply andb_prop in Hs as [Hs H3]. apply andb_prop in Hs as [H1 H2]. rewrite !in_app_iff in *.
    destruct Hx as [Hx|[Hx|Hx]]; [destruct (IHe1 S H1 x Hx)|destruct (IHe2 S H2 x Hx)|destruct (IHe3 S H3 x Hx)]; auto.
  - apply andb_prop in Hs as [H1 H2]. rewrite !in_app_iff in *.
    destruct Hx as [Hx|Hx]; [destruct (IHe1 S H1 x Hx)|destruct (IHe2 S H2 x Hx)]; auto.
  - eapply HA; eauto.
  - destruct (IHe _ Hs x Hx) as [H|H]; rewrite in_app_iff in *; tauto.
  - apply andb_prop in Hs as [H1 H2]. rewrite !in_app_iff in *. destruct Hx as [Hx|Hx].
    + destruct (IHe S H1 x Hx); auto.
    + rewrite forallb_In in *. rewrite Forall_forall in H. apply in_flat_map in Hx as (br & Hbr & Hx).
      destruct (H br Hbr _ (H2 br Hbr) x Hx) as [HH|HH].
      * rewrite in_app_iff in HH. destruct HH; auto. right; right; apply in_flat_map; exists br; split; auto.
        rewrite in_app_iff; auto.
      * right; right; apply in_flat_map; exists br; split; auto. rewrite in_app_iff; auto.
  - eapply HA; eauto.
  - apply andb_prop in Hs as [H1 H2]. rewrite !in_app_iff in *.
    destruct Hx as [Hx|Hx]; [destruct (IHe1 _ H1 x Hx)|destruct (IHe2 _ H2 x Hx) as [[?|?]|?]]; auto.
  - apply andb_prop in Hs as [H1 H2]. rewrite !in_app_iff in *.
    destruct Hx as [Hx|Hx]; [destruct (IHe1 _ H1 x Hx) as [[?|?]|?]|destruct (IHe2 _ H2 x Hx) as [[?|?]|?]]; auto.
  - eauto.
  - eauto.
Qed.

(** Well-scoped with globally unique binders. *)
Definition wfx (S : list name) (e : expr) : Prop :=
  scoped S e = true /\ NoDup (binders e) /\ (forall x, In x (binders e) -> ~ In x S).

Lemma NoDup_app_iff {A} (a b : list A) :
  NoDup (a ++ b) <-> NoDup a /\ NoDup b /\ (forall x, In x a -> ~ In x b).
Proof.
  induction a as [|x a IH]; simpl.
  - split; [intros H; repeat split; auto; constructor|tauto].
  - split.
    + intros H; inversion H as [|? ? H1 H2]; subst. apply IH in H2 as (Ha & Hb & Hd).
      rewrite in_app_iff in H1. repeat split; auto.
      * constructor; tauto.
      * intros y [->|Hy]; auto.
    + intros (Ha & Hb & Hd). inversion Ha; subst. constructor.
      * rewrite in_app_iff. intros [?|?]; auto. apply (Hd x); auto.
      * apply IH; repeat split; auto.
Qed.

Lemma NoDup_flat_map_In {A B} (f : A -> list B) l a :
  NoDup (flat_map f l) -> In a l -> NoDup (f a).
Proof.
  induction l as [|x l IH]; simpl; [tauto|]. rewrite NoDup_app_iff. intros (H1 & H2 & _) [->|H]; auto.
Qed.

Lemma wfx_args S args : forallb (scoped S) args = true -> NoDup (flat_map binders args) ->
  (forall x, In x (flat_map binders args) -> ~ In x S) -> Forall (wfx S) args.
Proof.
  intros H1 H2 H3. rewrite Forall_forall; intros a Ha. rewrite forallb_In in H1. repeat split; auto.
  - eapply NoDup_flat_map_In; eauto.
  - intros x Hx; apply H3, in_flat_map; eauto.
Qed.

(** The function closed over [caps] is well scoped in its frame. *)
Lemma wfx_lambda S ps body :
  wfx S (ELam ps body) ->
  let caps := free_variables (ELam ps body) in
  let pn := map fst ps in
  incl caps S /\ NoDup (pn ++ caps) /\ wfx (pn ++ caps) body.
Proof.
  intros (Hs & Hn & Hd) caps pn. simpl in *.
  assert (Hc : forall x, In x caps -> In x S /\ ~ In x pn /\ ~ In x (binders body)).
  { intros x Hx. apply free_variables_In in Hx as [Hu Hb]. simpl in *. rewrite in_app_iff in Hb.
    destruct (scoped_used _ _ Hs x Hu) as [H|H]; [|tauto]. rewrite in_app_iff in H. tauto. }
  rewrite NoDup_app_iff in Hn. destruct Hn as (Hn1 & Hn2 & Hn3). repeat split.
  - intros x Hx; apply Hc; auto.
  - apply NoDup_app_iff; repeat split; auto.
    + apply retain_new_NoDup.
    + intros x Hx Hx'. apply Hc in Hx'; tauto.
  - eapply scoped_weaken; [exact Hs|]. intros x Hu Hx. rewrite in_app_iff in *.
    destruct Hx as [Hx|Hx]; auto. destruct (in_dec Nat.eq_dec x pn); auto. right.
    apply free_variables_In; simpl. split; auto. rewrite in_app_iff. intros [?|?]; auto.
    apply (Hd x); auto. rewrite in_app_iff; auto.
  - auto.
  - intros x Hx. rewrite in_app_iff. intros [H|H].
    + eapply Hn3; eauto.
    + apply Hc in H; tauto.
Qed.

Lemma strip_scoped S v ps b : strip_pis v = ELam ps b -> scoped S v = scoped S (ELam ps b).
Proof. induction v; simpl; intros H; try discriminate; auto. injection H as -> ->; auto. Qed.
Lemma strip_used v ps b : strip_pis v = ELam ps b -> used_names v = used_names b.
Proof. induction v; simpl; intros H; try discriminate; auto. injection H as -> ->; auto. Qed.

Lemma wfx_letrec S n t v e ps body :
  wfx S (ELetRec n t v e) -> strip_pis v = ELam ps body ->
  let caps := filter (fun c : name => negb (Nat.eqb c n)) (free_variables (ELetRec n t v e)) in
  let pn := map fst ps in
  incl caps S /\ NoDup (pn ++ [n] ++ caps) /\ wfx (pn ++ [n] ++ caps) body /\ wfx (n :: S) e /\ ~ In n S.
Proof.
  intros (Hs & Hn & Hd) Est caps pn. simpl in *. apply andb_prop in Hs as [Hs1 Hs2].
  rewrite (strip_scoped _ _ Est) in Hs1. simpl in Hs1.
  rewrite (strip_pis_binders _ Est) in *. fold pn in Hn, Hd, Hs1.
  assert (Hc : forall x, In x caps -> In x S /\ x <> n /\ ~ In x pn /\ ~ In x (binders body)).
  { intros x Hx. apply filter_In in Hx as [Hx Hxn]. apply negb_true_iff, Nat.eqb_neq in Hxn.
    apply free_variables_In in Hx as [Hu Hb]. simpl in *. rewrite (strip_pis_binders _ Est) in Hb. fold pn in Hb.
    rewrite !in_app_iff in *. rewrite (strip_used _ Est) in Hu. destruct Hu as [Hu|Hu].
    - destruct (scoped_used _ _ Hs1 x Hu) as [H|H]; [|tauto]. rewrite in_app_iff in H. simpl in H.
      intuition congruence.
    - destruct (scoped_used _ _ Hs2 x Hu) as [[H|H]|H]; intuition congruence. }
  inversion Hn as [|? ? Hn0 Hn']; subst. rewrite !NoDup_app_iff in Hn'.
  destruct Hn' as ((Hn1 & Hn2 & Hn3) & Hn4 & Hn5). rewrite !in_app_iff in Hn0.
  split; [intros x Hx; apply Hc; auto|]. split; [|split; [|split]].
  - apply NoDup_app_iff; repeat split; auto.
    + constructor; [|apply NoDup_filter, retain_new_NoDup].
      intros Hx; apply Hc in Hx; tauto.
    + intros x Hx [<-|Hx']; [tauto|]. apply Hc in Hx'; tauto.
  - repeat split; auto.
    + eapply scoped_weaken; [exact Hs1|]. intros x Hu Hx. rewrite in_app_iff in *. simpl in Hx |- *.
      destruct Hx as [Hx|[Hx|Hx]]; auto. destruct (in_dec Nat.eq_dec x pn); auto.
      destruct (Nat.eq_dec n x); auto. right; right.
      apply filter_In; split; [|apply negb_true_iff, Nat.eqb_neq; auto].
      apply free_variables_In; simpl. rewrite (strip_used _ Est), (strip_pis_binders _ Est). fold pn.
      rewrite in_app_iff. split; auto. intros Hb. apply (Hd x); auto.
    + intros x Hx. rewrite in_app_iff; simpl. intros [H|[<-|H]].
      * eapply Hn3; eauto.
      * tauto.
      * apply Hc in H; tauto.
  - repeat split; auto. intros x Hx [<-|Hx']; [tauto|]. apply (Hd x); auto. right. rewrite !in_app_iff; auto.
  - apply Hd; auto.
Qed.

(** ** Lookups *)
Lemma lookup_app_r {A} x (l1 l2 : list (name * A)) : ~ In x (map fst l1) -> lookup x (l1 ++ l2) = lookup x l2.
Proof.
  induction l1 as [|[y v] l1 IH]; simpl; auto. intros H. destruct (Nat.eqb_spec x y); [subst; tauto|apply IH; tauto].
Qed.
Lemma map_fst_rev_combine {A B} (xs : list A) (vs : list B) :
  length xs = length vs -> map fst (rev (combine xs vs)) = rev xs.
Proof.
  intros H. rewrite map_rev. f_equal. revert vs H; induction xs as [|x xs IH]; intros [|v vs] H; simpl in *; try lia; auto.
  f_equal; auto.
Qed.
Lemma lookup_rev_combine {A} (xs : list name) (vs : list A) l i x v :
  NoDup xs -> length xs = length vs -> nth_error xs i = Some x -> nth_error vs i = Some v ->
  lookup x (rev (combine xs vs) ++ l) = Some v.
Proof.
  revert vs l i; induction xs as [|y xs IH]; intros [|w vs] l i Hn Hl Hx Hv; simpl in *; try (destruct i; discriminate).
  inversion Hn; subst. rewrite <- app_assoc. simpl. destruct i as [|i]; simpl in *.
  - injection Hx as ->; injection Hv as ->. rewrite lookup_app_r.
    + simpl. rewrite Nat.eqb_refl; auto.
    + rewrite map_fst_rev_combine by lia. rewrite <- in_rev; auto.
  - apply IH with i; auto; lia.
Qed.
Lemma lookup_rev_combine_notin {A} (xs : list name) (vs : list A) l x :
  length xs = length vs -> ~ In x xs -> lookup x (rev (combine xs vs) ++ l) = lookup x l.
Proof.
  intros H Hx. apply lookup_app_r. rewrite map_fst_rev_combine by auto. rewrite <- in_rev; auto.
Qed.
Lemma add_all_eq e ns vs : length ns = length vs -> add_all e ns vs = rev (combine ns vs) ++ e.
Proof.
  revert e vs; induction ns as [|n ns IH]; intros e [|v vs] H; simpl in *; try lia; auto.
  rewrite IH by lia. rewrite <- app_assoc; auto.
Qed.

Lemma Forall2_nth {A B} (R : A -> B -> Prop) l1 l2 i a b :
  Forall2 R l1 l2 -> nth_error l1 i = Some a -> nth_error l2 i = Some b -> R a b.
Proof.
  intros H; revert i; induction H; intros [|i]; simpl; try discriminate; eauto.
  congruence.
Qed.
Lemma nth_error_some {A} (l : list A) i : i < length l -> exists x, nth_error l i = Some x.
Proof. intros H. destruct (nth_error l i) eqn:E; eauto. apply nth_error_None in E; lia. Qed.

Lemma nth_error_rev {A} (l : list A) i : i < length l -> nth_error (rev l) i = nth_error l (length l - 1 - i).
Proof.
  revert i; induction l as [|x l IH] using rev_ind; simpl; intros i H; [lia|].
  rewrite rev_unit, app_length in *. simpl in *. destruct i; simpl.
  - rewrite nth_error_app2 by lia. replace (length l + 1 - 1 - 0 - length l) with 0 by lia. auto.
  - rewrite IH by lia. rewrite nth_error_app1 by lia. f_equal; lia.
Qed.

Tactic Notation "cstat" hyp(H) hyp(Hs) ident(L) ident(HZ) :=
  destruct (compile_static _ _ _ _ H Hs) as [[L _ _ _] HZ].

(** ** Code layout *)
Definition size (is : list instr) : nat := list_sum (map isize is).
Lemma size_app a b : size (a ++ b) = size a + size b.
Proof. unfold size. rewrite map_app, list_sum_app; auto. Qed.

Section Sim.
  Variable full : list instr.
  Variable code : list mop.
  Let la := label_addrs 0 [] full.
  Hypothesis Hlink : link_all la full = Some code.
  Hypothesis Huniq : forall l, cnt l full <= 1.

  Definition code_at (pc : nat) (is : list instr) : Prop :=
    exists pre post, full = pre ++ is ++ post /\ pc = size pre.

  Lemma code_at_app pc a b : code_at pc (a ++ b) -> code_at pc a /\ code_at (pc + size a) b.
  Proof.
    intros (pre & post & H & ->). split.
    - exists pre, (b ++ post). rewrite H, <- app_assoc; auto.
    - exists (pre ++ a), post. rewrite H, size_app, <- !app_assoc; auto.
  Qed.
  Lemma code_at_cons pc i r : code_at pc (i :: r) -> code_at pc [i] /\ code_at (pc + isize i) r.
  Proof.
    intros H. apply (code_at_app [i] r) in H as [H1 H2]. split; auto.
    unfold size in H2; simpl in H2. rewrite Nat.add_0_r in H2; auto.
  Qed.

  Lemma link1_length i l : link1 la i = Some l -> length l = isize i.
  Proof.
    destruct i; simpl; intros H; try (injection H as <-; reflexivity).
    - destruct (lookup l0 la); inversion H; auto.
    - destruct (lookup l0 la); inversion H; auto.
    - destruct upvalues; injection H as <-; auto.
    - destruct (lookup l0 la); inversion H; auto.
    - match type of H with (match ?m with _ => _ end) = _ => destruct m end; inversion H; auto.
  Qed.
  Lemma link_all_app a b c : link_all la (a ++ b) = Some c ->
    exists ca cb, link_all la a = Some ca /\ link_all la b = Some cb /\ c = ca ++ cb /\ length ca = size a.
  Proof.
    revert c; induction a as [|i a IH]; intros c H; simpl in *.
    - exists [], c; auto.
    - destruct (link1 la i) as [x|] eqn:E1; try discriminate.
      destruct (link_all la (a ++ b)) as [y|]; try discriminate. injection H as <-.
      destruct (IH y eq_refl) as (ca & cb & -> & -> & -> & Hl). exists (x ++ ca), cb.
      repeat split; auto. rewrite app_assoc; auto. rewrite app_length, (link1_length _ E1).
      unfold size in *; simpl; lia.
  Qed.

  Lemma code_at_link pc i : code_at pc [i] -> exists l, link1 la i = Some l /\
    (forall o, l = [o] -> nth_error code pc = Some o).
  Proof.
    intros (pre & post & H & ->). assert (HL := Hlink). rewrite H in HL at 1.
    apply link_all_app in HL as (ca & cb & Ha & Hb & -> & Hl).
    apply link_all_app in Hb as (cb1 & cb2 & Hb1 & Hb2 & -> & Hl2). simpl in Hb1.
    destruct (link1 la i) as [x|] eqn:E; try discriminate. rewrite app_nil_r in Hb1.
    injection Hb1 as <-. exists x; split; auto. intros o ->.
    rewrite nth_error_app2 by lia. rewrite Hl, Nat.sub_diag. reflexivity.
  Qed.

  Lemma label_addrs_app a acc x y :
    label_addrs a acc (x ++ y) = label_addrs (a + size x) (label_addrs a acc x) y.
  Proof.
    revert a acc; induction x as [|i x IH]; intros a acc.
    - simpl. unfold size; simpl. rewrite Nat.add_0_r; auto.
    - cbn [app label_addrs]. replace (a + size (i :: x)) with ((a + isize i) + size x) by (unfold size; simpl; lia).
      destruct i; try apply IH. simpl isize. rewrite Nat.add_0_r. apply IH.
  Qed.
  Lemma label_addrs_notin l a acc x : cnt l x = 0 -> lookup l (label_addrs a acc x) = lookup l acc.
  Proof.
    revert a acc; induction x as [|i x IH]; intros a acc H; auto.
    cbn [label_addrs]. destruct i; simpl in H; try (apply IH; lia).
    rewrite IH by lia. simpl. destruct (Nat.eqb_spec l l0); auto; lia.
  Qed.
  Lemma code_at_label pc l : code_at pc [ILabel l] -> lookup l la = Some pc.
  Proof.
    intros (pre & post & H & ->). unfold la. pose proof (Huniq l) as Hu. rewrite H in *.
    rewrite cnt_app in Hu. simpl in Hu. rewrite Nat.eqb_refl in Hu.
    rewrite label_addrs_app. simpl. rewrite label_addrs_notin by lia. simpl. rewrite Nat.eqb_refl; auto.
  Qed.

  Definition placed (f : list (list instr)) : Prop := forall c, In c f -> exists pc, code_at pc c.
  Lemma placed_app a b : placed (a ++ b) -> placed a /\ placed b.
  Proof. intros H; split; intros c Hc; apply H, in_or_app; auto. Qed.

  (** ** Machine steps *)
  Inductive steps : nat -> nat -> stack -> nat -> stack -> Prop :=
  | steps0 pc st : steps 0 pc st pc st
  | stepsS k pc st pc1 st1 pc2 st2 :
      step code pc st = Next pc1 st1 -> steps k pc1 st1 pc2 st2 -> steps (S k) pc st pc2 st2.

  Lemma steps_trans a b pc st pc1 st1 pc2 st2 :
    steps a pc st pc1 st1 -> steps b pc1 st1 pc2 st2 -> steps (a + b) pc st pc2 st2.
  Proof. induction 1; simpl; auto. intros; econstructor; eauto. Qed.
  Lemma steps1 pc st pc1 st1 : step code pc st = Next pc1 st1 -> steps 1 pc st pc1 st1.
  Proof. intros; econstructor; eauto; constructor. Qed.

  Definition sim {A} (r : res A) (n pc : nat) (st : stack) (post : A -> nat -> stack -> Prop) : Prop :=
    match r with
    | Ok v => exists k pc' st', steps k pc st pc' st' /\ post v pc' st'
    | Trap m => exists k pc' st', steps k pc st pc' st' /\ step code pc' st' = Trapped m
    | OutOfFuel => exists k pc' st', n <= k /\ steps k pc st pc' st'
    | Panic => True
    end.

  Lemma sim_pre {A} (r : res A) n k pc st pc1 st1 post :
    steps k pc st pc1 st1 -> sim r n pc1 st1 post -> sim r (k + n) pc st post.
  Proof.
    intros H; destruct r; simpl; auto; intros (k' & pc' & st' & H1 & H2); exists (k + k'), pc', st'.
    - split; auto. eapply steps_trans; eauto.
    - split; auto. eapply steps_trans; eauto.
    - split; [lia|]. eapply steps_trans; eauto.
  Qed.
  Lemma sim_le {A} (r : res A) n m pc st post : m <= n -> sim r n pc st post -> sim r m pc st post.
  Proof.
    intros Hle; destruct r; simpl; auto. intros (k & pc' & st' & H1 & H2); exists k, pc', st'; split; auto; lia.
  Qed.
  Lemma sim_steps {A} (r : res A) n k pc st pc1 st1 post :
    steps k pc st pc1 st1 -> sim r n pc1 st1 post -> sim r n pc st post.
  Proof. intros H1 H2. eapply sim_le; [|eapply sim_pre; eauto]. lia. Qed.
  Lemma sim_bind {A B} (r : res A) (f : A -> res B) n pc st P Q :
    sim r n pc st P -> (forall v pc1 st1, P v pc1 st1 -> sim (f v) n pc1 st1 Q) ->
    sim (bind r f) n pc st Q.
  Proof.
    destruct r; simpl; auto. intros (k & pc' & st' & H1 & H2) H. eapply sim_steps; eauto.
  Qed.
  Lemma sim_post {A} (r : res A) n pc st (P Q : A -> nat -> stack -> Prop) :
    sim r n pc st P ->
    (forall v pc1 st1, P v pc1 st1 -> exists k pc2 st2, steps k pc1 st1 pc2 st2 /\ Q v pc2 st2) ->
    sim r n pc st Q.
  Proof.
    destruct r; simpl; auto. intros (k & pc' & st' & H1 & H2) H.
    destruct (H _ _ _ H2) as (k2 & pc2 & st2 & H3 & H4). exists (k + k2), pc2, st2; split; auto.
    eapply steps_trans; eauto.
  Qed.
  Lemma sim_ok {A} (v : A) n pc st pc' st' (P : A -> nat -> stack -> Prop) k :
    steps k pc st pc' st' -> P v pc' st' -> sim (Ok v) n pc st P.
  Proof. simpl; eauto 6. Qed.

  (** ** Values *)
  (** The code of a function with parameters [ps], own name [rec], captured names [caps] is at [addr]. *)
  Definition fn_ok (addr : nat) (tl : label) (rec : option name) (ps : list name) (body : expr)
             (caps : list name) : Prop :=
    exists next st1 bcode f,
      code_at addr ([IEnter (length caps); ILabel tl] ++ bcode ++ [IReturn (length ps) (length caps)]) /\
      compile_expr body (fun_ctx tl ps rec caps) true (fun_st ps rec caps next) = Some (st1, bcode, f) /\
      placed f /\
      let Sc := ps ++ match rec with Some n => [n] | None => [] end ++ caps in
      NoDup Sc /\ wfx Sc body /\
      shape (match rec with Some n => Some (n, length ps) | None => None end) true body = true.

  Inductive vrel : value -> mval -> Prop :=
  | VRInt i : vrel (VInt i) (MInt i)
  | VRBool b : vrel (VBool b) (MBool b)
  | VRStr s : vrel (VStr s) (MStr s)
  | VRComp c vs ms : Forall2 vrel vs ms -> length vs <= max_fields -> vrel (VComp c vs) (MObj c ms)
  | VRFn cenv rec ps body caps tl addr vs ms :
      fn_ok addr tl rec ps body caps ->
      map (fun c => lookup c cenv) caps = map Some vs ->
      Forall2 vrel vs ms ->
      vrel (VFn cenv rec ps body) (MClo addr ms).

  Definition erel (Sc : list name) (en : env) (l : list (name * nat)) (sz : nat) (stk : stack) : Prop :=
    forall x, In x Sc -> exists v a mv, lookup x en = Some v /\ lookup x l = Some a /\ a < sz /\
                                       nth_error stk (sz - 1 - a) = Some mv /\ vrel v mv.

  Lemma erel_ext Sc en en' l l' sz sz' stk pushed :
    erel Sc en l sz stk ->
    (forall x, In x Sc -> lookup x en' = lookup x en) ->
    (forall x, In x Sc -> lookup x l' = lookup x l) -> sz' = sz + length pushed ->
    erel Sc en' l' sz' (pushed ++ stk).
  Proof.
    intros H He Hl -> x Hx. destruct (H x Hx) as (v & a & mv & H1 & H2 & H3 & H4 & H5).
    exists v, a, mv. rewrite He, Hl by auto. repeat split; auto; try lia.
    rewrite nth_error_app2 by lia. rewrite <- H4. f_equal; lia.
  Qed.
  Lemma erel_add x v mv Sc en l sz stk :
    erel Sc en l sz stk -> vrel v mv -> ~ In x Sc ->
    erel (x :: Sc) ((x, v) :: en) ((x, sz) :: l) (sz + 1) (mv :: stk).
  Proof.
    intros H Hv Hx y [<-|Hy].
    - exists v, sz, mv. simpl. rewrite Nat.eqb_refl. repeat split; auto; try lia.
      replace (sz + 1 - 1 - sz) with 0 by lia. auto.
    - destruct (H y Hy) as (v' & a & mv' & H1 & H2 & H3 & H4 & H5). exists v', a, mv'. simpl.
      destruct (Nat.eqb_spec y x); [subst; tauto|]. repeat split; auto; try lia.
      replace (sz + 1 - 1 - a) with (S (sz - 1 - a)) by lia. auto.
  Qed.
  Lemma erel_incl Sc Sc' en l sz stk : erel Sc en l sz stk -> incl Sc' Sc -> erel Sc' en l sz stk.
  Proof. intros H Hi x Hx; auto. Qed.

  Definition tinfo (ctx : fctx) (Sc : list name) (en : env) (l : list (name * nat)) (sz : nat) (stk : stack)
             (ret : nat) (below : stack) : Prop :=
    exists temps ms fnv args,
      stk = temps ++ rev ms ++ MInt (N.of_nat ret) :: fnv :: rev args ++ below /\
      length args = length (f_params ctx) /\
      f_entry_sz ctx = length args + 2 + length ms /\
      sz = length temps + f_entry_sz ctx /\
      (forall i p, nth_error (f_params ctx) i = Some p -> lookup p l = Some i) /\
      incl (f_params ctx) Sc /\
      match f_rec ctx with
      | None => True
      | Some n => In n Sc /\ exists cenv body caps addr vs,
          lookup n en = Some (VFn cenv (Some n) (f_params ctx) body) /\
          fnv = MClo addr ms /\ fn_ok addr (f_tail ctx) (Some n) (f_params ctx) body caps /\
          map (fun c => lookup c cenv) caps = map Some vs /\ Forall2 vrel vs ms
      end.

  Lemma tinfo_ext ctx Sc Sc' en en' l l' sz sz' stk pushed ret below :
    tinfo ctx Sc en l sz stk ret below ->
    (forall x, In x Sc -> lookup x en' = lookup x en) ->
    (forall x, In x Sc -> lookup x l' = lookup x l) -> sz' = sz + length pushed -> incl Sc Sc' ->
    tinfo ctx Sc' en' l' sz' (pushed ++ stk) ret below.
  Proof.
    intros (temps & ms & fnv & args & H1 & H2 & H3 & H4 & H5 & H6 & H7) He Hl -> Hi.
    exists (pushed ++ temps), ms, fnv, args. repeat split; auto.
    - rewrite H1, app_assoc; auto.
    - rewrite app_length; lia.
    - intros i p Hp. rewrite Hl; auto. apply H6. eapply nth_error_In; eauto.
    - intros x Hx; auto.
    - destruct (f_rec ctx) as [n|]; auto. destruct H7 as [Hn H7]. split; auto.
      destruct H7 as (cenv & body & caps & addr & vs & H7 & H8). exists cenv, body, caps, addr, vs.
      rewrite He; auto.
  Qed.

  Definition epost (tail : bool) (pc' : nat) (stk : stack) (ret : nat) (below : stack)
             (v : value) (pc1 : nat) (st1 : stack) : Prop :=
    exists mv, vrel v mv /\ ((pc1 = pc' /\ st1 = mv :: stk) \/ (tail = true /\ pc1 = ret /\ st1 = mv :: below)).

  Definition esim (n : nat) (e : expr) : Prop :=
    forall ctx tail st0 st1 c f pc en stk Sc ret below,
      compile_expr e ctx tail st0 = Some (st1, c, f) -> code_at pc c -> placed f ->
      wfx Sc e -> shape (ctx_rec ctx) tail e = true ->
      erel Sc en (c_locals st0) (c_sz st0) stk ->
      (tail = true -> tinfo ctx Sc en (c_locals st0) (c_sz st0) stk ret below) ->
      sim (eval_o ArgsFirst n en e) n pc stk (epost tail (pc + size c) stk ret below).

  Lemma esim_nt n e ctx st0 st1 c f pc en stk Sc :
    esim n e ->
    compile_expr e ctx false st0 = Some (st1, c, f) -> code_at pc c -> placed f ->
    wfx Sc e -> shape (ctx_rec ctx) false e = true ->
    erel Sc en (c_locals st0) (c_sz st0) stk ->
    sim (eval_o ArgsFirst n en e) n pc stk
        (fun v pc1 st1 => pc1 = pc + size c /\ exists mv, vrel v mv /\ st1 = mv :: stk).
  Proof.
    intros H Hc Ha Hp Hw Hs He. eapply sim_post.
    - eapply (H ctx false st0 st1 c f pc en stk Sc 0 []); eauto. discriminate.
    - intros v pc1 s1 (mv & Hv & [[-> ->]|[? _]]); [|discriminate].
      exists 0, (pc + size c), (mv :: stk). split; [constructor|eauto].
  Qed.

  (** Argument lists. *)
  Lemma args_sim n ctx args :
    Forall (esim n) args -> forall st0 st1 c f pc en stk Sc,
      seqs (map (fun a => compile_expr a ctx false) args) st0 = Some (st1, c, f) ->
      code_at pc c -> placed f -> Forall (wfx Sc) args ->
      forallb (shape (ctx_rec ctx) false) args = true ->
      erel Sc en (c_locals st0) (c_sz st0) stk ->
      sim (mapM (eval_o ArgsFirst n en) args) n pc stk
          (fun vs pc1 s1 => pc1 = pc + size c /\ exists ms, Forall2 vrel vs ms /\ length ms = length args /\ s1 = rev ms ++ stk).
  Proof.
    induction 1 as [|a args Ha _ IH]; intros st0 st1 c f pc en stk Sc Hc Hat Hp Hw Hsh He.
    - simpl in Hc. unfold skip in Hc; injection Hc as <- <- <-.
      simpl mapM. eapply sim_ok; [constructor|]. split; [unfold size; simpl; lia|]. exists []; auto.
    - simpl in Hc. inv_seq Hc as sa ca fa cb fb Hca Hcb.
      apply code_at_app in Hat as [Hat1 Hat2]. apply placed_app in Hp as [Hp1 Hp2].
      inversion Hw as [|? ? Hwa Hw']; subst. simpl in Hsh; apply andb_prop in Hsh as [Hs1 Hs2].
      cstat Hca Hs1 L HZ.
      rewrite mapM_cons. eapply sim_bind.
      + eapply esim_nt; eauto.
      + cbv beta. intros v pc1 s1 (-> & mv & Hv & ->). eapply sim_bind.
        * eapply IH; eauto. apply (@erel_ext Sc en en (c_locals st0) (c_locals sa) (c_sz st0) (c_sz sa) stk [mv]); auto.
          -- intros x Hx; apply L. destruct Hwa as (_ & _ & Hd). intros Hx'; apply (Hd x); auto.
          -- simpl; lia.
        * cbv beta. intros vs pc2 s2 (-> & ms & Hvs & Hlm & ->). eapply sim_ok; [constructor|].
          split; [rewrite size_app; lia|]. exists (mv :: ms). split; auto. simpl. split; auto.
          rewrite <- app_assoc; auto.
  Qed.

  Lemma step_code pc i o r st : code_at pc (i :: r) -> link1 la i = Some [o] ->
    step code pc st = match nth_error [o] 0 with Some _ => step code pc st | None => Stuck end /\
    nth_error code pc = Some o.
  Proof.
    intros H Hl. apply code_at_cons in H as [H _]. destruct (code_at_link H) as (l & H1 & H2).
    split; auto. apply H2. congruence.
  Qed.

  Lemma at_op pc i r o : code_at pc (i :: r) -> link1 la i = Some [o] -> nth_error code pc = Some o.
  Proof.
    intros H Hl. apply code_at_cons in H as [H _]. destruct (code_at_link H) as (l & H1 & H2).
    apply H2. congruence.
  Qed.

  (** *** Variables *)
  Lemma picks_sim Sc en caps : incl caps Sc -> forall st0 st1 c f pc stk,
    seqs (map pick_var caps) st0 = Some (st1, c, f) -> code_at pc c ->
    erel Sc en (c_locals st0) (c_sz st0) stk ->
    exists vs ms k, map (fun x => lookup x en) caps = map Some vs /\ Forall2 vrel vs ms /\
      steps k pc stk (pc + size c) (rev ms ++ stk).
  Proof.
    induction caps as [|x caps IH]; intros Hi st0 st1 c f pc stk Hc Hat He.
    - simpl in Hc. unfold skip in Hc. injection Hc as <- <- <-. exists [], [], 0. repeat split; auto.
      unfold size; simpl. rewrite Nat.add_0_r. constructor.
    - simpl in Hc. inv_seq Hc as sa ca fa cb fb Ha Hb.
      apply pick_inv in Ha as (a & Hl & Hlt & -> & -> & ->).
      destruct (He x) as (v & a' & mv & H1 & H2 & H3 & H4 & H5); [apply Hi; left; auto|].
      assert (a' = a) by congruence; subst a'.
      apply code_at_app in Hat as [Hat1 Hat2].
      destruct (IH (fun y Hy => Hi y (or_intror Hy)) _ _ _ _ _ (mv :: stk) Hb Hat2) as (vs & ms & k & E1 & E2 & E3).
      { apply (@erel_ext Sc en en (c_locals st0) (c_locals st0) (c_sz st0) _ stk [mv]); auto. simpl; lia. }
      exists (v :: vs), (mv :: ms), (S k). repeat split; auto.
      + simpl; congruence.
      + econstructor.
        * unfold step. rewrite (at_op Hat1 eq_refl).
          replace (c_sz st0 - a - 1) with (c_sz st0 - 1 - a) by lia. rewrite H4. reflexivity.
        * rewrite size_app. simpl rev. rewrite <- app_assoc. simpl app.
          replace (S pc) with (pc + size [IPick (c_sz st0 - a - 1)]) by (unfold size; simpl; lia).
          rewrite Nat.add_assoc. exact E3.
  Qed.

  Lemma take_fields_rev ms stk : take_fields (length ms) (rev ms ++ stk) = Some (ms, stk).
  Proof.
    unfold take_fields. rewrite app_length, rev_length.
    destruct (Nat.leb_spec (length ms) (length ms + length stk)); [|lia].
    rewrite firstn_app, skipn_app, rev_length, Nat.sub_diag. simpl.
    rewrite firstn_all2 by (rewrite rev_length; lia). rewrite skipn_all2 by (rewrite rev_length; lia).
    rewrite app_nil_r, rev_involutive; auto.
  Qed.

  Lemma map_Some_length {A} (f : name -> option A) l vs : map f l = map Some vs -> length l = length vs.
  Proof. intros H. apply (f_equal (@length _)) in H. rewrite !map_length in H; auto. Qed.

  Lemma Forall2_len {A B} (R : A -> B -> Prop) l1 l2 : Forall2 R l1 l2 -> length l1 = length l2.
  Proof. induction 1; simpl; auto. Qed.

  (** *** Closures *)
  Lemma closure_sim Sc en entry tl pn rec caps body st0 st1 c1 f1 st2 c2 f2 st3 c3 f3 pc stk :
    compile_function entry tl pn rec caps (fun c => compile_expr body c true) st0 = Some (st1, c1, f1) ->
    seqs (map pick_var caps) st1 = Some (st2, c2, f2) ->
    emit (IClosure entry (length caps)) (length caps) 1 st2 = Some (st3, c3, f3) ->
    code_at pc (c1 ++ c2 ++ c3) -> placed f1 ->
    incl caps Sc ->
    NoDup (pn ++ match rec with Some n => [n] | None => [] end ++ caps) ->
    wfx (pn ++ match rec with Some n => [n] | None => [] end ++ caps) body ->
    shape (match rec with Some n => Some (n, length pn) | None => None end) true body = true ->
    erel Sc en (c_locals st0) (c_sz st0) stk ->
    exists k mv, steps k pc stk (pc + size (c1 ++ c2 ++ c3)) (mv :: stk) /\
      vrel (VFn en rec pn body) mv.
  Proof.
    intros Hf Hpk Hem Hat Hpl Hi Hnd Hwf Hsh He.
    apply compile_function_inv in Hf as (stb & bcode & bfns & Hb & _ & -> & -> & ->).
    apply emit_inv in Hem as (_ & _ & -> & _). apply placed_app in Hpl as [Hp1 Hp2].
    destruct (Hp2 (fun_code entry tl pn caps bcode) (or_introl eq_refl)) as (addr & Haddr).
    unfold fun_code in Haddr. apply (code_at_app [ILabel entry]) in Haddr as [Hlab Hcode].
    unfold size in Hcode; simpl map in Hcode; simpl list_sum in Hcode. rewrite Nat.add_0_r in Hcode.
    apply code_at_label in Hlab. simpl app in Hat.
    apply code_at_app in Hat as [Hat1 Hat2].
    destruct (picks_sim Hi _ Hpk Hat1 He) as (vs & ms & k & E1 & E2 & E3).
    assert (Hlen : length caps = length ms).
    { rewrite (map_Some_length _ _ _ E1). eapply Forall2_len; eauto. }
    exists (k + 1), (MClo addr ms). split.
    - eapply steps_trans; [exact E3|]. apply steps1.
      rewrite app_nil_l, size_app. unfold step.
      assert (Hl : link1 la (IClosure entry (length caps)) = Some [OClosure addr (length caps)]).
      { simpl. rewrite Hlab; auto. }
      rewrite (at_op Hat2 Hl). rewrite Hlen, take_fields_rev. unfold size; simpl. f_equal; lia.
    - eapply VRFn with (caps := caps) (tl := tl); eauto.
      exists (c_next st0), stb, bcode, bfns. split; [exact Hcode|]. auto.
  Qed.

  (** *** Function bodies *)
  Lemma popn_app {A} (a b : list A) : popn (length a) (a ++ b) = Some b.
  Proof. induction a; simpl; auto. Qed.

  Lemma nth_lt {A} (l : list A) i x : nth_error l i = Some x -> i < length l.
  Proof. intros H. apply nth_error_Some. rewrite H. discriminate. Qed.

  Lemma fun_frame ps rec caps body cenv tl addr vs ms vargs args ret below :
    fn_ok addr tl rec ps body caps ->
    map (fun c => lookup c cenv) caps = map Some vs -> Forall2 vrel vs ms ->
    Forall2 vrel vargs args -> length args = length ps ->
    let Sc := ps ++ match rec with Some n => [n] | None => [] end ++ caps in
    let stk := rev ms ++ MInt (N.of_nat ret) :: MClo addr ms :: rev args ++ below in
    let en := call_env cenv rec ps body vargs in
    erel Sc en (fun_locals ps rec caps) (fun_sz ps caps) stk /\
    tinfo (fun_ctx tl ps rec caps) Sc en (fun_locals ps rec caps) (fun_sz ps caps) stk ret below.
  Proof.
    intros Hfn Hcap Hvs Hargs Hlen Sc stk en.
    assert (Hclo : vrel (VFn cenv rec ps body) (MClo addr ms)) by (eapply VRFn; eauto).
    assert (Hfn0 := Hfn). destruct Hfn as (next & st1 & bcode & f & Hat & Hcomp & Hpl & Hnd & Hwf & Hsh).
    fold Sc in Hnd, Hwf.
    pose proof (map_Some_length _ _ _ Hcap) as Hlc. pose proof (Forall2_len Hvs) as Hlm.
    pose proof (Forall2_len Hargs) as Hla.
    assert (Hen : en = match rec with None => [] | Some n => [(n, VFn cenv (Some n) ps body)] end ++
                       rev (combine ps vargs) ++ cenv).
    { unfold en, call_env. rewrite add_all_eq by lia. destruct rec; auto. }
    unfold Sc in Hnd. rewrite !NoDup_app_iff in Hnd. destruct Hnd as (Hnps & (Hnr & Hnc & Hd2) & Hd1).
    assert (Hpar : forall i x, nth_error ps i = Some x -> lookup x (fun_locals ps rec caps) = Some i).
    { intros i x Hx. assert (Hxi := nth_error_In _ _ Hx). unfold fun_locals.
      rewrite lookup_rev_combine_notin; [|rewrite seq_length; auto|].
      2:{ intros Hc. apply (Hd1 x Hxi). apply in_or_app; auto. }
      assert (Hil : i < length ps) by (eapply nth_lt; eauto).
      assert (Hq : lookup x (rev (combine ps (List.seq 0 (length ps)))) = Some i).
      { rewrite <- (app_nil_r (rev _)). eapply lookup_rev_combine with (i := i); eauto.
        - rewrite seq_length; auto.
        - rewrite <- (Nat.add_0_l i) at 2. apply nth_error_nth' with (d := 0) in Hil as E0.
          rewrite nth_error_nth' with (d := 0) by (rewrite seq_length; auto).
          rewrite seq_nth by auto. auto. }
      destruct rec as [n|]; simpl; auto. destruct (Nat.eqb_spec x n); auto.
      subst. exfalso. apply (Hd1 n Hxi). simpl; auto. }
    split.
    - intros x Hx. unfold Sc in Hx. rewrite !in_app_iff in Hx.
      destruct (in_dec Nat.eq_dec x ps) as [Hxp|Hxp]; [|destruct Hx as [Hx|[Hx|Hx]]; [tauto| |]].
      + apply In_nth_error in Hxp as [i Hi]. assert (Hil : i < length ps) by (eapply nth_lt; eauto).
        destruct (nth_error_some vargs (i:=i)) as [v Hv]; [lia|].
        destruct (nth_error_some args (i:=i)) as [mv Hmv]; [lia|].
        exists v, i, mv. split; [|split; [apply Hpar; auto|split; [unfold fun_sz; lia|split]]].
        * rewrite Hen. rewrite lookup_app_r.
          -- eapply lookup_rev_combine; eauto; lia.
          -- destruct rec as [n|]; simpl; auto. intros [->|[]]. apply (Hd1 x); simpl; auto.
             eapply nth_error_In; eauto.
        * unfold stk, fun_sz. rewrite nth_error_app2 by (rewrite rev_length; lia). rewrite rev_length.
          replace (length ps + 2 + length caps - 1 - i - length ms) with (S (S (length ps - 1 - i))) by lia.
          simpl. rewrite nth_error_app1 by (rewrite rev_length; lia).
          rewrite nth_error_rev by lia. rewrite <- Hmv. f_equal. lia.
        * eapply Forall2_nth; eauto.
      + destruct rec as [n|]; [|destruct Hx]. destruct Hx as [->|[]].
        exists (VFn cenv (Some x) ps body), (length ps), (MClo addr ms).
        split; [|split; [|split; [unfold fun_sz; lia|split; auto]]].
        * rewrite Hen. simpl. rewrite Nat.eqb_refl; auto.
        * unfold fun_locals. rewrite lookup_rev_combine_notin.
          -- simpl. rewrite Nat.eqb_refl; auto.
          -- rewrite seq_length; auto.
          -- apply Hd2; simpl; auto.
        * unfold stk, fun_sz. rewrite nth_error_app2 by (rewrite rev_length; lia). rewrite rev_length.
          replace (length ps + 2 + length caps - 1 - length ps - length ms) with 1 by lia. auto.
      + apply In_nth_error in Hx as [i Hi]. assert (Hil : i < length caps) by (eapply nth_lt; eauto).
        destruct (nth_error_some vs (i:=i)) as [v Hv]; [lia|].
        destruct (nth_error_some ms (i:=i)) as [mv Hmv]; [lia|].
        exists v, (length ps + 2 + i), mv. split; [|split; [|split; [unfold fun_sz; lia|split]]].
        * rewrite Hen. rewrite lookup_app_r.
          -- rewrite lookup_rev_combine_notin; auto; [|lia].
             assert (Hm := map_nth_error (fun c => lookup c cenv) _ _ Hi). rewrite Hcap in Hm.
             rewrite (map_nth_error Some _ _ Hv) in Hm. congruence.
          -- destruct rec as [n|]; simpl; auto. intros [->|[]]. apply (Hd2 x); simpl; auto.
             eapply nth_error_In; eauto.
        * unfold fun_locals. eapply lookup_rev_combine with (i := i); eauto.
          -- rewrite seq_length; auto.
          -- rewrite nth_error_nth' with (d := 0) by (rewrite seq_length; auto). rewrite seq_nth by auto. auto.
        * unfold stk, fun_sz. rewrite nth_error_app1 by (rewrite rev_length; lia).
          rewrite nth_error_rev by lia. rewrite <- Hmv. f_equal. lia.
        * exact (Forall2_nth _ Hvs Hv Hmv).
    - exists [], ms, (MClo addr ms), args. unfold fun_ctx; cbn [f_params f_entry_sz f_rec f_tail].
      repeat split; auto.
      + unfold fun_sz; lia.
      + intros x Hx; apply in_or_app; auto.
      + destruct rec as [n|]; auto. split; [apply in_or_app; right; simpl; auto|].
        exists cenv, body, caps, addr, vs. split; [rewrite Hen; simpl; rewrite Nat.eqb_refl; auto|].
        split; auto.
  Qed.

  Lemma body_sim n ps rec caps body cenv tl addr vs ms vargs args ret below :
    esim n body ->
    fn_ok addr tl rec ps body caps ->
    map (fun c => lookup c cenv) caps = map Some vs -> Forall2 vrel vs ms ->
    Forall2 vrel vargs args -> length args = length ps ->
    sim (eval_o ArgsFirst n (call_env cenv rec ps body vargs) body) n (addr + isize (IEnter (length caps)))
        (rev ms ++ MInt (N.of_nat ret) :: MClo addr ms :: rev args ++ below)
        (fun v pc' st' => pc' = ret /\ exists mv, vrel v mv /\ st' = mv :: below).
  Proof.
    intros IH Hfn Hcap Hvs Hargs Hlen.
    destruct (@fun_frame ps rec caps body cenv tl addr vs ms vargs args ret below) as [He Ht]; auto.
    pose proof (map_Some_length _ _ _ Hcap) as Hlc. pose proof (Forall2_len Hvs) as Hlm.
    destruct Hfn as (next & st1 & bcode & f & Hat & Hcomp & Hpl & Hnd & Hwf & Hsh).
    apply code_at_app in Hat as [Hat1 Hat2]. apply code_at_app in Hat2 as [Hat2 Hat3].
    assert (Hsz : size [IEnter (length caps); ILabel tl] = isize (IEnter (length caps))) by (unfold size; simpl; lia).
    rewrite Hsz in *.
    eapply sim_post.
    - eapply (IH (fun_ctx tl ps rec caps) true (fun_st ps rec caps next)); eauto.
    - cbv beta. intros v pc1 s1 (mv & Hv & [[-> ->]|(_ & -> & ->)]).
      + exists 1, ret, (mv :: below). split; [|eauto]. apply steps1. unfold step.
        rewrite (at_op Hat3 eq_refl). replace (length caps) with (length (rev ms)) by (rewrite rev_length; lia).
        rewrite popn_app. replace (length ps) with (length (rev args)) by (rewrite rev_length; lia).
        rewrite popn_app. rewrite Nat2N.id. auto.
      + exists 0, ret, (mv :: below). split; [constructor|eauto].
  Qed.

  Lemma call_sim n fv vargs mf args pc r stk :
    (forall k e, k < n -> esim k e) ->
    vrel fv mf -> Forall2 vrel vargs args -> code_at pc (ICall :: r) ->
    sim (call_o ArgsFirst n fv vargs) n pc (mf :: rev args ++ stk)
        (fun v pc' st' => pc' = S pc /\ exists mv, vrel v mv /\ st' = mv :: stk).
  Proof.
    intros IH Hf Ha Hat. destruct Hf; simpl; auto.
    destruct (Nat.eqb_spec (length ps) (length vargs)) as [El|]; [|exact I].
    pose proof (Forall2_len Ha) as Hla. pose proof (map_Some_length _ _ _ H0) as Hlc.
    pose proof (Forall2_len H1) as Hlm.
    assert (Hfn := H). destruct H as (next & st1 & bcode & f & Hcode & _).
    assert (Hent : exists k, steps k addr (MInt (N.of_nat (S pc)) :: MClo addr ms :: rev args ++ stk)
                    (addr + isize (IEnter (length caps)))
                    (rev ms ++ MInt (N.of_nat (S pc)) :: MClo addr ms :: rev args ++ stk)).
    { apply code_at_cons in Hcode as [Hc1 _]. destruct (length caps) as [|c'] eqn:Ec.
      - destruct ms; [|simpl in *; lia]. exists 0. simpl. rewrite Nat.add_0_r. constructor.
      - exists 1. apply steps1. unfold step. rewrite (at_op Hc1 eq_refl). f_equal. simpl; lia. }
    destruct Hent as [ke Hent].
    assert (H1s : steps (1 + ke) pc (MClo addr ms :: rev args ++ stk) (addr + isize (IEnter (length caps)))
                    (rev ms ++ MInt (N.of_nat (S pc)) :: MClo addr ms :: rev args ++ stk)).
    { eapply steps_trans; [|exact Hent]. apply steps1. unfold step. rewrite (at_op Hat eq_refl). auto. }
    destruct n as [|n].
    - simpl. eexists _, _, _; split; [|exact H1s]; lia.
    - apply sim_le with (n := (1 + ke) + n); [lia|]. eapply sim_pre; [exact H1s|].
      eapply body_sim; eauto. congruence.
  Qed.

  (** *** Self tail calls *)
  Lemma set_nth_app {A} (a : list A) x b v : set_nth (length a) v (a ++ x :: b) = Some (a ++ v :: b).
  Proof. induction a; simpl; auto. rewrite IHa; auto. Qed.

  Lemma sets_sim ps : forall newp oldp mid below st0 st1 c f pc,
    (forall i p, nth_error ps i = Some p -> lookup p (c_locals st0) = Some i) ->
    length newp = length ps -> length oldp = length ps ->
    c_sz st0 = length newp + length mid + length oldp ->
    seqs (map set_var (rev ps)) st0 = Some (st1, c, f) -> code_at pc c ->
    exists k, steps k pc (rev newp ++ mid ++ rev oldp ++ below) (pc + size c) (mid ++ rev newp ++ below).
  Proof.
    induction ps as [|p ps IH] using rev_ind; intros newp oldp mid below st0 st1 c f pc Hl Hn Ho Hsz Hc Hat.
    - simpl in Hc. unfold skip in Hc; injection Hc as <- <- <-.
      destruct newp; [|discriminate]. destruct oldp; [|discriminate]. exists 0. simpl. unfold size; simpl.
      rewrite Nat.add_0_r. constructor.
    - rewrite rev_unit in Hc. simpl in Hc. inv_seq Hc as sa ca fa cb fb Ha Hb.
      apply set_inv in Ha as (a & Hla & Hle & -> & -> & ->).
      rewrite !app_length in *. simpl in *.
      destruct newp as [|x newp _] using rev_ind; [simpl in *; lia|].
      destruct oldp as [|o oldp _] using rev_ind; [simpl in *; lia|].
      rewrite !app_length in *. simpl in *.
      rewrite (Hl (length ps) p) in Hla by (rewrite nth_error_app2 by lia; rewrite Nat.sub_diag; auto).
      injection Hla as <-.
      apply (code_at_app [_]) in Hat as [Hat1 Hat2].
      assert (Hl' : forall i q, nth_error ps i = Some q -> lookup q (c_locals st0) = Some i).
      { intros i q Hq. apply Hl. rewrite nth_error_app1; [auto|eapply nth_lt; eauto]. }
      edestruct (IH newp oldp (mid ++ [x]) below) as [k Hk]; [| | | |exact Hb|exact Hat2|]; auto; try lia.
      { cbn [c_sz]; rewrite app_length; simpl; lia. }
      exists (S k). rewrite !rev_unit. simpl. econstructor.
      + unfold step. rewrite (at_op Hat1 eq_refl).
        replace (c_sz st0 - length ps - 2) with (length (rev newp ++ mid)) by (rewrite app_length, rev_length; lia).
        rewrite app_assoc. rewrite set_nth_app. reflexivity.
      + unfold size in *; simpl in *. replace (pc + S (list_sum (map isize cb))) with (pc + 1 + list_sum (map isize cb)) by lia.
        rewrite <- !app_assoc in *. simpl in *. rewrite Nat.add_1_r in Hk. rewrite Nat.add_1_r. exact Hk.
  Qed.

  (** The instruction sequence of a self tail call (compile.rs:141-154): it leaves the frame exactly as
      at the first entry, with the parameters replaced. *)
  Lemma tail_call_steps ctx temps ms ret clo oldargs below args st0 st1 c f pc target :
    length oldargs = length (f_params ctx) -> length args = length (f_params ctx) ->
    f_entry_sz ctx = length oldargs + 2 + length ms ->
    (forall i p, nth_error (f_params ctx) i = Some p -> lookup p (c_locals st0) = Some i) ->
    c_sz st0 = length args + length temps + f_entry_sz ctx ->
    lookup (f_tail ctx) la = Some target ->
    tail_call ctx st0 = Some (st1, c, f) -> code_at pc c ->
    exists k, 0 < k /\ steps k pc (rev args ++ temps ++ rev ms ++ ret :: clo :: rev oldargs ++ below)
                       target (rev ms ++ ret :: clo :: rev args ++ below).
  Proof.
    intros Hol Hal Hes Hlk Hsz0 Hlab Htc Hat.
    apply tail_call_inv in Htc as (st & c1 & c2 & Hsets & -> & Hle & -> & -> & -> & Hle2 & ->).
    cbn [c_sz] in *.
    apply code_at_app in Hat as [Hat1 Hat2]. apply code_at_app in Hat2 as [Hat2 Hat3].
    set (mid := temps ++ rev ms ++ [ret; clo]).
    assert (Emid : length mid = length temps + length ms + 2) by (unfold mid; rewrite !app_length, rev_length; simpl; lia).
    edestruct (@sets_sim (f_params ctx) args oldargs mid below st0) as [k1 Hk1]; [exact Hlk|exact Hal|exact Hol| |exact Hsets|exact Hat1|].
    { rewrite Emid. lia. }
    assert (Eto : c_sz st0 - length (f_params ctx) - f_entry_sz ctx = length temps) by lia.
    rewrite Eto in *.
    assert (Hpop : exists k2, steps k2 (pc + size c1) (mid ++ rev args ++ below)
        (pc + size c1 + size (if 0 <? length temps then [IPopN (length temps)] else []))
        (rev ms ++ ret :: clo :: rev args ++ below)).
    { unfold mid. destruct temps as [|t0 temps].
      - exists 0. simpl. unfold size; simpl. rewrite Nat.add_0_r, <- app_assoc. constructor.
      - exists 1. apply steps1. cbn [Nat.ltb Nat.leb length] in *. unfold step. rewrite (at_op Hat2 eq_refl).
        rewrite <- !app_assoc. change (S (length temps)) with (length (t0 :: temps)). rewrite popn_app.
        unfold size; simpl. f_equal; lia. }
    destruct Hpop as [k2 Hk2].
    assert (Hj : steps 1 (pc + size c1 + size (if 0 <? length temps then [IPopN (length temps)] else []))
        (rev ms ++ ret :: clo :: rev args ++ below) target (rev ms ++ ret :: clo :: rev args ++ below)).
    { apply steps1. unfold step. assert (E : link1 la (IJump (f_tail ctx)) = Some [OJump target]).
      { cbn [link1]. rewrite Hlab. auto. }
      rewrite (at_op Hat3 E). auto. }
    pose proof (steps_trans Hk1 (steps_trans Hk2 Hj)) as Hall.
    exists (k1 + (k2 + 1)). split; [lia|].
    replace (rev args ++ temps ++ rev ms ++ ret :: clo :: rev oldargs ++ below)
      with (rev args ++ mid ++ rev oldargs ++ below) by (unfold mid; rewrite <- !app_assoc; auto). auto.
  Qed.

  Lemma tail_call_sim n ctx Sc en l sz stk ret below vargs args st0 st1 c f pc m fv :
    (forall k e, k < n -> esim k e) ->
    tinfo ctx Sc en l sz stk ret below ->
    f_rec ctx = Some m -> lookup m en = Some fv ->
    Forall2 vrel vargs args -> length args = length (f_params ctx) ->
    (forall i p, nth_error (f_params ctx) i = Some p -> lookup p (c_locals st0) = Some i) ->
    c_sz st0 = sz + length args ->
    tail_call ctx st0 = Some (st1, c, f) -> code_at pc c ->
    sim (call_o ArgsFirst n fv vargs) n pc (rev args ++ stk)
        (fun v pc' st' => pc' = ret /\ exists mv, vrel v mv /\ st' = mv :: below).
  Proof.
    intros IH (temps & ms & fnv & oldargs & -> & Hol & Hes & Hsz & _ & _ & Hrec) Hm Hfv Hargs Hal Hlk Hsz0 Htc Hat.
    rewrite Hm in Hrec. destruct Hrec as (_ & cenv & body & caps & addr & vs & Hl & -> & Hfn & Hcap & Hvs).
    rewrite Hl in Hfv. injection Hfv as <-.
    simpl call_o. pose proof (Forall2_len Hargs) as Hla. rewrite Hla, Hal, Nat.eqb_refl.
    assert (Hfn' := Hfn). destruct Hfn' as (next & sb & bcode & bf & Hcode & _).
    simpl app in Hcode. apply code_at_cons in Hcode as [_ Hcode]. apply code_at_cons in Hcode as [Hlab _].
    apply code_at_label in Hlab.
    edestruct (@tail_call_steps ctx temps ms (MInt (N.of_nat ret)) (MClo addr ms) oldargs below args)
      as (k & Hk & Hall); [exact Hol|exact Hal|exact Hes|exact Hlk|lia|exact Hlab|exact Htc|exact Hat|].
    destruct n as [|n].
    - simpl. eexists _, _, _; split; [|exact Hall]; lia.
    - apply sim_le with (n := k + n); [lia|]. eapply sim_pre; [exact Hall|].
      change ((m, VFn cenv (Some m) (f_params ctx) body) :: add_all cenv (f_params ctx) vargs)
        with (call_env cenv (Some m) (f_params ctx) body vargs).
      eapply body_sim; eauto.
  Qed.

  (** *** Matches *)
  Lemma erel_bind bs vs ms Sc en l l' sz stk :
    erel Sc en l sz stk -> Forall2 vrel vs ms -> length bs = length vs -> NoDup bs ->
    (forall x, In x bs -> ~ In x Sc) -> (forall x, In x Sc -> lookup x l' = lookup x l) ->
    erel (bs ++ Sc) (rev (combine bs vs) ++ en) (rev (combine bs (List.seq sz (length bs))) ++ l')
         (sz + length bs) (rev ms ++ stk).
  Proof.
    intros He Hv Hl Hn Hd Hll x Hx. pose proof (Forall2_len Hv) as Hlm.
    destruct (in_dec Nat.eq_dec x bs) as [Hxb|Hxb].
    - apply In_nth_error in Hxb as [i Hi]. assert (Hil : i < length bs) by (eapply nth_lt; eauto).
      destruct (nth_error_some vs (i:=i)) as [v Hv1]; [lia|].
      destruct (nth_error_some ms (i:=i)) as [mv Hm]; [lia|].
      exists v, (sz + i), mv. split; [eapply lookup_rev_combine; eauto|].
      split; [eapply lookup_rev_combine with (i := i); eauto|].
      { rewrite seq_length; auto. }
      { rewrite nth_error_nth' with (d := 0) by (rewrite seq_length; auto). rewrite seq_nth by auto. auto. }
      split; [lia|]. split; [|exact (Forall2_nth _ Hv Hv1 Hm)].
      rewrite nth_error_app1 by (rewrite rev_length; lia). rewrite nth_error_rev by lia.
      rewrite <- Hm. f_equal; lia.
    - apply in_app_or in Hx as [?|Hx]; [tauto|].
      destruct (He x Hx) as (v & a & mv & H1 & H2 & H3 & H4 & H5). exists v, a, mv.
      rewrite lookup_rev_combine_notin by (auto; lia).
      rewrite lookup_rev_combine_notin by (auto; rewrite seq_length; auto).
      rewrite Hll by auto. repeat split; auto; try lia.
      rewrite nth_error_app2 by (rewrite rev_length; lia). rewrite rev_length, <- H4. f_equal; lia.
  Qed.

  Lemma tinfo_bind ctx bs vs ms Sc en l l' sz stk ret below :
    tinfo ctx Sc en l sz stk ret below -> length bs = length vs -> length vs = length ms ->
    (forall x, In x bs -> ~ In x Sc) -> (forall x, In x Sc -> lookup x l' = lookup x l) ->
    tinfo ctx (bs ++ Sc) (rev (combine bs vs) ++ en) (rev (combine bs (List.seq sz (length bs))) ++ l')
         (sz + length bs) (rev ms ++ stk) ret below.
  Proof.
    intros Ht Hl Hm Hd Hll. eapply tinfo_ext; [exact Ht| | | |].
    - intros x Hx. apply lookup_rev_combine_notin; auto. intros H; apply (Hd x); auto.
    - intros x Hx. rewrite lookup_rev_combine_notin; [apply Hll; auto|rewrite seq_length; auto|].
      intros H; apply (Hd x); auto.
    - rewrite rev_length; lia.
    - intros x Hx; apply in_or_app; auto.
  Qed.

  Lemma swaps_sim tmp : forall pc mv stk, code_at pc (repeat ISwapPop (length tmp)) ->
    steps (length tmp) pc (mv :: tmp ++ stk) (pc + size (repeat ISwapPop (length tmp))) (mv :: stk).
  Proof.
    induction tmp as [|t tmp IH]; intros pc mv stk Hat; simpl.
    - unfold size; simpl. rewrite Nat.add_0_r. constructor.
    - simpl in Hat. pose proof (at_op Hat eq_refl) as Hop. apply code_at_cons in Hat as [_ Hat]. simpl in Hat.
      econstructor; [unfold step; rewrite Hop; reflexivity|].
      replace (pc + size (ISwapPop :: repeat ISwapPop (length tmp)))
        with (S pc + size (repeat ISwapPop (length tmp))) by (unfold size; simpl; lia).
      apply IH. rewrite Nat.add_1_r in Hat; auto.
  Qed.

  Lemma find_branch_In c brs bs b : find_branch c brs = Some (bs, b) -> In ((c, bs), b) brs.
  Proof.
    induction brs as [|[[c' bs'] b'] brs IH]; simpl; [discriminate|].
    destruct (Nat.eqb_spec c' c); [intros H; injection H as -> ->; subst; auto|auto].
  Qed.

  Lemma brs_find ctx tail end_l cn bs b brs : forall lb st0 st1 c f pc,
    forallb (fun br => shape (ctx_rec ctx) tail (snd br)) brs = true ->
    compile_brs (fun v => compile_expr v ctx tail) end_l brs (List.seq lb (length brs)) st0 = Some (st1, c, f) ->
    code_at pc c -> placed f -> find_branch cn brs = Some (bs, b) ->
    exists tbl pcb sb0 sb1 cb fb lo,
      map_opt (fun '((c, l), _) => match lookup l la with Some a => Some (c, a) | None => None end)
              (branch_table brs (List.seq lb (length brs))) = Some tbl /\
      find_target cn tbl = Some pcb /\
      compile_expr b ctx tail sb0 = Some (sb1, cb, fb) /\
      c_sz sb0 = c_sz st0 + length bs /\
      c_locals sb0 = rev (combine bs (List.seq (c_sz st0) (length bs))) ++ lo /\
      (forall x, ~ In x (flat_map (fun br => snd (fst br) ++ binders (snd br)) brs) ->
                 lookup x lo = lookup x (c_locals st0)) /\
      code_at pcb (cb ++ repeat ISwapPop (length bs) ++ [IJump end_l]) /\ placed fb.
  Proof.
    induction brs as [|[[c' bs'] b'] brs IH]; intros lb st0 st1 c f pc Hsh Hc Hat Hpl Hf; [discriminate|].
    simpl in Hsh. apply andb_prop in Hsh as [Hs1 Hs2].
    simpl in Hc.
    inv_seq Hc as s1 c1 f1 cr1 fr1 E E1. apply emit_inv in E as (_ & -> & -> & ->).
    inv_seq E1 as s2 c2 f2 cr2 fr2 E E2. apply define_slots_code in E as (-> & -> & Hz2 & Hn2 & Hl2). cs.
    inv_seq E2 as s3 c3 f3 cr3 fr3 E E3.
    cstat E Hs1 L3 Hz3.
    inv_seq E3 as s4 c4 f4 cr4 fr4 E4 E5. apply swappops_inv in E4 as (-> & -> & Hle & ->). cs.
    inv_seq E5 as s5 c5 f5 cr5 fr5 E6 E7. apply emit_inv in E6 as (_ & -> & -> & ->). cs.
    inv_seq E7 as s6 c6 f6 cr6 fr6 E8 E9. apply chg_inv in E8 as (? & -> & -> & ->). cs.
    cbn [app] in Hpl. apply placed_app in Hpl as [Hp1 Hp2].
    apply (code_at_app [ILabel lb]) in Hat as [Hlab Hat]. unfold size in Hat; simpl in Hat.
    rewrite Nat.add_0_r in Hat.
    assert (Hat' := Hat).
    replace (c3 ++ repeat ISwapPop (length bs') ++ IJump end_l :: cr6)
      with ((c3 ++ repeat ISwapPop (length bs') ++ [IJump end_l]) ++ cr6) in Hat'
      by (rewrite <- !app_assoc; auto).
    apply code_at_app in Hat' as [Hatb Hatr].
    assert (Htl : map_opt (fun '((c, l), _) => match lookup l la with Some a => Some (c, a) | None => None end)
              (branch_table brs (List.seq (S lb) (length brs))) <> None).
    { clear - Hs2 E9 Hatr Huniq Hlink. revert Hatr E9. generalize (S lb).
      match goal with |- context[compile_brs _ _ _ _ ?s] => generalize s end.
      match goal with |- context[code_at ?p _] => generalize p end.
      revert cr6 fr6. induction brs as [|[[cc bb] ee] brs IH]; intros cr6 fr6 p st l Hat Hc; simpl; [discriminate|].
      simpl in Hc. simpl in Hs2. apply andb_prop in Hs2 as [Hs1 Hs2].
      inv_seq Hc as t1 d1 g1 dr1 gr1 F F1. apply emit_inv in F as (_ & -> & -> & ->).
      inv_seq F1 as t2 d2 g2 dr2 gr2 F F2.
      inv_seq F2 as t3 d3 g3 dr3 gr3 F3 F4.
      inv_seq F4 as t4 d4 g4 dr4 gr4 F5 F6.
      inv_seq F6 as t5 d5 g5 dr5 gr5 F7 F8.
      inv_seq F8 as t6 d6 g6 dr7 gr7 F9 F10.
      apply (code_at_app [ILabel l]) in Hat as [Hlab Hat].
      rewrite !app_assoc in Hat. apply code_at_app in Hat as [_ Hat].
      apply code_at_label in Hlab. rewrite Hlab.
      specialize (IH Hs2 _ _ _ _ _ Hat F10). unfold branch_table in IH.
      destruct (map_opt _ _); [discriminate|tauto]. }
    simpl in Hf. cbn [branch_table combine map List.seq length map_opt].
    fold (branch_table brs (List.seq (S lb) (length brs))).
    apply code_at_label in Hlab. rewrite Hlab.
    destruct (Nat.eqb_spec c' cn) as [->|Hne].
    - injection Hf as -> ->.
      destruct (map_opt _ _) as [tbl|]; [|tauto].
      exists ((cn, pc) :: tbl), pc, s2, s3, c3, f3, (c_locals st0). 
      assert (Hz0 : c_sz st0 + 0 - 0 = c_sz st0) by lia. rewrite Hz0 in *.
      split; auto. split; [simpl; rewrite Nat.eqb_refl; auto|].
      split; auto 10.
    - edestruct IH as (tbl & pcb & sb0 & sb1 & cb & fb & lo & H1 & H2 & H3 & H4 & H5 & H6 & H7 & H8);
        [exact Hs2|exact E9|exact Hatr|exact Hp2|exact Hf|]. cs.
      rewrite H1. exists ((c', pc) :: tbl), pcb, sb0, sb1, cb, fb, lo.
      assert (Hz : c_sz s3 - length bs' + 0 - 0 + 0 - 1 = c_sz st0) by lia. rewrite Hz in H4, H5.
      split; auto. split; [simpl; destruct (Nat.eqb_spec c' cn); [tauto|auto]|].
      split; auto. split; [lia|]. split; auto.
      split; auto. simpl. intros x Hx. rewrite !in_app_iff in Hx. rewrite H6 by tauto.
      rewrite L3 by tauto. rewrite Hl2. rewrite lookup_rev_combine_notin; auto.
      rewrite seq_length; auto.
  Qed.

  Lemma wfx_match Sc d brs : wfx Sc (EMatch d brs) ->
    wfx Sc d /\ (forall br, In br brs -> wfx (snd (fst br) ++ Sc) (snd br) /\ NoDup (snd (fst br)) /\
                    (forall x, In x (snd (fst br)) -> ~ In x Sc)) /\
    (forall x, In x (flat_map (fun br => snd (fst br) ++ binders (snd br)) brs) -> ~ In x Sc).
  Proof.
    intros (Hs & Hn & Hd). simpl in *. apply andb_prop in Hs as [Hs1 Hs2].
    rewrite NoDup_app_iff in Hn. destruct Hn as (Hn1 & Hn2 & _). split; [|split].
    - repeat split; auto. intros x Hx; apply Hd, in_or_app; auto.
    - intros br Hbr. pose proof (NoDup_flat_map_In _ _ _ Hn2 Hbr) as Hnb. rewrite NoDup_app_iff in Hnb.
      destruct Hnb as (Hb1 & Hb2 & Hb3).
      assert (Hin : forall x, In x (snd (fst br) ++ binders (snd br)) -> ~ In x Sc).
      { intros x Hx. apply Hd, in_or_app; right. apply in_flat_map; eauto. }
      rewrite forallb_In in Hs2. repeat split; auto.
      + intros x Hx Hx'. apply in_app_or in Hx' as [Hx'|Hx'].
        * apply (Hb3 x); auto.
        * apply (Hin x); auto. apply in_or_app; auto.
      + intros x Hx; apply Hin, in_or_app; auto.
    - intros x Hx; apply Hd, in_or_app; auto.
  Qed.

  (** *** Intrinsics *)
  Definition intr_apply (i : intrinsic) (vs : list value) : res value :=
    match i, vs with
    | StringLen, [VStr s] => Ok (VInt (str_len s))
    | StringConcat, [VStr a; VStr b] => Ok (VStr (a ++ b))
    | StringCharAt, [VInt i; VStr s] => Ok (VInt (str_char_at i s))
    | StringSubstring, [VInt st; VInt l; VStr s] => Ok (VStr (str_substring st l s))
    | StringFromChar, [VInt c] => Ok (VStr (str_from_char c))
    | IntToString, [VInt i] => Ok (VStr (int_to_string i))
    | _, _ => Panic
    end.

  Lemma intr_eval o n en i xs : length xs = intr_arity i ->
    eval_o o n en (EIntr i xs) = Panic \/
    eval_o o n en (EIntr i xs) = (vs <- mapM (eval_o o n en) xs ;; intr_apply i vs).
  Proof.
    intros Hl. rewrite eval_unfold.
    destruct i; simpl in Hl;
      (destruct xs as [|x0 xs]; [discriminate|]); simpl;
      (destruct (eval_o o n en x0) as [v0| | |]; simpl; auto);
      (destruct v0; simpl; auto);
      (destruct xs as [|x1 xs]; try discriminate; simpl; auto);
      try (destruct (eval_o o n en x1) as [v1| | |]; simpl; auto);
      try (destruct v1; simpl; auto);
      try (destruct xs as [|x2 xs]; try discriminate; simpl; auto);
      try (destruct (eval_o o n en x2) as [v2| | |]; simpl; auto);
      try (destruct v2; simpl; auto);
      try (destruct xs as [|x3 xs]; try discriminate; simpl; auto).
  Qed.

  Lemma str_len_nth s i : str_char_at i s = if (i <? str_len s)%N then nth (N.to_nat i) s 0%N else 0%N.
  Proof.
    unfold str_char_at, str_len. destruct (N.ltb_spec i (N.of_nat (length s))).
    - rewrite (nth_error_nth' s 0%N) by lia; auto.
    - assert (E : nth_error s (N.to_nat i) = None) by (apply nth_error_None; lia). rewrite E; auto.
  Qed.

  Lemma intr_step i vs ms v stk : intr_apply i vs = Ok v -> Forall2 vrel vs ms ->
    exists mv, vm_str i (rev ms ++ stk) = Some (mv :: stk) /\ vrel v mv.
  Proof.
    intros H HF. unfold intr_apply in H.
    destruct i; repeat (match type of H with
      | match ?x with _ => _ end = _ => is_var x; destruct x; try discriminate
      end); injection H as <-;
      repeat (match goal with HF : Forall2 _ _ _ |- _ => inversion HF; clear HF; subst end);
      repeat (match goal with HF : vrel (_ _) _ |- _ => inversion HF; clear HF; subst end);
      simpl; eexists; (split; [reflexivity|]); try constructor.
    rewrite str_len_nth. constructor.
  Qed.

  (** *** The simulation *)
  Lemma size_cons i r : size (i :: r) = isize i + size r.
  Proof. reflexivity. Qed.
  Lemma size_nil : size [] = 0.
  Proof. reflexivity. Qed.

  Lemma epost_next tail pc stk ret below v mv : vrel v mv -> epost tail pc stk ret below v pc (mv :: stk).
  Proof. intros H; exists mv; auto. Qed.

  Ltac szs := repeat (first [rewrite size_app | rewrite size_cons | rewrite size_nil]); cbn [isize]; try lia.
  Ltac wf_parts Hw :=
    destruct Hw as (Hws & Hwn & Hwd); cbn [scoped binders] in Hws, Hwn, Hwd.

  Lemma wfx_call Sc f args : wfx Sc (ECall f args) -> wfx Sc f /\ Forall (wfx Sc) args /\
    (forall x, In x (flat_map binders args) -> ~ In x Sc).
  Proof.
    intros (Hs & Hn & Hd). cbn in Hs, Hn, Hd. apply andb_prop in Hs as [H1 H2].
    rewrite NoDup_app_iff in Hn. destruct Hn as (N1 & N2 & _).
    assert (Hd1 : forall x, In x (binders f) -> ~ In x Sc) by (intros x Hx; apply Hd, in_or_app; auto).
    assert (Hd2 : forall x, In x (flat_map binders args) -> ~ In x Sc) by (intros x Hx; apply Hd, in_or_app; auto).
    split; [split; auto|]. split; auto. apply wfx_args; auto.
  Qed.
  Lemma wfx_op Sc a o b : wfx Sc (EOp a o b) -> wfx Sc a /\ wfx Sc b.
  Proof.
    intros (Hs & Hn & Hd). cbn in Hs, Hn, Hd. apply andb_prop in Hs as [H1 H2].
    rewrite NoDup_app_iff in Hn. destruct Hn as (N1 & N2 & _).
    split; (split; [|split]); auto; intros x Hx; apply Hd, in_or_app; auto.
  Qed.
  Lemma wfx_if Sc c t e : wfx Sc (EIf c t e) -> wfx Sc c /\ wfx Sc t /\ wfx Sc e.
  Proof.
    intros (Hs & Hn & Hd). cbn in Hs, Hn, Hd. apply andb_prop in Hs as [Hs H3]. apply andb_prop in Hs as [H1 H2].
    rewrite !NoDup_app_iff in Hn. destruct Hn as (N1 & (N2 & N3 & _) & _).
    split; [|split]; (split; [|split]); auto; intros x Hx; apply Hd; rewrite !in_app_iff; auto.
  Qed.
  Lemma wfx_let Sc n v e : wfx Sc (ELet n v e) -> wfx Sc v /\ wfx (n :: Sc) e /\ ~ In n Sc.
  Proof.
    intros (Hs & Hn & Hd). cbn in Hs, Hn, Hd. apply andb_prop in Hs as [H1 H2].
    inversion Hn as [|? ? N0 N']; subst. rewrite in_app_iff in N0.
    rewrite NoDup_app_iff in N'. destruct N' as (N1 & N2 & _).
    split; [|split].
    - split; [|split]; auto; intros x Hx; apply Hd; right; apply in_or_app; auto.
    - split; [|split]; auto. intros x Hx [<-|Hx']; [tauto|]. apply (Hd x); auto. right; apply in_or_app; auto.
    - apply Hd; auto.
  Qed.

  (** Locals and stack seen by a later part, after [pushed] values were pushed. *)
  Lemma erel_after Sc en st0 st1 X pushed stk :
    erel Sc en (c_locals st0) (c_sz st0) stk ->
    (forall x, ~ In x X -> lookup x (c_locals st1) = lookup x (c_locals st0)) ->
    (forall x, In x X -> ~ In x Sc) -> c_sz st1 = c_sz st0 + length pushed ->
    erel Sc en (c_locals st1) (c_sz st1) (pushed ++ stk).
  Proof.
    intros He Hl Hd Hz. eapply erel_ext; eauto. intros x Hx; apply Hl. intros Hx'; apply (Hd x); auto.
  Qed.
  Lemma tinfo_after ctx Sc en st0 st1 X pushed stk ret below :
    tinfo ctx Sc en (c_locals st0) (c_sz st0) stk ret below ->
    (forall x, ~ In x X -> lookup x (c_locals st1) = lookup x (c_locals st0)) ->
    (forall x, In x X -> ~ In x Sc) -> c_sz st1 = c_sz st0 + length pushed ->
    tinfo ctx Sc en (c_locals st1) (c_sz st1) (pushed ++ stk) ret below.
  Proof.
    intros He Hl Hd Hz. eapply tinfo_ext; eauto using incl_refl. intros x Hx; apply Hl. intros Hx'; apply (Hd x); auto.
  Qed.
  Arguments erel_after {Sc en st0 st1} X pushed {stk}.
  Arguments tinfo_after {ctx Sc en st0 st1} X pushed {stk ret below}.
  Lemma erel_st Sc en st st' stk :
    erel Sc en (c_locals st) (c_sz st) stk -> c_locals st' = c_locals st -> c_sz st' = c_sz st ->
    erel Sc en (c_locals st') (c_sz st') stk.
  Proof. intros H -> ->; auto. Qed.

  Lemma args_after ctx args st0 st1 c f :
    forallb (shape (ctx_rec ctx) false) args = true ->
    seqs (map (fun a => compile_expr a ctx false) args) st0 = Some (st1, c, f) ->
    (forall x, ~ In x (flat_map binders args) -> lookup x (c_locals st1) = lookup x (c_locals st0)) /\
    c_sz st1 = c_sz st0 + length args.
  Proof.
    intros Hs H.
    destruct (@args_static ctx args (flat_map binders args) true) with (st0 := st0) (st1 := st1) (c := c) (f := f)
      as [[L _ _ _] Z]; auto using incl_refl.
    apply Forall_forall. intros; apply compile_static.
  Qed.

  Theorem esim_all n : (forall k e, k < n -> esim k e) -> forall e, esim n e.
  Proof.
    intros IHn e. induction e using expr_ind_rec;
      intros ctx tail st0 st1 cc ff pc en stk Sc ret below Hcm Hat Hpl Hwf Hsh He Ht.
    - (* Bool *)
      apply emit_inv in Hcm as (_ & -> & -> & ->). rewrite eval_unfold. simpl eval_eqn.
      eapply sim_ok; [apply steps1; unfold step; rewrite (at_op Hat eq_refl); reflexivity|].
      replace (pc + size _) with (S pc) by szs. apply epost_next; constructor.
    - apply emit_inv in Hcm as (_ & -> & -> & ->). rewrite eval_unfold. simpl eval_eqn.
      eapply sim_ok; [apply steps1; unfold step; rewrite (at_op Hat eq_refl); reflexivity|].
      replace (pc + size _) with (S pc) by szs. apply epost_next; constructor.
    - apply emit_inv in Hcm as (_ & -> & -> & ->). rewrite eval_unfold. simpl eval_eqn.
      eapply sim_ok; [apply steps1; unfold step; rewrite (at_op Hat eq_refl); reflexivity|].
      replace (pc + size _) with (S pc) by szs. apply epost_next; constructor.
    - (* Name *)
      apply pick_inv in Hcm as (a & Hl & Hlt & -> & -> & ->). rewrite eval_unfold. simpl eval_eqn.
      destruct Hwf as (Hs & _). simpl in Hs. apply mem_In in Hs.
      destruct (He n0 Hs) as (v & a' & mv & H1 & H2 & H3 & H4 & H5).
      assert (a' = a) by congruence; subst a'. rewrite H1.
      eapply sim_ok; [apply steps1; unfold step; rewrite (at_op Hat eq_refl)|].
      + replace (c_sz st0 - a - 1) with (c_sz st0 - 1 - a) by lia. rewrite H4. reflexivity.
      + replace (pc + size _) with (S pc) by szs. apply epost_next; auto.
    - (* Call *)
      cbn [compile_expr] in Hcm. simpl in Hsh. apply andb_prop in Hsh as [Hsh Hk]. apply andb_prop in Hsh as [Hf Ha].
      inv_seq Hcm as s1 c1 f1 cr1 fr1 E E1. apply wfx_call in Hwf as (Wf & Wa & Wd).
      apply code_at_app in Hat as [Hat1 Hat2]. apply placed_app in Hpl as [Hp1 Hp2].
      destruct (args_after _ _ _ Ha E) as [L1 Z1].
      rewrite eval_unfold. cbn [eval_eqn].
      eapply sim_bind; [eapply args_sim; eauto|]. cbv beta. intros vs pc1 q1 (-> & ms & Hvs & Hlms & ->).
      assert (Z1' : c_sz s1 = c_sz st0 + length (rev ms)) by (rewrite rev_length; lia).
      assert (He1 := erel_after _ _ He L1 Wd Z1').
      destruct (is_self_tail ctx tail e) eqn:Et.
      + apply is_self_tail_inv in Et as (m & -> & -> & Hr). specialize (Ht eq_refl).
        unfold ctx_rec in Hk; rewrite Hr in Hk. cbn in Hk. rewrite Nat.eqb_refl in Hk. apply Nat.eqb_eq in Hk.
        rewrite eval_unfold. simpl eval_eqn. destruct (lookup m en) as [fv|] eqn:Em; [|exact I].
        cbn [bind]. eapply sim_post.
        * eapply tail_call_sim; eauto; try lia.
          { intros i p Hp. destruct Ht as (? & ? & ? & ? & _ & _ & _ & _ & Hlk & Hin & _).
            rewrite L1; [apply Hlk; auto|]. intros Hx. apply (Wd p Hx). apply Hin. eapply nth_error_In; eauto. }
        * cbv beta. intros v pc2 q2 (-> & mv & Hv & ->). exists 0, ret, (mv :: below).
          split; [constructor|]. exists mv; auto.
      + inv_seq E1 as s2 c2 f2 cr2 fr2 E2 E3. apply emit_inv in E3 as (_ & -> & -> & ->).
        apply code_at_app in Hat2 as [Hat2 Hat3]. apply placed_app in Hp2 as [Hp2 _].
        eapply sim_bind; [eapply esim_nt; eauto|]. cbv beta. intros fv pc2 q2 (-> & mf & Hfv & ->).
        eapply sim_post; [eapply call_sim; eauto|]. cbv beta. intros v pc3 q3 (-> & mv & Hv & ->).
        eexists 0, _, _. split; [constructor|].
        replace (pc + size (c1 ++ c2 ++ [ICall])) with (S (pc + size c1 + size c2)) by szs. apply epost_next; auto.
    - (* If *)
      cbn [compile_expr] in Hcm. simpl in Hsh. apply andb_prop in Hsh as [Hsh Hs3]. apply andb_prop in Hsh as [Hs1 Hs2].
      apply wfx_if in Hwf as (W1 & W2 & W3).
      inv_seq Hcm as s1 c1 f1 cr1 fr1 E E1. cstat E Hs1 L1 Z1. unfold fresh in E1. cs.
      inv_seq E1 as s2 c2 f2 cr2 fr2 F E2. apply emit_inv in F as (_ & -> & -> & ->). cs.
      inv_seq E2 as s3 c3 f3 cr3 fr3 G E3. cstat G Hs2 L2 Z2. cs.
      inv_seq E3 as s4 c4 f4 cr4 fr4 F E4. apply emit_inv in F as (_ & -> & -> & ->). cs.
      inv_seq E4 as s5 c5 f5 cr5 fr5 F E5. apply emit_inv in F as (_ & -> & -> & ->). cs.
      inv_seq E5 as s6 c6 f6 cr6 fr6 F E6. apply chg_inv in F as (_ & -> & -> & ->). cs.
      inv_seq E6 as s7 c7 f7 cr7 fr7 H E7. cstat H Hs3 L3 Z3. cs.
      apply emit_inv in E7 as (_ & -> & -> & ->). cs.
      cbn [app] in Hpl, Hat |- *.
      apply placed_app in Hpl as [Hp1 Hpl]. apply placed_app in Hpl as [Hp2 Hpl]. rewrite app_nil_r in Hpl.
      apply code_at_app in Hat as [Hat1 Hat]. assert (Hatj := Hat). apply code_at_cons in Hat as [_ Hat].
      apply code_at_app in Hat as [Hat2 Hat]. assert (Hatk := Hat). apply code_at_cons in Hat as [_ Hat].
      apply code_at_cons in Hat as [Hlab Hat]. apply code_at_app in Hat as [Hat3 Hend].
      apply code_at_label in Hlab. apply code_at_label in Hend. cbn [isize] in *.
      rewrite eval_unfold. cbn [eval_eqn].
      eapply sim_bind; [eapply esim_nt; eauto|]. cbv beta. intros v pc1 q1 (-> & mv & Hv & ->).
      destruct v; cbn [into_bool bind]; try exact I. inversion Hv; subst.
      assert (D1 : forall x, In x (binders e1) -> ~ In x Sc) by apply W1.
      assert (D2 : forall x, In x (binders e2) -> ~ In x Sc) by apply W2.
      assert (El : link1 la (IJumpIfFalse (c_next s1)) = Some [OJumpIfFalse (pc + size c1 + 1 + size c3 + 1)]).
      { cbn [link1]. rewrite Hlab. auto. }
      assert (Ej : link1 la (IJump (S (c_next s1))) = Some [OJump (pc + size c1 + 1 + size c3 + 1 + 0 + size c7)]).
      { cbn [link1]. rewrite Hend. auto. }
      destruct b.
      + eapply sim_steps; [apply steps1; unfold step; rewrite (at_op Hatj El); reflexivity|].
        replace (S (pc + size c1)) with (pc + size c1 + 1) by lia.
        eapply sim_post.
        * eapply IHe2; [exact G|exact Hat2|exact Hp2|exact W2|exact Hs2| |].
          -- cs. apply (erel_after (st1 := mkCst (c_sz s1 + 0 - 1) (c_locals s1) (S (S (c_next s1)))) _ [] He L1 D1). simpl; lia.
          -- intros Htl. apply (tinfo_after (st1 := mkCst (c_sz s1 + 0 - 1) (c_locals s1) (S (S (c_next s1)))) _ [] (Ht Htl) L1 D1). simpl; lia.
        * intros v pc2 q2 (mv2 & Hv2 & [[-> ->]|(Htl & -> & ->)]).
          -- eexists 1, _, _. split; [apply steps1; unfold step; rewrite (at_op Hatk Ej); reflexivity|].
             exists mv2; split; auto. left; split; auto. szs.
          -- exists 0, ret, (mv2 :: below). split; [constructor|]. exists mv2; auto.
      + eapply sim_steps; [apply steps1; unfold step; rewrite (at_op Hatj El); reflexivity|].
        rewrite Nat.add_0_r in Hat3.
        eapply sim_post.
        * eapply IHe3; [exact H|exact Hat3|exact Hpl|exact W3|exact Hs3| |].
          -- cs. apply (erel_after (st0 := st0) (st1 := mkCst (c_sz s3 + 0 - 0 + 0 - 0 + 0 - 1) (c_locals s3) (c_next s3)) (binders e1 ++ binders e2) [] He).
             ++ intros x Hx. rewrite in_app_iff in Hx. cs. rewrite L2, L1 by tauto. auto.
             ++ intros x Hx; apply in_app_or in Hx as [Hx|Hx]; auto.
             ++ cs. simpl. lia.
          -- intros Htl. cs. apply (tinfo_after (st0 := st0) (st1 := mkCst (c_sz s3 + 0 - 0 + 0 - 0 + 0 - 1) (c_locals s3) (c_next s3)) (binders e1 ++ binders e2) [] (Ht Htl)).
             ++ intros x Hx. rewrite in_app_iff in Hx. cs. rewrite L2, L1 by tauto. auto.
             ++ intros x Hx; apply in_app_or in Hx as [Hx|Hx]; auto.
             ++ cs. simpl. lia.
        * intros v pc2 q2 (mv2 & Hv2 & [[-> ->]|(Htl & -> & ->)]).
          -- eexists 0, _, _. split; [constructor|].
             exists mv2; split; auto. left; split; auto. szs.
          -- exists 0, ret, (mv2 :: below). split; [constructor|]. exists mv2; auto.
    - (* Op *)
      cbn [compile_expr] in Hcm. simpl in Hsh. apply andb_prop in Hsh as [Hs1 Hs2].
      apply wfx_op in Hwf as (W1 & W2).
      inv_seq Hcm as s1 c1 f1 cr1 fr1 E E1. cstat E Hs1 L1 Z1.
      inv_seq E1 as s2 c2 f2 cr2 fr2 G E2. apply emit_inv in E2 as (_ & -> & -> & ->).
      apply placed_app in Hpl as [Hp1 Hpl]. apply placed_app in Hpl as [Hp2 _].
      apply code_at_app in Hat as [Hat1 Hat]. apply code_at_app in Hat as [Hat2 Hat].
      rewrite eval_unfold. cbn [eval_eqn].
      eapply sim_bind; [eapply esim_nt; eauto|]. cbv beta. intros v pc1 q1 (-> & mv & Hv & ->).
      destruct v; cbn [into_int bind]; try exact I. inversion Hv; subst.
      assert (Z1' : c_sz s1 = c_sz st0 + length [MInt i]) by (simpl; lia).
      assert (He1 := erel_after _ [MInt i] He L1 (proj2 (proj2 W1)) Z1'). cbn [app] in He1.
      eapply sim_bind; [eapply esim_nt; eauto|]. cbv beta. intros v2 pc2 q2 (-> & mv2 & Hv2 & ->).
      destruct v2; cbn [into_int bind]; try exact I. inversion Hv2; subst.
      eapply sim_ok; [apply steps1; unfold step; rewrite (at_op Hat eq_refl); reflexivity|].
      replace (pc + size (c1 ++ c2 ++ [IBin o])) with (S (pc + size c1 + size c2)) by szs.
      apply epost_next. destruct o; constructor.
    - (* Intr *)
      cbn [compile_expr] in Hcm. simpl in Hsh. apply andb_prop in Hsh as [Hk Ha]. apply Nat.eqb_eq in Hk.
      inv_seq Hcm as s1 c1 f1 cr1 fr1 E E1. apply emit_inv in E1 as (_ & -> & -> & ->).
      assert (Wa : Forall (wfx Sc) args) by (destruct Hwf as (? & ? & ?); apply wfx_args; auto).
      apply code_at_app in Hat as [Hat1 Hat2]. apply placed_app in Hpl as [Hp1 _].
      destruct (@intr_eval ArgsFirst n en i args Hk) as [->| ->]; [exact I|].
      eapply sim_bind; [eapply args_sim; eauto|]. cbv beta. intros vs pc1 q1 (-> & ms & Hvs & Hlms & ->).
      destruct (intr_apply i vs) as [v| | |] eqn:Ev; try exact I;
        try (exfalso; unfold intr_apply in Ev; destruct i;
             repeat (match type of Ev with match ?x with _ => _ end = _ => destruct x; try discriminate end); discriminate).
      destruct (intr_step _ stk Ev Hvs) as (mv & Hs & Hv).
      eapply sim_ok; [apply steps1; unfold step; rewrite (at_op Hat2 eq_refl), Hs; reflexivity|].
      replace (pc + size (c1 ++ [IStr i])) with (S (pc + size c1)) by szs.
      apply epost_next; auto.
    - (* Lam *)
      cbn [compile_expr] in Hcm. simpl in Hsh. unfold fresh in Hcm. cs.
      inv_seq Hcm as s1 c1 f1 cr1 fr1 E E1. inv_seq E1 as s2 c2 f2 cr2 fr2 F E2.
      assert (Hf2 := picks_sz _ _ F). destruct Hf2 as (_ & -> & _).
      apply wfx_lambda in Hwf as (Hi & Hnd & Wb).
      rewrite eval_unfold. cbn [eval_eqn]. apply placed_app in Hpl as [Hpl _].
      edestruct (@closure_sim Sc en) with (rec := @None name) as (k & mv & Hk & Hv);
        [exact E|exact F|exact E2|exact Hat|exact Hpl|exact Hi|exact Hnd|exact Wb|exact Hsh|exact He|].
      eapply sim_ok; [exact Hk|]. apply epost_next; auto.
    - (* Match *)
      rewrite compile_match_eq in Hcm. simpl in Hsh. apply andb_prop in Hsh as [Hs1 Hs2].
      inv_seq Hcm as s1 c1 f1 cr1 fr1 E E1. cstat E Hs1 L1 Z1. unfold fresh, fresh_n in E1. cs.
      inv_seq E1 as s2 c2 f2 cr2 fr2 F E2. apply emit_inv in F as (_ & -> & -> & ->). cs.
      inv_seq E2 as s3 c3 f3 cr3 fr3 G E3.
      inv_seq E3 as s4 c4 f4 cr4 fr4 F E4. apply emit_inv in F as (_ & -> & -> & ->). cs.
      apply chg_inv in E4 as (_ & -> & -> & ->). cs. cbn [app] in Hpl, Hat |- *. rewrite ?app_nil_r in *.
      apply wfx_match in Hwf as (W1 & Wb & Wd).
      apply placed_app in Hpl as [Hp1 Hpl].
      apply code_at_app in Hat as [Hat1 Hat]. assert (Hatb := Hat). apply code_at_cons in Hat as [_ Hat]. cbn [isize] in Hat.
      apply code_at_app in Hat as [Hat3 Hend]. apply code_at_label in Hend.
      rewrite eval_unfold. cbn [eval_eqn].
      eapply sim_bind; [eapply esim_nt; eauto|]. cbv beta. intros v pc1 q1 (-> & mv & Hv & ->).
      destruct v as [| | |cn fs|]; try exact I. inversion Hv as [| | |? ? ms Hfs Hsm|]; subst.
      destruct (find_branch cn brs) as [[bs b]|] eqn:Efb; [|exact I].
      destruct (Nat.eqb_spec (length bs) (length fs)) as [Elen|]; [|exact I].
      pose proof (Forall2_len Hfs) as Hlm.
      edestruct brs_find as (tbl & pcb & sb0 & sb1 & cb & fb & lo & H1 & H2 & H3 & H4 & H5 & H6 & H7 & H8);
        [exact Hs2|exact G|exact Hat3|exact Hpl|exact Efb|]. cs.
      pose proof (find_branch_In _ _ Efb) as Hin.
      destruct (Wb _ Hin) as (Wbb & Wbn & Wbd). cbn [fst snd] in *.
      assert (El : link1 la (IBranch (branch_table brs (List.seq (S (c_next s1)) (length brs)))) = Some [OBranch tbl]).
      { cbn [link1]. rewrite H1. auto. }
      eapply sim_steps; [apply steps1; unfold step; rewrite (at_op Hatb El), H2; reflexivity|].
      apply code_at_app in H7 as [H7 Hsw]. apply code_at_app in Hsw as [Hsw Hj].
      rewrite add_all_eq by auto.
      assert (Hz : c_sz s1 + 0 - 1 = c_sz st0) by lia. rewrite Hz in *.
      assert (Hlo : forall x, In x Sc -> lookup x lo = lookup x (c_locals st0)).
      { intros x Hx. rewrite H6; [|intros Hx'; apply (Wd x); auto]. apply L1. intros Hx'. apply (proj2 (proj2 W1) x); auto. }
      eapply sim_post.
      + rewrite Forall_forall in H. eapply (H ((cn, bs), b) Hin); [exact H3|exact H7|exact H8|exact Wbb| | |]; cbn [fst snd].
        * rewrite forallb_In in Hs2. apply (Hs2 _ Hin).
        * rewrite H4, H5. eapply erel_bind; eauto.
        * intros Htl. rewrite H4, H5. eapply tinfo_bind; eauto.
      + intros v pc2 q2 (mv2 & Hv2 & [[-> ->]|(Htl & -> & ->)]).
        * assert (Hbl : length bs = length (rev ms)) by (rewrite rev_length; lia). rewrite Hbl in Hsw.
          pose proof (@swaps_sim (rev ms) _ mv2 stk Hsw) as Hsws. rewrite <- Hbl in Hsws.
          assert (Ej : link1 la (IJump (c_next s1)) = Some [OJump (pc + size c1 + 1 + size c3)]).
          { cbn [link1]. rewrite Hend. auto. }
          eexists _, _, _. split.
          { eapply steps_trans; [exact Hsws|]. apply steps1. unfold step. rewrite (at_op Hj Ej). reflexivity. }
          exists mv2; split; auto. left; split; auto. szs.
        * exists 0, ret, (mv2 :: below). split; [constructor|]. exists mv2; auto.
    - (* Construct *)
      cbn [compile_expr] in Hcm. simpl in Hsh.
      inv_seq Hcm as s1 c1 f1 cr1 fr1 E E1. apply emit_inv in E1 as (_ & -> & -> & ->).
      assert (Wa : Forall (wfx Sc) fs) by (destruct Hwf as (? & ? & ?); apply wfx_args; auto).
      apply code_at_app in Hat as [Hat1 Hat2]. apply placed_app in Hpl as [Hp1 _].
      rewrite eval_unfold. cbn [eval_eqn].
      eapply sim_bind; [eapply args_sim; eauto|]. cbv beta. intros vs pc1 q1 (-> & ms & Hvs & Hlms & ->).
      unfold mk_tagged. destruct (Nat.leb_spec (length vs) max_fields); [|exact I].
      eapply sim_ok; [apply steps1; unfold step; rewrite (at_op Hat2 eq_refl)|].
      + rewrite <- Hlms, take_fields_rev. reflexivity.
      + replace (pc + size _) with (S (pc + size c1)) by szs. apply epost_next. constructor; auto.
    - (* Let *)
      cbn [compile_expr] in Hcm. simpl in Hsh. apply andb_prop in Hsh as [Hs1 Hs2].
      apply wfx_let in Hwf as (W1 & W2 & Wn).
      inv_seq Hcm as s1 c1 f1 cr1 fr1 E E1. cstat E Hs1 L1 Z1.
      inv_seq E1 as s2 c2 f2 cr2 fr2 F E2. apply define_inv in F as (_ & -> & -> & ->).
      inv_seq E2 as s3 c3 f3 cr3 fr3 G E3. apply emit_inv in E3 as (_ & -> & -> & ->).
      cbn [app] in Hpl, Hat |- *. rewrite ?app_nil_r in *.
      apply placed_app in Hpl as [Hp1 Hpl].
      apply code_at_app in Hat as [Hat1 Hat]. apply code_at_app in Hat as [Hat2 Hat].
      rewrite eval_unfold. cbn [eval_eqn].
      eapply sim_bind; [eapply esim_nt; eauto|]. cbv beta. intros v pc1 q1 (-> & mv & Hv & ->).
      assert (Hll : forall x, In x Sc -> lookup x (c_locals s1) = lookup x (c_locals st0)).
      { intros x Hx; apply L1. intros Hx'; apply (proj2 (proj2 W1) x); auto. }
      eapply sim_post.
      + eapply IHe2; [exact G|exact Hat2|exact Hpl|exact W2|exact Hs2| |]; cs.
        * rewrite Z1. replace (S (c_sz st0) - 1) with (c_sz st0) by lia.
          replace (S (c_sz st0)) with (c_sz st0 + 1) by lia.
          apply erel_add; auto. apply (@erel_ext Sc en en (c_locals st0) (c_locals s1) (c_sz st0) (c_sz st0) stk []); auto.
        * intros Htl. apply (@tinfo_ext ctx Sc (n0 :: Sc) en _ (c_locals st0) _ (c_sz st0) _ stk [mv]); auto.
          -- intros x Hx. simpl. destruct (Nat.eqb_spec x n0); [subst; tauto|auto].
          -- intros x Hx. simpl. destruct (Nat.eqb_spec x n0); [subst; tauto|auto].
          -- simpl; lia.
          -- intros x Hx; right; auto.
      + intros v2 pc2 q2 (mv2 & Hv2 & [[-> ->]|(Htl & -> & ->)]).
        * eexists 1, _, _. split; [apply steps1; unfold step; rewrite (at_op Hat eq_refl); reflexivity|].
          exists mv2; split; auto. left; split; auto. szs.
        * exists 0, ret, (mv2 :: below). split; [constructor|]. exists mv2; auto.
    - (* LetRec *)
      cbn [compile_expr] in Hcm. simpl in Hsh. destruct (strip_pis e1) as [| | | | | | | |ps b| | | | | | |] eqn:Es; try discriminate.
      apply andb_prop in Hsh as [Hs1 Hs2]. unfold fresh in Hcm. cs.
      destruct (wfx_letrec Hwf Es) as (Hi & Hnd & Wb & W2 & Wn).
      set (caps := filter _ _) in *.
      inv_seq Hcm as s1 c1 f1 cr1 fr1 E E1. assert (Ef := E). apply compile_function_inv in Ef as (sb & bc & bf & _ & _ & Es1 & Ec1 & Ef1).
      inv_seq E1 as s2 c2 f2 cr2 fr2 F E2. assert (Hf2 := picks_sz _ _ F). destruct Hf2 as (Hz2 & -> & Hl2 & Hn2).
      inv_seq E2 as s3 c3 f3 cr3 fr3 G E3. assert (Gi := G). apply emit_inv in Gi as (_ & Es3 & Ec3 & ->).
      inv_seq E3 as s4 c4 f4 cr4 fr4 K E4. apply define_inv in K as (_ & -> & -> & ->).
      inv_seq E4 as s5 c5 f5 cr5 fr5 M E5. apply emit_inv in E5 as (_ & -> & -> & ->). cs.
      cbn [app] in Hpl |- *. apply placed_app in Hpl as [Hp1 Hpl]. rewrite app_nil_r in Hpl.
      cbn [app] in Hat.
      replace (c1 ++ c2 ++ c3 ++ c5 ++ [ISwapPop]) with ((c1 ++ c2 ++ c3) ++ c5 ++ [ISwapPop]) in Hat |- *
        by (rewrite <- !app_assoc; auto).
      apply code_at_app in Hat as [Hat1 Hat]. apply code_at_app in Hat as [Hat2 Hat].
      rewrite eval_unfold. cbn [eval_eqn]. rewrite Es.
      edestruct (@closure_sim Sc en) with (rec := Some n0) as (k & mv & Hk & Hv);
        [exact E|exact F|exact G|exact Hat1|exact Hp1|exact Hi|exact Hnd|exact Wb| |exact He|].
      { rewrite map_length. exact Hs1. }
      eapply sim_steps; [exact Hk|].
      assert (Hzz : c_sz s3 = S (c_sz st0)) by (subst s3 s1; cs; lia).
      assert (Hll : c_locals s3 = c_locals st0) by (subst s3 s1; cs; congruence).
      eapply sim_post.
      + eapply IHe2; [exact M|exact Hat2|exact Hpl|exact W2|exact Hs2| |]; cs; rewrite Hzz, Hll;
          replace (S (c_sz st0) - 1) with (c_sz st0) by lia;
          replace (S (c_sz st0)) with (c_sz st0 + 1) by lia.
        * apply erel_add; auto.
        * intros Htl. apply (@tinfo_ext ctx Sc (n0 :: Sc) en _ (c_locals st0) _ (c_sz st0) _ stk [mv]); auto.
          -- intros x Hx. simpl. destruct (Nat.eqb_spec x n0); [subst; tauto|auto].
          -- intros x Hx. simpl. destruct (Nat.eqb_spec x n0); [subst; tauto|auto].
          -- intros x Hx; right; auto.
      + intros v2 pc2 q2 (mv2 & Hv2 & [[-> ->]|(Htl & -> & ->)]).
        * eexists 1, _, _. split; [apply steps1; unfold step; rewrite (at_op Hat eq_refl); reflexivity|].
          exists mv2; split; auto. left; split; auto. szs.
        * exists 0, ret, (mv2 :: below). split; [constructor|]. exists mv2; auto.
    - rewrite eval_unfold. cbn [eval_eqn]. eapply IHe; eauto.
    - rewrite eval_unfold. cbn [eval_eqn]. eapply IHe; eauto.
    - (* Trap *)
      apply emit_inv in Hcm as (_ & -> & -> & ->). rewrite eval_unfold. simpl eval_eqn.
      exists 0, pc, stk. split; [constructor|]. unfold step. rewrite (at_op Hat eq_refl). auto.
  Qed.

  Theorem esim_holds n e : esim n e.
  Proof.
    revert e. induction n as [n IH] using lt_wf_ind. intros e. apply esim_all. auto.
  Qed.
End Sim.
