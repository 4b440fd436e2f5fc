(** C42, from the names of the program: which definitions are reported as never used. *)
From Verif Require CompileCorrect Checks ChecksProofs.
From Verif Require Import NavSpec NavProofs NavUnits PropsNav TokenSpec TokenProofs PropsTokens.
Set Implicit Arguments.

(** lint/unused.rs: the definitions and references of the compiled items, as the model of the lint takes them. *)
Definition lint_kind (k : dkind) : Checks.ukind :=
  match k with DValue _ _ => Checks.KValue | DCtor _ _ => Checks.KCtor | DType _ CtorOpaque => Checks.KType true | DType _ (CtorList _) => Checks.KType false end.
Definition lint_def (d : rdef) : Checks.udef := Checks.mkUDef (d_sym d) (lint_kind (d_kind d)) (exported (d_vis d)) (id_text (d_name d)).
Definition lint_item (i : nitem) : Checks.uitem := Checks.mkUItem (map lint_def (ui_defs (ni_unit i))) (map r_sym (ui_refs (ni_unit i))).
(** lint/unused.rs:7-48 [lints], after [compile_to_end]: the definitions reported.  [Checks.unused] gives them without
    their places; a definition is known by its symbol. *)
Definition lints (items : list nitem) : list ident :=
  map d_name (filter (fun d => existsb (fun u => Checks.ud_sym u =? d_sym d) (Checks.unused (map lint_item items))) (flat_map (fun i => ui_defs (ni_unit i)) items)).

Lemma no_type r l d x : In (d, (RType, x)) (inner r l) -> r = RType.
Proof. unfold inner. intros H. apply in_map_iff in H as (y & E & _). congruence. Qed.
Lemma expr_no_type : forall e a d x, ~ In (d, (RType, x)) (expr_roles e a).
Proof.
  assert (NT : forall r l d x, r <> RType -> ~ In (d, (RType, x)) (inner r l)) by (intros r l d x N H; apply no_type in H; auto).
  induction e using ResolveProofs.xexpr_ind'; intros a' z x; cbn [expr_roles]; rewrite ?in_app_iff; try tauto.
  - intros [H|H]; [apply (IHe1 _ _ _ H)|apply (IHe2 _ _ _ H)].
  - intros [H|H]; [apply (IHe1 _ _ _ H)|apply (IHe2 _ _ _ H)].
  - intros [H|H]; [apply (IHe1 _ _ _ H)|apply (IHe2 _ _ _ H)].
  - intros [H|[H|[H|H]]]; [unfold ann_roles in H; revert H; apply NT; discriminate|apply (IHe1 _ _ _ H)|revert H; apply NT; discriminate|apply (IHe2 _ _ _ H)].
  - intros [H0|H0]; [apply (IHe _ _ _ H0)|]. induction H as [|[[n xs] b] cs Hb _ IH]; [destruct H0|]. rewrite !in_app_iff in H0.
    destruct H0 as [H0|[H0|H0]]; [revert H0; apply NT; discriminate|apply (Hb _ _ _ H0)|auto].
  - intros [H|[H|H]]; [apply (IHe1 _ _ _ H)|apply (IHe2 _ _ _ H)|apply (IHe3 _ _ _ H)].
  - intros [H|H]; [revert H; apply NT; discriminate|apply (IHe _ _ _ H)].
  - apply IHe.
Qed.
(** An item defines at most one type. *)
Lemma one_type x a d y d' y' : In (d, (RType, y)) (item_roles x a) -> In (d', (RType, y')) (item_roles x a) -> d = d'.
Proof.
  destruct x as [n e ec ps cs|n e ann body]; cbn [item_roles]; rewrite !in_app_iff; cbn [In]; intros H H'.
  - assert (Z : forall d y, In (d, (RType, y)) (inner RTypeVariable ps) \/ In (d, (RType, y)) (map (fun c => (c, (RCtor, ec))) (case_names cs)) \/ (n, (RType, e)) = (d, (RType, y)) \/ False -> d = n).
    { intros d0 y0 [Q|[Q|[Q|[]]]]; [apply no_type in Q; discriminate|apply in_map_iff in Q as (? & Q & _); discriminate|congruence]. }
    rewrite (Z _ _ H), (Z _ _ H'). auto.
  - exfalso. destruct H as [H|[[H|[]]|H]]; [unfold ann_roles in H; apply no_type in H; discriminate|discriminate|]. destruct body as [b|e0]; [destruct H|]. apply expr_no_type in H. auto.
Qed.
Lemma roles_items xs : forall a l, In l (roles_of_items xs a) -> exists x a', l = item_roles x a'.
Proof. induction xs as [|x xs IH]; intros a l H; [destruct H|]. destruct H as [<-|H]; eauto. Qed.

Section Lint.
  Variable sy : nat -> sym.
  Hypothesis J : forall a b, sy a = sy b -> a = b.
  Variable ps : list placed.
  Hypothesis LO : laid_out ps.
  Let L := nv_items (run sy 0 ps c0 0).
  Let U := map lint_item L.
  Lemma item_of l : In l (item_definitions ps) -> exists i, In i L /\ map def_role (idefs i) = l.
  Proof. intros H. destruct (@forall2_r _ _ _ _ _ _ (run_item_roles sy ps) H) as (i & Hi & E). eauto. Qed.
  Lemma defs_of i : In i L -> In (map def_role (idefs i)) (item_definitions ps).
  Proof. intros H. destruct (@forall2_l _ _ _ _ _ _ (run_item_roles sy ps) H) as (l & Hl & E). rewrite E. auto. Qed.
  Lemma sym_inj d e : In d (flat_map idefs L) -> In e (flat_map idefs L) -> d_sym d = d_sym e -> d = e.
  Proof. apply nodup_sym. apply (@run_distinct sy J). Qed.
  Lemma all_defs i d : In i L -> In d (idefs i) -> In d (flat_map idefs L).
  Proof. intros. apply in_flat_map. eauto. Qed.
  Lemma type_kind k : lint_kind k = Checks.KType false <-> role_of k = RType.
  Proof. destruct k as [| |? []]; cbn; split; congruence. Qed.
  Lemma ctor_kind k : lint_kind k = Checks.KCtor <-> role_of k = RCtor.
  Proof. destruct k as [| |? []]; cbn; split; congruence. Qed.
  Lemma var_kind k : lint_kind k = Checks.KType true <-> role_of k = RTypeVariable.
  Proof. destruct k as [| |? []]; cbn; split; congruence. Qed.
  (** The type of an item. *)
  Lemma item_type_in i t : Checks.item_type (lint_item i) = Some t -> exists d, In d (idefs i) /\ role_of (d_kind d) = RType /\ d_sym d = t.
  Proof.
    unfold Checks.item_type. destruct (find _ _) as [u|] eqn:E; [|discriminate]. intros Q. injection Q as <-. apply find_some in E as [Hu E].
    cbn in Hu. apply in_map_iff in Hu as (d & <- & Hd). exists d. split; auto. split; auto. apply type_kind. cbn in E. destruct (lint_kind (d_kind d)) as [| |[]|]; auto; discriminate.
  Qed.
  Lemma item_type_ex i d : In i L -> In d (idefs i) -> role_of (d_kind d) = RType -> Checks.item_type (lint_item i) = Some (d_sym d).
  Proof.
    intros Hi Hd R. destruct (Checks.item_type (lint_item i)) as [t|] eqn:E.
    - apply item_type_in in E as (e & He & Re & <-). f_equal.
      pose proof (defs_of _ Hi) as Q. destruct (roles_items _ _ _ Q) as (x & a & Ex).
      assert (N : d_name e = d_name d).
      { eapply (@one_type x a); rewrite <- Ex; apply in_map_iff; [exists e|exists d]; unfold def_role; rewrite ?Re, ?R; split; eauto. }
      pose proof (lo_once LO) as ND. apply CompileCorrect.NoDup_app_iff in ND as (_ & ND & _). rewrite <- (binder_names sy) in ND.
      assert (e = d); [|congruence]. pose proof (all_defs _ _ Hi He) as A. pose proof (all_defs _ _ Hi Hd) as B. fold L in ND. clear - ND A B N. induction (flat_map idefs L) as [|y l IH]; [destruct A|].
      cbn in *. inversion_clear ND as [|? ? N1 N2]. destruct A as [->|A], B as [->|B]; auto; exfalso; apply N1; [rewrite N|rewrite <- N]; apply in_map; auto.
    - exfalso. unfold Checks.item_type in E. destruct (find _ _) eqn:F; [discriminate|]. cbn in F. assert (Q : In (lint_def d) (map lint_def (idefs i))) by (apply in_map; auto).
      apply (find_none _ _ F) in Q. cbn in Q. apply type_kind in R. rewrite R in Q. discriminate.
  Qed.
  Lemma referenced e : In e (flat_map idefs L) -> (exists i, In i L /\ In (d_sym e) (map r_sym (irefs i))) <-> users ps (d_name e) <> [].
  Proof.
    intros He. assert (O : owns L (d_sym e) (d_name e)) by (exists e; auto). rewrite <- (@all_refs sy J ps LO ps 0 (or_introl eq_refl) _ _ O). unfold refs_to. split.
    - intros (i & Hi & H). apply in_map_iff in H as (r & E & Hr). intros Z. apply map_eq_nil in Z. assert (Q : In r (filter (fun r => r_sym r =? d_sym e) (flat_map irefs L))).
      { apply filter_In. split; [apply in_flat_map; eauto|]. apply Nat.eqb_eq. auto. }
      fold L in Z. rewrite Z in Q. destruct Q.
    - intros N. destruct (filter _ _) as [|r l] eqn:E; [destruct N; auto|]. assert (Q : In r (filter (fun r => r_sym r =? d_sym e) (flat_map irefs L))) by (fold L in E; rewrite E; left; auto).
      apply filter_In in Q as [Q Es]. apply Nat.eqb_eq in Es. apply in_flat_map in Q as (i & Hi & Hr). exists i. split; auto. rewrite <- Es. apply in_map. auto.
  Qed.
  Lemma mentioned_iff e : In e (flat_map idefs L) ->
    ChecksProofs.mentioned U (d_sym e) <-> users ps (d_name e) <> [] \/ role_of (d_kind e) = RTypeVariable \/ exported (d_vis e) = true.
  Proof.
    intros He. rewrite <- (referenced _ He). unfold ChecksProofs.mentioned, U. split.
    - intros (it & Hit & H). apply in_map_iff in Hit as (i & <- & Hi). destruct H as [H|(u & Hu & Es & H)]; [left; exists i; auto|right].
      cbn in Hu. apply in_map_iff in Hu as (d & <- & Hd). cbn in Es, H. assert (d = e) by (apply sym_inj; auto; apply (@all_defs i); auto). subst d. rewrite var_kind in H. auto.
    - intros [(i & Hi & H)|H].
      + exists (lint_item i). split; [apply in_map; auto|]. left. auto.
      + apply in_flat_map in He as (i & Hi & Hd). exists (lint_item i). split; [apply in_map; auto|]. right. exists (lint_def e). split; [apply in_map; auto|]. split; auto. cbn. rewrite var_kind. auto.
  Qed.
  Lemma ctor_iff c t : ChecksProofs.ctor_of U c t <-> exists i k d, In i L /\ In k (idefs i) /\ In d (idefs i) /\ role_of (d_kind k) = RCtor /\ role_of (d_kind d) = RType /\ d_sym k = c /\ d_sym d = t.
  Proof.
    unfold ChecksProofs.ctor_of, U. split.
    - intros (it & u & Hit & Hu & Ek & <- & Et). apply in_map_iff in Hit as (i & <- & Hi). cbn in Hu. apply in_map_iff in Hu as (k & <- & Hk). apply item_type_in in Et as (d & Hd & R & <-).
      exists i, k, d. cbn in Ek. apply ctor_kind in Ek. auto 8.
    - intros (i & k & d & Hi & Hk & Hd & Rk & Rd & <- & <-). exists (lint_item i), (lint_def k). split; [apply in_map; auto|]. split; [apply in_map; auto|]. split; [apply ctor_kind; auto|]. split; auto.
      apply item_type_ex; auto.
  Qed.
  Lemma one_item i j d : In i L -> In j L -> In d (idefs i) -> In d (idefs j) -> i = j.
  Proof.
    intros Hi Hj Di Dj. pose proof (@run_distinct sy J ps) as N. fold L in N. destruct (in_split _ _ Hi) as (A & B & E). rewrite E in *. rewrite flat_map_app, map_app in N. cbn [flat_map] in N. rewrite map_app in N.
    apply CompileCorrect.NoDup_app_iff in N as (_ & N2 & N3). apply CompileCorrect.NoDup_app_iff in N2 as (_ & _ & N4).
    apply in_app_iff in Hj. cbn in Hj. destruct Hj as [Hj|[Hj|Hj]]; auto; exfalso.
    - apply (N3 (d_sym d)); [apply in_map; apply in_flat_map; eauto|apply in_app_iff; left; apply in_map; auto].
    - apply (N4 (d_sym d)); [apply in_map; auto|apply in_map; apply in_flat_map; eauto].
  Qed.
  Lemma unused_iff d : In d (lints L) <->
    exists defs r, In defs (item_definitions ps) /\ In (d, (r, false)) defs /\ r <> RTypeVariable /\ hd_error (id_text d) <> Some 95%N /\ users ps d = [] /\
      (r = RType -> forall c x, In (c, (RCtor, x)) defs -> x = false /\ users ps c = []).
  Proof.
    assert (F : forall c t t', ChecksProofs.ctor_of U c t -> ChecksProofs.ctor_of U c t' -> t = t').
    { intros c t t' H H'. apply ctor_iff in H as (i & k & e & Hi & Hk & He & Rk & Re & <- & <-). apply ctor_iff in H' as (i' & k' & e' & Hi' & Hk' & He' & Rk' & Re' & Ek & <-).
      assert (k' = k) by (apply sym_inj; eauto using all_defs). subst k'. assert (i' = i) by (apply (one_item i' i k); auto). subst i'.
      pose proof (item_type_ex _ _ Hi He Re) as Q. pose proof (item_type_ex _ _ Hi He' Re') as Q'. congruence. }
    assert (Main : forall e, In e (flat_map idefs L) -> (existsb (fun u => Checks.ud_sym u =? d_sym e) (Checks.unused U) = true <->
      hd_error (id_text (d_name e)) <> Some 95%N /\ ~ ChecksProofs.mentioned U (d_sym e) /\ ~ (exists c, ChecksProofs.ctor_of U c (d_sym e) /\ ChecksProofs.mentioned U c))).
    { intros e He. rewrite existsb_exists. split.
      - intros (u & Hu & Es). apply Nat.eqb_eq in Es. apply ChecksProofs.unused_spec in Hu as ((it & Hit & Hu) & _ & A & B & C); auto.
        unfold U in Hit. apply in_map_iff in Hit as (i & <- & Hi). cbn in Hu. apply in_map_iff in Hu as (e' & <- & He'). cbn in *.
        assert (e' = e) by (apply sym_inj; auto; apply (@all_defs i); auto). subst e'. auto.
      - intros (A & B & C). exists (lint_def e). split; [|apply Nat.eqb_refl]. apply ChecksProofs.unused_spec; auto. apply in_flat_map in He as (i & Hi & He). split; [|split; [|auto]].
        + exists (lint_item i). split; [apply in_map; auto|apply in_map; auto].
        + cbn. destruct (d_kind e) as [| |? []]; discriminate. }
    unfold lints. rewrite in_map_iff. change (fun i => ui_defs (ni_unit i)) with idefs. fold U. split.
    - intros (e & <- & H). apply filter_In in H as [He H]. apply Main in H as (A & B & C); auto. rewrite mentioned_iff in B by auto.
      pose proof He as He'. apply in_flat_map in He' as (i & Hi & Di). exists (map def_role (idefs i)), (role_of (d_kind e)).
      assert (X : exported (d_vis e) = false) by (destruct (exported (d_vis e)); auto; exfalso; apply B; auto).
      split; [apply defs_of; auto|]. split; [apply in_map_iff; exists e; unfold def_role; rewrite X; auto|]. split; [intros Q; apply B; auto|]. split; auto. split.
      + destruct (users ps (d_name e)); auto. exfalso. apply B. left. discriminate.
      + intros R c x Hc. apply in_map_iff in Hc as (k & E & Hk). injection E as <- Ek <-. assert (M : ~ ChecksProofs.mentioned U (d_sym k)).
        { intros M. apply C. exists (d_sym k). split; auto. apply ctor_iff. exists i, k, e. auto 8. }
        rewrite mentioned_iff in M by (eapply all_defs; eauto). split; [destruct (exported (d_vis k)); auto; exfalso; apply M; auto|]. destruct (users ps (d_name k)); auto. exfalso. apply M. left. discriminate.
    - intros (defs & r & Hd & Hin & Nr & A & B & C). apply item_of in Hd as (i & Hi & <-). apply in_map_iff in Hin as (e & E & He). injection E as <- <- X.
      exists e. split; auto. apply filter_In. split; [eapply all_defs; eauto|]. apply Main; [eapply all_defs; eauto|]. split; auto. split.
      + rewrite mentioned_iff by (eapply all_defs; eauto). intros [M|[M|M]]; auto; congruence.
      + intros (c & Hc & M). apply ctor_iff in Hc as (j & k & e' & Hj & Hk & He' & Rk & Re & <- & Es). assert (e' = e) by (apply sym_inj; eauto using all_defs). subst e'.
        assert (j = i) by (apply (one_item j i e); auto). subst j. assert (Hk' : In (d_name k, (RCtor, exported (d_vis k))) (map def_role (idefs i))) by (apply in_map_iff; exists k; unfold def_role; rewrite Rk; auto).
        destruct (C Re _ _ Hk') as [X1 X2]. rewrite mentioned_iff in M by (eapply all_defs; eauto). destruct M as [M|[M|M]]; congruence.
  Qed.
End Lint.

(** A definition is reported exactly if it cannot be imported from other files, is not a type variable, its name does
    not begin with an underscore, and no name stands for it, and, if it is a type, the same holds of its constructors:
    none can be imported and no name stands for one. *)
Theorem C42_from_the_names sy ps offs d : (forall a b, sy a = sy b -> a = b) -> laid_out ps ->
  In d (lints (nv_items (nav_to_end sy ps (nav_after sy ps offs)))) <->
  exists defs r, In defs (item_definitions ps) /\ In (d, (r, false)) defs /\ r <> RTypeVariable /\ hd_error (id_text d) <> Some 95%N /\ users ps d = [] /\
    (r = RType -> forall c x, In (c, (RCtor, x)) defs -> x = false /\ users ps c = []).
Proof.
  intros J LO. destruct (after_reached sy ps offs) as (ps1 & R). rewrite (@to_end_all sy ps _ ps1 LO R). apply unused_iff; auto.
Qed.
Print Assumptions C42_from_the_names.
(** In the program of C56, [f] and the constructor [N] are not used; [T] is, by its constructor [C]. *)
Example C42_from_the_names_example : laid_out hs /\
  map id_text (lints (nv_items (nav_to_end (fun n => n) hs nav_new))) = [[78]; [102]]%N.
Proof. split; [apply hs_laid_out|vm_compute; reflexivity]. Qed.
