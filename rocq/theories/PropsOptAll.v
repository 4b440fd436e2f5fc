(** Properties of the optimiser as a whole: C17. *)
From Verif Require Import EvalFacts Orders Compile CompileStatic Wf Vm Lambda LambdaProofs Verify VerifyNames VerifyLimit RunnerFacts RunnerCorrect
  OptEv OptRel OptWalk OptGood OptPasses OptProg OptDce OptInline OptInlineOk OptSaturate OptSatDefs OptAll OptAllOk PropsOpt PropsInline PropsSaturate PropsRunner PropsLambda.
From Coq Require Import Permutation.

(** The exported definitions: their names and types. *)
Definition is_export (p : program) (x : name) (t : ty) : Prop :=
  exists d s, In d (p_defs p) /\ vd_name d = x /\ vd_ty d = t /\ vd_export d = Some s.
(** What may be asked of the program: an exported definition, or any expression over exported definitions that
    are not curried. *)
Definition over_exports (p : program) (e : expr) : Prop :=
  (exists x t, e = EName x /\ is_export p x t) \/
  (forall x, In x (fv e) -> exists t, is_export p x t /\ arrows t < 2).

Lemma export_in p x t : is_export p x t -> exists o, In (x, o, t) (exported p).
Proof.
  intros (d & s & Hd & <- & <- & E). exists (vd_export d). unfold exported.
  apply in_map_iff. exists d. split; auto. apply filter_In. rewrite E. auto.
Qed.
Lemma over_xok p e : over_exports p e -> xok (exported p) e.
Proof.
  intros [(x & t & -> & H)|H].
  - left. destruct (export_in _ _ _ H) as [o Ho]. eauto.
  - right. intros x Hx. destruct (H x Hx) as (t & Ht & Ha). destruct (export_in _ _ _ Ht) as [o Ho].
    exists o, t. rewrite <- arrows_groups. auto.
Qed.
Lemma start_inv p exprs nn : wf_program p exprs = true -> forallb (fun d => branches_distinct (vd_value d)) (p_defs p) = true ->
  (forall x, In x (names_used p) -> x < nn) -> inv nn p.
Proof.
  intros Hw Hd Hb. pose proof (wf_ok _ _ Hw) as Ho. split; auto.
  destruct Ho as (_ & _ & Hr). unfold recs_true. rewrite forallb_forall in *. intros d Hin. apply distinct_recs; auto.
Qed.

(** C17.  Every result over exported definitions is kept, whatever the check [verify] that runs between the
    passes accepts and whatever [hash] the loop compares. *)
Theorem C17_optimize_results :
  forall (verify : state -> bool) (hash : state -> N) (fuel : nat) (opt : bool) (p p' : program) (nn nt nn' nt' : nat) (exprs : list expr),
    wf_program p exprs = true -> forallb (fun d => branches_distinct (vd_value d)) (p_defs p) = true ->
    (forall x, In x (names_used p) -> x < nn) ->
    (forall e, In e exprs -> over_exports p e) ->
    optimize_fuel verify hash fuel opt (p, (nn, nt)) = Some (p', (nn', nt')) ->
    same_results p p' exprs.
Proof.
  intros verify hash fuel opt p p' nn nt nn' nt' exprs Hw Hd Hb He H. apply kept_same.
  assert (K := @optimize_ok verify hash fuel opt (p, (nn, nt)) (p', (nn', nt')) (start_inv _ _ _ Hw Hd Hb) H).
  apply (k_res K). apply Forall_forall. intros e Hin. apply over_xok. auto.
Qed.
Print Assumptions C17_optimize_results.

(** The optimiser ends, with a panic or a program: from some bound on the recursion on, the outcome does not
    depend on the bound. *)
Theorem C17_optimize_terminates :
  forall (verify : state -> bool) (hash : state -> N) (opt : bool) (p : program) (nn nt : nat) (exprs : list expr),
    wf_program p exprs = true -> forallb (fun d => branches_distinct (vd_value d)) (p_defs p) = true ->
    (forall x, In x (names_used p) -> x < nn) ->
    exists fuel r, forall k, fuel <= k -> optimize_fuel verify hash k opt (p, (nn, nt)) = r.
Proof.
  intros verify hash opt p nn nt exprs Hw Hd Hb. apply (optimize_settles verify hash opt (p, (nn, nt)) (start_inv _ _ _ Hw Hd Hb)).
Qed.
Print Assumptions C17_optimize_terminates.

(** It is between one and ten rounds of the list of passes. *)
Fixpoint repeat_rounds (verify : state -> bool) (fuel n : nat) (s : state) : option state :=
  match n with 0 => Some s | S n => match optimize_iteration verify fuel s with Some s1 => repeat_rounds verify fuel n s1 | None => None end end.
Theorem C17_optimize_rounds :
  forall (verify : state -> bool) (hash : state -> N) (fuel : nat) (s s' : state),
    optimize_fuel verify hash fuel true s = Some s' -> exists n, 1 <= n <= 10 /\ repeat_rounds verify fuel n s = Some s'.
Proof.
  intros verify hash fuel s s' H. unfold optimize_fuel in H. revert H. generalize (hash s). 
  assert (HR : forall m h s, rounds verify hash fuel (S m) h s = Some s' -> exists n, 1 <= n <= S m /\ repeat_rounds verify fuel n s = Some s').
  { induction m as [|m IH]; intros h s0 H; cbn [rounds] in H; destruct (optimize_iteration verify fuel s0) as [s1|] eqn:E; cbn [obind] in H; try discriminate.
    - exists 1. split; [lia|]. cbn [repeat_rounds]. rewrite E. destruct (N.eqb _ _); auto.
    - destruct (N.eqb (hash s1) h).
      + exists 1. split; [lia|]. cbn [repeat_rounds]. rewrite E. auto.
      + apply IH in H as (n & Hn & H). exists (S n). split; [lia|]. cbn [repeat_rounds]. rewrite E. auto. }
  intros h H. apply HR in H. exact H.
Qed.
Print Assumptions C17_optimize_rounds.

(** The result binds every name once and uses it in its scope; it has the same types and the same exported
    definitions in the same order, with the type they had or, if it was curried, the uncurried one. *)
Definition exports_of (p : program) : list (name * bytes * ty) :=
  flat_map (fun d => match vd_export d with Some s => [(vd_name d, s, vd_ty d)] | None => [] end) (p_defs p).
Theorem C17_optimize_exports :
  forall (verify : state -> bool) (hash : state -> N) (fuel : nat) (opt : bool) (p p' : program) (nn nt nn' nt' : nat) (exprs : list expr),
    wf_program p exprs = true -> forallb (fun d => branches_distinct (vd_value d)) (p_defs p) = true ->
    (forall x, In x (names_used p) -> x < nn) ->
    optimize_fuel verify hash fuel opt (p, (nn, nt)) = Some (p', (nn', nt')) ->
    scoped_defs [] (p_defs p') = true /\ NoDup (names_used p') /\ nn <= nn' /\ (forall x, In x (names_used p') -> x < nn') /\
    p_types p' = p_types p /\
    Forall2 (fun a b => fst b = fst a /\ (snd b = snd a \/ 2 <= arrows (snd a) /\ snd b = uncurried (snd a))) (exports_of p) (exports_of p').
Proof.
  intros verify hash fuel opt p p' nn nt nn' nt' exprs Hw Hd Hb H.
  assert (K := @optimize_ok verify hash fuel opt (p, (nn, nt)) (p', (nn', nt')) (start_inv _ _ _ Hw Hd Hb) H).
  destruct K as [[(O1 & O2 & _) _ Hb'] Hn Ht HX _]. cbn [fst snd] in *.
  split; [exact O1|]. split; [exact O2|]. split; [exact Hn|]. split; [exact Hb'|]. split; [exact Ht|].
  assert (HE : forall p, exported p = map (fun a => (fst (fst a), Some (snd (fst a)), snd a)) (exports_of p)).
  { intros q. unfold exported, exports_of. induction (p_defs q) as [|d ds IH]; auto. cbn [filter flat_map]. destruct (vd_export d) eqn:E; [|exact IH].
    cbn [map app fst snd]. rewrite E. f_equal. exact IH. }
  unfold xrel in HX. rewrite !HE in HX. clear - HX. revert HX. generalize (exports_of p'). induction (exports_of p) as [|a l IH]; intros l' HX; destruct l' as [|b l'];
    inversion HX as [|? ? ? ? [E1 E2] H2]; subst; constructor; auto.
  cbn [fst snd] in *. destruct a as [[x s] t], b as [[x' s'] t']. cbn [fst snd] in *. injection E1 as -> ->. split; auto.
  destruct E2 as [E2|[E2 E3]]; [auto|right]. rewrite arrows_groups, E3, uncurried_eq. auto.
Qed.
Print Assumptions C17_optimize_exports.

(** With the core verifier as the check, as in a normal build: what the tree-walker makes of the program the
    compiler generated is what the bytecode and the closure-compiling runners make of the optimised one. *)
Definition core_verify (s : state) : bool := verified (fst (snd s)) (fst s) [].

Lemma recs_letrec e : recs false e = true -> letrec_fns e = true.
Proof.
  assert (HS : forall v ps b, strip_pis v = ELam ps b -> letrec_fns v = true -> letrec_fns b = true).
  { induction v; simpl; intros ps0 b0 E; try discriminate; eauto. injection E as -> ->. auto. }
  assert (HL : forall es, Forall (fun e => recs false e = true -> letrec_fns e = true) es -> forallb (recs false) es = true -> forallb letrec_fns es = true).
  { induction 1 as [|e0 es He _ IH]; simpl; auto. rewrite !andb_true_iff. intuition. }
  induction e using expr_ind'; cbn [recs letrec_fns]; rewrite ?andb_true_iff; auto; try (intuition; fail).
  - intros [[H1 H2] _]. split; auto. rewrite forallb_forall in *. rewrite Forall_forall in H. auto.
  - intros [[H1 H2] H3]. split; auto. destruct (strip_pis e1) eqn:E; try discriminate. eapply HS; eauto.
Qed.
Lemma wf_names p xs : wf_program p [] = true -> (forall x, In x xs -> In x (def_names (p_defs p))) -> wf_program p (map EName xs) = true.
Proof.
  unfold wf_program. rewrite !andb_true_iff. intros ((((H1 & _) & H3) & H4) & _) Hx. repeat split; auto.
  - apply forallb_forall. intros e He. apply in_map_iff in He as (x & <- & Hi). simpl. apply mem_In. auto.
  - unfold all_binders in *. replace (flat_map binders (map EName xs)) with (@nil name); auto. clear. induction xs; auto.
  - apply forallb_forall. intros e He. apply in_map_iff in He as (x & <- & Hi). auto.
Qed.

Theorem C17_verified_pipeline :
  forall (hash : state -> N) (fuel : nat) (opt : bool) (p p' : program) (nn nt nn' nt' : nat) (xs : list name) (n : nat) (os : list obs),
    verified nn p [] = true -> forallb (fun d => letrec_fns (vd_value d)) (p_defs p) = true ->
    forallb (fun d => branches_distinct (vd_value d)) (p_defs p) = true ->
    (forall x, In x xs -> exists t, is_export p x t) ->
    optimize_fuel core_verify hash fuel opt (p, (nn, nt)) = Some (p', (nn', nt')) ->
    observed n p (map EName xs) = Ok os ->
    (exists k, forall k', k <= k' -> bytecode k' p' (map EName xs) = Ok os) /\
    (exists k, forall ord, (forall e l, Permutation (ord e l) l) -> lambda_obs ord k p' (map EName xs) = Ok os).
Proof.
  intros hash fuel opt p p' nn nt nn' nt' xs n os Hv Hl Hd Hx H Ho.
  assert (Hw0 : wf_program p [] = true).
  { apply (verified_wf nn p [] Hv). rewrite Hl. auto. }
  assert (Hdef : forall q x t, is_export q x t -> In x (def_names (p_defs q))).
  { intros q x t (d & s & Hin & <- & _). apply in_map. auto. }
  assert (Hw : wf_program p (map EName xs) = true). { apply wf_names; auto. intros x Hi. destruct (Hx x Hi) as [t Ht]. eauto. }
  assert (Hb : forall x, In x (names_used p) -> x < nn) by (apply (@verified_below nn p [] Hv)).
  pose proof (start_inv _ _ _ Hw Hd Hb) as Hi.
  assert (K := @optimize_ok core_verify hash fuel opt (p, (nn, nt)) (p', (nn', nt')) Hi H).
  assert (Hv' : verified nn' p' [] = true).
  { clear - H Hv. unfold optimize_fuel in H. destruct opt; [|injection H as <- <- <-; auto].
    assert (HP : forall l s s', core_verify s = true -> run_passes core_verify l s = Some s' -> core_verify s' = true).
    { induction l as [|f l IH]; intros s s' Hs HE; cbn [run_passes] in HE; [injection HE as <-; auto|].
      destruct (f s) as [s1|]; cbn [obind] in HE; [|discriminate]. unfold checked in HE. destruct (core_verify s1) eqn:E1; cbn [obind] in HE; [|discriminate].
      eauto. }
    assert (HI : forall s s', optimize_iteration core_verify fuel s = Some s' -> core_verify s' = true).
    { intros s s' HE. unfold optimize_iteration, checked in HE. destruct (core_verify s) eqn:E1; cbn [obind] in HE; [|discriminate]. eapply HP; eauto. }
    assert (HR : forall m h s s', core_verify s = true -> rounds core_verify hash fuel m h s = Some s' -> core_verify s' = true).
    { induction m as [|m IH]; intros h s s' Hs HE; cbn [rounds] in HE; [injection HE as <-; auto|].
      destruct (optimize_iteration core_verify fuel s) as [s1|] eqn:E; cbn [obind] in HE; [|discriminate].
      apply HI in E. destruct (N.eqb _ _); [injection HE as <-; auto|eauto]. }
    change (core_verify (p', (nn', nt')) = true). eapply HR; [|exact H]. exact Hv. }
  assert (Hw' : wf_program p' [] = true).
  { apply (verified_wf nn' p' [] Hv'). destruct (i_ok (k_inv K)) as (_ & _ & Hr). cbn [fst] in Hr. rewrite andb_true_r.
    rewrite forallb_forall in *. intros d Hin. apply recs_letrec. auto. }
  assert (Hwx' : wf_program p' (map EName xs) = true).
  { apply wf_names; auto. intros x Hin. destruct (Hx x Hin) as [t Ht]. destruct (export_in _ _ _ Ht) as [o Hin'].
    destruct (xrel_in _ _ _ (k_ex K) Hin') as (t' & Hin2 & _). cbn [fst] in Hin2. unfold exported in Hin2.
    apply in_map_iff in Hin2 as (d & Ed & Hd2). apply filter_In in Hd2 as [Hd2 _]. injection Ed as <- _ _. apply in_map. auto. }
  assert (Hr : same_results p p' (map EName xs)).
  { apply kept_same. apply (k_res K). apply Forall_forall. intros e He. apply over_xok. apply in_map_iff in He as (x & <- & Hin).
    left. destruct (Hx x Hin) as [t Ht]. eauto. }
  destruct (Hr n os Ho) as [m Hm]. unfold observed in Hm. apply bind_ok in Hm as (vs & Em & Hm). injection Hm as <-. split.
  - eapply bytecode_agrees; eauto.
  - exists m. intros ord Hord. rewrite (@C03_lambda_agrees ord p' (map EName xs) m Hord Hwx'); [|congruence].
    unfold treewalk_obs. rewrite Em. auto.
Qed.
Print Assumptions C17_verified_pipeline.

(** The example of PropsSaturate.v with distinct type variables and a match on a match: everything above applies to
    it, and the optimiser changes it. *)
Definition ex_all : program := mkProgram [mkTyDef 20 [] [(21, []); (22, [TInt])]]
  [mkValDef 1 (Some [97%N]) (TFn [TInt] (TFn [TInt; TInt] TInt)) (ELam [(2, TInt)] (ELam [(3, TInt); (4, TInt)] (EOp (EName 2) Subtract (EOp (EName 3) Multiply (EName 4)))));
   mkValDef 5 None (TAbs 0 (TAbs 1 (TFn [TVar 0] (TFn [TVar 1] (TVar 0))))) (EPi 2 (EPi 3 (ELam [(6, TVar 2)] (ELam [(7, TVar 3)] (EName 6)))));
   mkValDef 8 (Some [98%N]) (TFn [TInt] TInt) (ELam [(9, TInt)]
     (ELetRec 10 (TFn [TInt] (TFn [TInt] TInt))
       (ELam [(11, TInt)] (ELam [(12, TInt)] (EIf (EOp (EName 11) LessEq (EInt 0)) (EName 12)
          (ECall (ECall (EName 10) [EOp (EName 11) Subtract (EInt 1)]) [EOp (EName 12) Add (EName 9)]))))
       (ECall (ECall (EName 10) [EInt 3]) [EInt 4])));
   mkValDef 13 (Some [99%N]) TInt
     (ELet 14 (ECall (EName 1) [EInt 100]) (ECall (ECall (EPiApp (EPiApp (EName 5) TInt) TInt) [ECall (EName 14) [EInt 2; EInt 5]]) [ECall (EName 8) [EInt 6]]));
   mkValDef 15 (Some [100%N]) (TFn [TNamed 20 []] TInt) (ELam [(16, TNamed 20 [])]
     (EMatch (EMatch (EName 16) [((21, []), EConstruct 22 [] [EInt 1]); ((22, [17]), EConstruct 21 [] [])])
             [((21, []), EInt 0); ((22, [18]), EOp (EName 18) Add (EInt 5))]));
   mkValDef 19 (Some [101%N]) TInt (ECall (EName 15) [EConstruct 21 [] []])].
Definition ex_all_hash (s : state) : N := N.of_nat (list_sum (map (fun d => size (vd_value d)) (p_defs (fst s)))).
Definition ex_all_names : list name := [13; 1; 19].
Definition ex_all_exprs : list expr := EOp (EName 13) Add (ECall (EName 8) [EInt 5]) :: map EName ex_all_names.
Example ex_all_hypotheses :
  wf_program ex_all ex_all_exprs = true /\ forallb (fun d => branches_distinct (vd_value d)) (p_defs ex_all) = true /\
  forallb (fun d => letrec_fns (vd_value d)) (p_defs ex_all) = true /\
  forallb (fun x => x <? 23) (names_used ex_all) = true /\ verified 23 ex_all [] = true /\
  observed 20 ex_all (map EName ex_all_names) = Ok [OInt 90; OFn; OInt 6].
Proof. vm_compute. auto 7. Qed.
Example ex_all_over : forall e, In e ex_all_exprs -> over_exports ex_all e.
Proof.
  intros e [<-|[<-|[<-|[<-|[]]]]]; [right; intros x Hx; cbn in Hx; destruct Hx as [<-|[<-|[]]]|left|left|left].
  - exists TInt. split; [|repeat constructor]. unfold is_export. cbn [p_defs ex_all]. eexists. eexists. split; [do 3 right; left; reflexivity|]. cbn; auto.
  - exists (TFn [TInt] TInt). split; [|repeat constructor]. eexists. eexists. split; [do 2 right; left; reflexivity|]. cbn; auto.
  - do 2 eexists. split; [reflexivity|]. eexists. eexists. split; [do 3 right; left; reflexivity|]. cbn; auto.
  - do 2 eexists. split; [reflexivity|]. eexists. eexists. split; [left; reflexivity|]. cbn; auto.
  - do 2 eexists. split; [reflexivity|]. eexists. eexists. split; [do 5 right; left; reflexivity|]. cbn; auto.
Qed.
Example ex_all_optimized : exists p' q, optimize_fuel core_verify ex_all_hash 60 true (ex_all, (23, 4)) = Some (p', q) /\
  p' <> ex_all /\ length (p_defs p') = 5 /\
  observed 20 p' ex_all_exprs = Ok [OInt 109; OInt 90; OFn; OInt 6].
Proof. eexists. eexists. split; [vm_compute; reflexivity|]. split; [intros E; discriminate E|]. split; vm_compute; reflexivity. Qed.
