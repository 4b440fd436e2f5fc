(** Properties of the code generator: C44 (generated programs mean what the source says). *)
From Verif Require Import EvalFacts Orders Wf Vm Lambda LambdaProofs Verify VerifyNames VerifyLimit OptEv OptRel OptWalk OptGood OptPasses OptProg OptDce OptInline OptInlineOk OptSaturate OptSatDefs OptAll OptAllOk PropsOpt PropsInline PropsSaturate PropsOptAll GenItems PropsGen SrcEnd SrcSpec.
From Coq Require Import Permutation.
Set Implicit Arguments.

(** ** C44 *)
(** Running the definitions generated from a program ends as running the program does: with the same trap, not
    at all, or with environments in which every value of the program, constructors included, is represented
    under a name of its own; and the definitions that are exported, under the names they are exported as, are
    those that the root module exports. *)
Theorem C44_generated_code_means_source root p :
  generate_core root = Some p -> resolved root -> typed root ->
  exists tag N R, represents root tag R /\
    (forall o n, agree (env_agrees root N R) (run_source o n root) (eval_defs_o o n [] (p_defs p))) /\
    (forall x vars t nm body, In (IVal x vars t (Some nm) body) root ->
       exists d, In d (p_defs p) /\ vd_export d = Some nm /\ vd_name d = N x) /\
    (forall d nm, In d (p_defs p) -> vd_export d = Some nm ->
       exists x vars t body, In (IVal x vars t (Some nm) body) root /\ vd_name d = N x).
Proof. apply generated_agrees. Qed.
Print Assumptions C44_generated_code_means_source.

(** What is printed of a source value: functions are not looked into. *)
Fixpoint source_obs (tag : bool -> sym -> name) (v : sval) : obs :=
  match v with
  | WInt i => OInt i | WBool b => OBool b | WStr s => OString s
  | WCon f c fs => OComp (tag f c) (map (source_obs tag) fs)
  | _ => OFn
  end.
Section SvalInd.
  Variable P : sval -> Prop.
  Hypothesis HCon : forall f c fs, Forall P fs -> P (WCon f c fs).
  Hypothesis HOther : forall v, (forall f c fs, v <> WCon f c fs) -> P v.
  Fixpoint sval_ind_fields (v : sval) : P v.
  Proof.
    refine (match v as v' return P v' with
      | WCon f c fs => HCon f c ((fix go l : Forall P l := match l with [] => Forall_nil _ | x :: r => Forall_cons _ (sval_ind_fields x) (go r) end) fs)
      | _ => _ end); apply HOther; discriminate.
  Qed.
End SvalInd.
Lemma represents_obs root tag R : represents root tag R -> forall v v', R v v' -> obs_value v' = source_obs tag v.
Proof.
  intros [_ RI RB RS RC RF _]. induction v as [f c fs IH|v Hv] using sval_ind_fields; intros v' HR.
  - apply RC in HR as (_ & fs' & -> & F). simpl. f_equal. clear - IH F. induction F; simpl; auto. inversion IH; subst. f_equal; auto.
  - destruct v; try (apply RI in HR; subst; reflexivity); try (apply RB in HR; subst; reflexivity); try (apply RS in HR; subst; reflexivity).
    + destruct (Hv folded c fs eq_refl).
    + apply RF in HR; [|reflexivity]. destruct HR as (? & ? & ? & ? & ->). reflexivity.
    + apply RF in HR; [|reflexivity]. destruct HR as (? & ? & ? & ? & ->). reflexivity.
    + apply RF in HR; [|reflexivity]. destruct HR as (? & ? & ? & ? & ->). reflexivity.
    + apply RF in HR; [|reflexivity]. destruct HR as (? & ? & ? & ? & ->). reflexivity.
    + apply RF in HR; [|reflexivity]. destruct HR as (? & ? & ? & ? & ->). reflexivity.
Qed.

(** From source to machine: when the source program runs to its end, its exports, printed by the bytecode
    machine or by the lambda runner after optimisation, are the values of the source. *)
Theorem C44_source_to_bytecode :
  forall (hash : state -> N) (fuel : nat) (opt : bool) (root : list item) (p p' : program) (nn nt nn' nt' : nat) (n : nat) (en : senv),
    generate_core root = Some p -> resolved root -> typed root ->
    verified nn p [] = true -> forallb (fun d => branches_distinct (vd_value d)) (p_defs p) = true ->
    optimize_fuel core_verify hash fuel opt (p, (nn, nt)) = Some (p', (nn', nt')) ->
    run_source FnFirst n root = Ok en ->
    exists (tag : bool -> sym -> name) (N : sym -> name),
      (forall f1 c1 f2 c2, In c1 (constructors root) -> In c2 (constructors root) -> tag f1 c1 = tag f2 c2 -> f1 = f2 /\ c1 = c2) /\
      (forall x vars t nm body, In (IVal x vars t (Some nm) body) root ->
         exists t', In (N x, nm, t') (exports_of p')) /\
      forall xs, (forall x, In x xs -> exists vars t nm body, In (IVal x vars t (Some nm) body) root) ->
        exists vs, Forall2 (fun x v => lookup x en = Some v) xs vs /\
          (exists k, forall k', k <= k' -> bytecode k' p' (map EName (map N xs)) = Ok (map (source_obs tag) vs)) /\
          (exists k, forall ord, (forall e l, Permutation (ord e l) l) ->
             lambda_obs ord k p' (map EName (map N xs)) = Ok (map (source_obs tag) vs)).
Proof.
  intros hash fuel opt root p p' nn nt nn' nt' n en HG HR HT HV HD HO Hrun.
  destruct (@generated_agrees root p HG HR HT) as (tag & N & R & RP & AG & X1 & X2).
  pose proof (@C43_generated_program_well_formed root p HG HR) as HW.
  assert (Hb : forall x, In x (names_used p) -> x < nn) by (apply (@verified_below nn p [] HV)).
  assert (HL : forallb (fun d => letrec_fns (vd_value d)) (p_defs p) = true).
  { destruct (i_ok (start_inv _ _ _ HW HD Hb)) as (_ & _ & Hr). rewrite forallb_forall in *. intros d Hin. apply recs_letrec. auto. }
  exists tag, N. split; [apply (rp_tag RP)|]. split.
  - intros x vars t nm body Hin. destruct (X1 _ _ _ _ _ Hin) as (d & Hd & He & Hn).
    destruct (@C17_optimize_exports core_verify hash fuel opt p p' nn nt nn' nt' [] HW HD Hb HO) as (_ & _ & _ & _ & _ & F).
    assert (Hi : In (N x, nm, vd_ty d) (exports_of p)).
    { unfold exports_of. apply in_flat_map. exists d. split; auto. rewrite He, Hn. left; auto. }
    clear - F Hi. induction F as [|a [b t'] l l' [E _] _ IH]; [destruct Hi|]. destruct Hi as [->|Hi].
    + exists t'. left. simpl in *. congruence.
    + destruct (IH Hi) as [t2 Ht]. exists t2. right; auto.
  - intros xs Hxs. specialize (AG FnFirst n). rewrite Hrun in AG.
    destruct (eval_defs_o FnFirst n [] (p_defs p)) as [en'| | |] eqn:ED; try contradiction. simpl in AG.
    assert (HVS : exists vs vs', Forall2 (fun x v => lookup x en = Some v) xs vs /\
                    mapM (eval_o FnFirst n en') (map EName (map N xs)) = Ok vs' /\ map obs_value vs' = map (source_obs tag) vs).
    { clear - AG Hxs RP X1 HR. induction xs as [|x xs IH]; [exists [], []; simpl; auto|].
      destruct IH as (vs & vs' & F & E & O); [intros y Hy; apply Hxs; right; auto|].
      assert (Hv : In x (values (flat root))).
      { destruct (Hxs x (or_introl eq_refl)) as (vars & t & nm & body & Hin).
        clear - Hin. assert (G : forall seen, In (IVal x vars t (Some nm) body) (fst (flat_items seen root))).
        { induction root as [|i root IH]; [destruct Hin|]. intros seen. cbn [flat_items fst]. apply in_or_app. destruct Hin as [->|Hin]; [left; simpl; auto|right; apply IH; auto]. }
        unfold values. apply in_flat_map. eexists. split; [apply G|]. simpl. auto. }
      destruct (AG x Hv) as (v & v' & L1 & L2 & Hr). exists (v :: vs), (v' :: vs'). split; [constructor; auto|]. split.
      - cbn [map]. rewrite mapM_cons, eval_unfold. cbn [eval_eqn]. rewrite L2. cbn [bind]. rewrite E. auto.
      - simpl. f_equal; auto. eapply represents_obs; eauto. }
    destruct HVS as (vs & vs' & F & E & O). exists vs. split; [exact F|].
    eapply (@C17_verified_pipeline hash fuel opt p p' nn nt nn' nt' (map N xs) n); eauto.
    + intros m Hm. apply in_map_iff in Hm as (x & <- & Hx). destruct (Hxs x Hx) as (vars & t & nm & body & Hin).
      destruct (X1 _ _ _ _ _ Hin) as (d & Hd & He & Hn). exists (vd_ty d), d, nm. auto.
    + unfold observed, treewalk, run_o. rewrite ED. cbn [bind]. rewrite E. cbn [bind]. rewrite O. auto.
Qed.
Print Assumptions C44_source_to_bytecode.

(** The example of C43 (three modules, a fold over a list): everything above applies to it, its export is 3,
    and the optimised program prints 3. *)
Lemma ex_root_typed : typed ex_root.
Proof.
  split.
  - intros x vars t ex e. vm_compute. intros H.
    repeat (destruct H as [H|H]; [try discriminate; injection H; intros; subst; reflexivity|]). destruct H.
  - intros y i Hi Hy. vm_compute in Hy. destruct Hy as [<-|[]].
    vm_compute in Hi. repeat (destruct Hi as [<-|Hi]; [vm_compute; lia|]). destruct Hi.
Qed.
Definition ex_hash (s : state) : N := N.of_nat (length (p_defs (fst s))).
Example C44_example : exists p p' q en,
  generate_core ex_root = Some p /\ resolved ex_root /\ typed ex_root /\ verified 100 p [] = true /\
  forallb (fun d => branches_distinct (vd_value d)) (p_defs p) = true /\
  optimize_fuel core_verify ex_hash 60 true (p, (100, 100)) = Some (p', q) /\
  (forall n, 5 <= n -> run_source FnFirst n ex_root = Ok en) /\ lookup 20 en = Some (WInt 3) /\
  length (p_defs p) = 4 /\ length (p_defs p') = 1.
Proof.
  eexists _, _, _, _. split; [vm_compute; reflexivity|]. split; [apply ex_resolved|]. split; [apply ex_root_typed|].
  split; [vm_compute; reflexivity|]. split; [vm_compute; reflexivity|]. split; [vm_compute; reflexivity|].
  split; [intros n Hn; do 5 (destruct n as [|n]; [lia|]); vm_compute; reflexivity|].
  split; [vm_compute; reflexivity|]. split; vm_compute; reflexivity.
Qed.

(** Iteration, strings, if, let and a hole: [twice x = iterate 2 (\s -> concat s s) x], and a program that
    stops at its hole, in both orders. *)
Definition ex_ops : list item :=
  [IVal 1 [2] SInt None (inl BIterate); IVal 3 [] SInt None (inl (BStr StringConcat));
   IVal 4 [] (SFn SString SString) (Some [102%N])
     (inr (SLam 5 [] SString
        (SApply (SApply (SApply (SName 1 [SString]) (SNumber 2))
           (SLam 6 [] SString (SPipe (SName 6 []) (SApply (SName 3 []) (SName 6 []))))) (SName 5 []))));
   IVal 7 [] SString (Some [103%N])
     (inr (SLet 8 [] (SApply (SName 4 []) (SStr [120%N])) (SIf (SBinary (SNumber 2) Less (SNumber 1)) (SHole [95%N] SString) (SName 8 []))))].
Definition ex_hole : list item :=
  ex_ops ++ [IVal 9 [] SInt (Some [104%N]) (inr (SBinary (SNumber 1) Add (SHole [95%N; 120%N] SInt)))].
Lemma ex_hole_resolved : resolved ex_hole.
Proof.
  split.
  - intros k a b [].
  - split; [repeat constructor; simpl; lia|intros k a []].
  - split; [intros k a x []|intros k a j b x []].
  - split; [reflexivity|intros k a []].
Qed.
Lemma ex_hole_typed : typed ex_hole.
Proof.
  split.
  - intros x vars t ex e. vm_compute. intros H.
    repeat (destruct H as [H|H]; [try discriminate; injection H; intros; subst; reflexivity|]). destruct H.
  - intros y i Hi Hy. vm_compute in Hy. destruct Hy.
Qed.
Example C44_example_trap : exists p en m,
  generate_core ex_hole = Some p /\ resolved ex_hole /\ typed ex_hole /\
  run_source FnFirst 10 ex_ops = Ok en /\ lookup 7 en = Some (WStr [120%N; 120%N; 120%N; 120%N]) /\
  run_source FnFirst 10 ex_hole = Trap m /\ eval_defs_o FnFirst 10 [] (p_defs p) = Trap m.
Proof.
  eexists _, _, _. split; [vm_compute; reflexivity|]. split; [apply ex_hole_resolved|]. split; [apply ex_hole_typed|].
  split; [vm_compute; reflexivity|]. split; [vm_compute; reflexivity|]. split; vm_compute; reflexivity.
Qed.

(** Folding a value that a fold is inside of: [\fold x -> (\fold y -> 5) x], which the type checker accepts
    (typeck.rs:572-591: the parameter of a fold may have any type, a folded one too), is generated as a match
    over the wrong constructors: the verifier rejects the generated program, and every runner panics on it.
    This is why [typed] asks for plain folds. *)
Definition ex_ff_body : sexpr := SApply (SFold (SFn (SFolded (SNamed 1 [SInt]) SInt) SInt) 14 (SNumber 5)) (SName 13 []).
Definition ex_ff : list item :=
  [ex_list; IVal 12 [] ex_sum_ty None (inr (SFold ex_sum_ty 13 ex_ff_body));
   IVal 20 [] SInt (Some [97%N]) (inr (SApply (SName 12 []) (SName 3 [SInt])))].
Lemma ex_ff_resolved : resolved ex_ff.
Proof.
  split.
  - intros k a b [].
  - split; [repeat constructor; simpl; lia|intros k a []].
  - split; [intros k a x []|intros k a j b x []].
  - split; [reflexivity|intros k a []].
Qed.
Theorem C44_fold_of_folded_value_refuted :
  exists root p, resolved root /\ generate_core root = Some p /\ verified 4000 p [] = false /\
    (forall n, 5 <= n -> treewalk n p [] = Panic) /\
    (forall n, 5 <= n -> run_o ArgsFirst n p [] = Panic).
Proof.
  exists ex_ff. eexists. split; [apply ex_ff_resolved|]. split; [vm_compute; reflexivity|]. split; [vm_compute; reflexivity|].
  split; intros n Hn; do 5 (destruct n as [|n]; [lia|]); vm_compute; reflexivity.
Qed.
Print Assumptions C44_fold_of_folded_value_refuted.
