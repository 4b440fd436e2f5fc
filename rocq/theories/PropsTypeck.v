(** Type soundness: C48 (what the type checker accepts is typed), C49 (typed programs do not go wrong),
    C50 (accepted programs do not go wrong). *)
From Verif Require Import SrcEnd SrcFlat GenSpec Verify.
From Verif Require Import TypeckAll TypeckPrefix.
Set Implicit Arguments.

(** ** C48 *)
(** If the type checker reports nothing for any item of a program whose names are resolved and whose
    definitions are annotated, every value has its declared type by the typing rules. *)
Theorem C48_accepted_values_typed k rs out :
  accepted k rs out -> resolved_items rs -> Forall ordinary rs ->
  forall x vars t ex e, In (IVal x vars t ex (inr e)) (map fst out) ->
    exists G, context_ok (map fst out) G /\
      has G (fun c => assoc c (ctors_of (map fst out))) (is_type (types_of (map fst out))) e (scheme [] (irty_of t)).
Proof.
  intros A R O x vars t ex e H. apply (@accepted_whole _ _ _ R) in A. apply in_map_iff in H as (p & Ep & Hp).
  assert (Q : exists r, In r rs /\ check_item k (defs_of rs) r = Done (Some p)).
  { clear - A Hp. revert A. generalize (defs_of rs). intros Gd A. induction A as [|r q rs out E _ IH]; [destruct Hp|].
    destruct Hp as [->|Hp]; [exists r; cbn; auto|]. destruct (IH Hp) as (r' & ? & ?). exists r'. cbn. auto. }
  destruct Q as (r & Hr & E). pose proof (@item_has k rs out A R O r p Hr E) as K. rewrite Ep in K. destruct K as (G & K1 & K2 & _). eauto.
Qed.
Print Assumptions C48_accepted_values_typed.
(** If moreover the type variables of local definitions stay inside them, the program is typed. *)
Theorem C48_accepted_program_typed k rs out :
  accepted k rs out -> resolved_items rs -> Forall ordinary rs -> Forall2 item_keeps rs out -> program_typed (map fst out).
Proof. intros A R. apply accepted_typed with (k := k); auto. apply accepted_whole; auto. Qed.
Print Assumptions C48_accepted_program_typed.

(** ** C49 *)
(** A typed program does not go wrong, with any order of evaluation and any amount of fuel; when it ends, every
    value has the shape of its declared type. *)
Theorem C49_typed_programs_safe root : program_typed (flat root) ->
  Forall (fun i => match i with IImport _ => False | _ => True end) (flat root) ->
  forall o fuel,
  run_source o fuel root <> Panic /\
  forall en, run_source o fuel root = Ok en ->
    forall x vars t ex body, In (IVal x vars t ex body) (flat root) -> exists v, lookup x en = Some v /\ shaped (flat root) t v.
Proof.
  intros P B o fuel. pose proof (@program_safe (flat root) P o fuel B) as K. unfold run_source.
  destruct (srun _ _ _ _ _) as [en| | |]; split; try discriminate; try contradiction.
  intros en' E. injection E as <-. intros x vars t ex body H. exact (K x vars t ex body H).
Qed.
Print Assumptions C49_typed_programs_safe.

(** ** C50 *)
Theorem C50_accepted_programs_safe k rs out root :
  accepted k rs out -> resolved_items rs -> Forall ordinary rs -> Forall2 item_keeps rs out -> flat root = map fst out ->
  forall o fuel,
  run_source o fuel root <> Panic /\
  forall en, run_source o fuel root = Ok en ->
    forall x vars t ex body, In (IVal x vars t ex body) (flat root) -> exists v, lookup x en = Some v /\ shaped (flat root) t v.
Proof.
  intros A R O K F. apply C49_typed_programs_safe; rewrite F.
  - eapply C48_accepted_program_typed; eauto.
  - eapply accepted_basic; eauto. apply accepted_whole; eauto.
Qed.
Print Assumptions C50_accepted_programs_safe.
(** The same for the code generated from it, if no fold runs over a value inside a fold (finding 17). *)
Theorem C50_generated_code_safe k rs out p :
  accepted k rs out -> resolved_items rs -> Forall ordinary rs -> Forall2 item_keeps rs out ->
  (forall x vars t ex e, In (IVal x vars t ex (inr e)) (map fst out) -> plain_folds e = true) ->
  generate_core (map fst out) = Some p ->
  forall o fuel, eval_defs_o o fuel [] (p_defs p) <> Panic.
Proof.
  intros A R O K PF GC o fuel. pose proof (@accepted_whole _ _ _ R A) as A'. pose proof (@accepted_basic k rs out A' O) as B.
  destruct (flat_basic B) as [F _]. pose proof (@C48_accepted_program_typed k rs out A R O K) as P.
  assert (TT : typed (map fst out)) by (constructor; rewrite F; [exact PF|apply (@accepted_apart k rs out A' R O)]).
  destruct (generated_agrees GC (typed_resolved P B) TT) as (tag & N & Rl & _ & AG & _).
  destruct (@C50_accepted_programs_safe k rs out (map fst out) A R O K F o fuel) as [NP _]. specialize (AG o fuel).
  destruct (run_source o fuel (map fst out)), (eval_defs_o o fuel [] (p_defs p)); cbn in AG; try discriminate; try contradiction; congruence.
Qed.
Print Assumptions C50_generated_code_safe.

(** A program that meets the hypotheses: lists with sum and map, a local polymorphic definition.
    [let total : int -> int = \q -> let twice : (a -> a) -> a -> a = \f -> \x -> f (f x);
                       sum (map (\n -> if n < 2 then twice (\m -> m * 3) n else n) (cons 1 (cons q nil)));
     let main : int = total 5] *)
Definition tx_list := RTy 1 [2] [(3, []); (4, [Some (IrNamed 2 []); None])].
Definition tx_sum := RVal 12 (Some ([], IrFn (IrNamed 1 [IrInt]) IrInt)) None
  (inr (RLam true 13 (RMatch (RName 13) [(3, [], RNumber 0); (4, [14; 15], RBinary (RName 14) Ir.Add (RName 15))]))).
Definition tx_map := RVal 30
  (Some ([31; 32], IrFn (IrFn (IrNamed 31 []) (IrNamed 32 [])) (IrFn (IrNamed 1 [IrNamed 31 []]) (IrNamed 1 [IrNamed 32 []])))) None
  (inr (RLam false 33 (RLam true 34 (RMatch (RName 34)
     [(3, [], RName 3); (4, [35; 36], RApply (RApply (RName 4) (RApply (RName 33) (RName 35))) (RName 36))])))).
Definition tx_total := RVal 40 (Some ([], IrFn IrInt IrInt)) (Some [116%N])
  (inr (RLam false 47 (RLet 41 (Some ([42], let A := IrNamed 42 [] in IrFn (IrFn A A) (IrFn A A)))
     (RLam false 43 (RLam false 44 (RApply (RName 43) (RApply (RName 43) (RName 44)))))
     (RApply (RName 12) (RApply (RApply (RName 30)
        (RLam false 45 (RIf (RBinary (RName 45) Less (RNumber 2))
           (RApply (RApply (RName 41) (RLam false 46 (RBinary (RName 46) Multiply (RNumber 3)))) (RName 45)) (RName 45))))
        (RApply (RApply (RName 4) (RNumber 1)) (RApply (RApply (RName 4) (RName 47)) (RName 3)))))))).
Definition tx_main := RVal 48 (Some ([], IrInt)) (Some [109%N]) (inr (RApply (RName 40) (RNumber 5))).
Definition tx := [tx_list; tx_sum; tx_map; tx_total; tx_main].
Definition tx_out := map (fun r => match check_item 100 (defs_of tx) r with Done (Some p) => p | _ => (IImport [], []) end) tx.
Lemma tx_resolved : resolved_items tx.
Proof.
  split.
  - vm_compute. repeat constructor; cbn; intuition discriminate.
  - reflexivity.
  - unfold tx. repeat apply Forall_cons; try apply Forall_nil; cbn; unfold names_in; cbn.
    + intros c fs t [E|[E|[]]] Hf; injection E as <- <-; [destruct Hf|]. destruct Hf as [Hf|[Hf|[]]]; [|discriminate]. injection Hf as <-. cbn. tauto.
    + tauto.
    + tauto.
    + tauto.
    + tauto.
Qed.
Example C50_example :
  accepted 100 tx tx_out /\ resolved_items tx /\ Forall ordinary tx /\ Forall2 item_keeps tx tx_out /\ flat (map fst tx_out) = map fst tx_out /\
  exists en, run_source FnFirst 100 (map fst tx_out) = Ok en /\ lookup 48 en = Some (WInt 14).
Proof.
  split; [vm_compute; repeat split; reflexivity|]. split; [apply tx_resolved|]. split.
  { unfold tx. repeat apply Forall_cons; try apply Forall_nil; cbn; auto. intros c fs [E|[E|[]]]; injection E as <- <-; cbn; unfold max_fields; lia. }
  split.
  { unfold tx, tx_out. cbn [map]. repeat apply Forall2_cons; try apply Forall2_nil; [exact I|..]; vm_compute; repeat split;
      try (intros a y Ha Hy; repeat (destruct Ha as [<-|Ha]; [|]); try destruct Ha; repeat (destruct Hy as [<-|Hy]; [|]); try destruct Hy;
           intros (t & E & H); injection E as <-; cbn in H; tauto). }
  split; [reflexivity|]. eexists. split; vm_compute; reflexivity.
Qed.

(** ** What the hypotheses are for *)
(** Definitions of a program need annotations: [let f = "x"; let g : int = f + 1] is accepted, since another
    item sees the type of [f] as unknown (typeck.rs:21-33 gives a new unknown for it), and goes wrong. *)
Definition na := [RVal 40 None None (inr (RStr [120%N])); RVal 41 (Some ([], IrInt)) (Some [103%N]) (inr (RBinary (RName 40) Ir.Add (RNumber 1)))].
Definition na_out := map (fun r => match check_item 100 (defs_of na) r with Done (Some p) => p | _ => (IImport [], []) end) na.
Theorem C50_missing_annotation_refuted :
  exists rs out, accepted 100 rs out /\ resolved_items rs /\ Forall2 item_keeps rs out /\ flat (map fst out) = map fst out /\
    forall o fuel, 5 <= fuel -> run_source o fuel (map fst out) = Panic.
Proof.
  exists na, na_out. split; [vm_compute; repeat split; reflexivity|]. split.
  { split; [vm_compute; repeat constructor; cbn; intuition discriminate|reflexivity|].
    unfold na. repeat apply Forall_cons; try apply Forall_nil; cbn; unfold names_in; cbn; tauto. }
  split; [vm_compute; repeat constructor; intros; intuition|]. split; [reflexivity|].
  intros o fuel H. do 5 (destruct fuel as [|fuel]; [lia|]). destruct o; vm_compute; reflexivity.
Qed.
Print Assumptions C50_missing_annotation_refuted.

(** The type variables of a local definition must stay inside it: nothing checks that.  In
    [let main : int = let h = \k -> let f : a -> a = \z -> k z; f 1 + (if f true then 1 else 2);
                      h (\w -> if h (\v -> w) == 0 then w else w)]
    the parameter [k] gets the type [a -> a] with the type variable of [f], so [w] and [v] have type [a] although
    they come from uses of [f] at different types: the number [w] is returned as the condition of [if].  The
    program is accepted and goes wrong. *)
Definition esc := [RVal 50 (Some ([], IrInt)) (Some [109%N]) (inr
  (RLet 1 None
    (RLam false 2 (RLet 3 (Some ([4], IrFn (IrNamed 4 []) (IrNamed 4 []))) (RLam false 5 (RApply (RName 2) (RName 5)))
       (RBinary (RApply (RName 3) (RNumber 1)) Ir.Add (RIf (RApply (RName 3) (RBoolean true)) (RNumber 1) (RNumber 2)))))
    (RApply (RName 1) (RLam false 6 (RIf (RBinary (RApply (RName 1) (RLam false 7 (RName 6))) Ir.Equal (RNumber 0)) (RName 6) (RName 6))))))].
Definition esc_out := map (fun r => match check_item 100 (defs_of esc) r with Done (Some p) => p | _ => (IImport [], []) end) esc.
Theorem C50_escaping_type_variable_refuted :
  exists rs out p, accepted 100 rs out /\ resolved_items rs /\ Forall ordinary rs /\ flat (map fst out) = map fst out /\
    (forall o fuel, 30 <= fuel -> run_source o fuel (map fst out) = Panic) /\
    generate_core (map fst out) = Some p /\ verified 4000 p [] = false.
Proof.
  exists esc, esc_out. eexists. split; [vm_compute; repeat split; reflexivity|]. split.
  { split; [vm_compute; repeat constructor; cbn; intuition discriminate|reflexivity|].
    unfold esc. repeat apply Forall_cons; try apply Forall_nil; cbn; unfold names_in; cbn; tauto. }
  split; [repeat constructor|]. split; [reflexivity|]. split.
  { intros o fuel H. do 30 (destruct fuel as [|fuel]; [lia|]). destruct o; vm_compute; reflexivity. }
  split; vm_compute; reflexivity.
Qed.
Print Assumptions C50_escaping_type_variable_refuted.
