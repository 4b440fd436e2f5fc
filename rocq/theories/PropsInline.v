(** Properties of the pass that inlines definitions: C16. *)
From Verif Require Import EvalFacts Orders Compile Wf Vm OptEv OptRel OptWalk OptGood OptPasses OptProg OptInline OptInlineOk OptInlineTotal PropsOpt.

(** [nn] and [nt] are the next fresh name and type variable.  Every name of the program was given out before,
    so it comes before [nn]. *)
Definition names_used (p : program) : list name :=
  map vd_name (p_defs p) ++ flat_map (fun d => binders (vd_value d)) (p_defs p).

(** C16.  Every result is kept. *)
Theorem C16_inline :
  forall (fuel nn nt : nat) (p p' : program) (nn' nt' : nat) (exprs : list expr),
    wf_program p exprs = true -> (forall x, In x (names_used p) -> x < nn) ->
    inline_fuel fuel nn nt p = Some (p', (nn', nt')) -> same_results p p' exprs.
Proof.
  intros fuel nn nt p p' nn' nt' exprs Hw Hb H. apply kept_same.
  destruct (@inline_ok fuel nn nt p p' nn' nt' exprs (wf_ok _ _ Hw) Hb H) as (R & _). exact R.
Qed.
Print Assumptions C16_inline.

(** The walk over the program as it grows ends, and with enough fuel the result does not depend on the fuel. *)
Theorem C16_inline_terminates :
  forall (nn nt : nat) (p : program) (exprs : list expr),
    wf_program p exprs = true -> (forall x, In x (names_used p) -> x < nn) ->
    exists fuel r, forall k, fuel <= k -> inline_fuel k nn nt p = Some r.
Proof.
  intros nn nt p exprs Hw Hb. destruct (@inline_total nn nt p (wf_ok _ _ Hw) Hb) as (fuel & r & E).
  exists fuel, r. intros k Hk. eapply inline_up; eauto.
Qed.
Print Assumptions C16_inline_terminates.

(** The result still binds every name once and uses it in its scope, its new names are fresh, and its
    definitions have the names, export names and types they had. *)
Theorem C16_inline_names :
  forall (fuel nn nt : nat) (p p' : program) (nn' nt' : nat) (exprs : list expr),
    wf_program p exprs = true -> (forall x, In x (names_used p) -> x < nn) ->
    inline_fuel fuel nn nt p = Some (p', (nn', nt')) ->
    scoped_defs [] (p_defs p') = true /\ NoDup (names_used p') /\ nn <= nn' /\ (forall x, In x (names_used p') -> x < nn') /\
    p_types p' = p_types p /\
    map (fun d => (vd_name d, vd_export d, vd_ty d)) (p_defs p') = map (fun d => (vd_name d, vd_export d, vd_ty d)) (p_defs p).
Proof.
  intros fuel nn nt p p' nn' nt' exprs Hw Hb H.
  destruct (@inline_ok fuel nn nt p p' nn' nt' exprs (wf_ok _ _ Hw) Hb H) as (_ & (O1 & O2 & _) & Hn & Hb' & Ht & HF & _).
  split; [exact O1|]. split; [exact O2|]. split; [exact Hn|]. split; [exact Hb'|]. split; [exact Ht|].
  clear - HF. induction HF as [|d d' ds ds' (E1 & E2 & E3) _ IH]; simpl; auto. f_equal; auto. congruence.
Qed.
Print Assumptions C16_inline_names.

(** A program in which a copied definition is inlined into itself twice, under a binder, and a small [let]. *)
Definition ex_inl : program := mkProgram []
  [mkValDef 1 None (TFn [TInt] (TFn [TInt] TInt)) (ELam [(2, TInt)] (ELam [(3, TInt)] (EOp (EName 2) Subtract (EName 3))));
   mkValDef 4 None (TFn [TInt] TInt) (ELam [(5, TInt)] (ELet 6 (ECall (EName 1) [EName 5]) (ECall (EName 6) [EInt 1])));
   mkValDef 7 (Some [97%N]) (TFn [TInt] TInt) (ELam [(8, TInt)] (ECall (ECall (EName 1) [ECall (EName 4) [EName 8]]) [ECall (EName 4) [EInt 3]]));
   mkValDef 9 (Some [98%N]) TInt (ECall (EName 7) [EInt 12])].
Example ex_inl_wf : wf_program ex_inl [EName 9] = true /\ forallb (fun x => x <? 10) (names_used ex_inl) = true.
Proof. split; reflexivity. Qed.
Example ex_inl_runs : observed 5 ex_inl [EName 9] = Ok [OInt 9]. Proof. reflexivity. Qed.
Example ex_inl_changes : exists p' q, inline_fuel 20 10 0 ex_inl = Some (p', q) /\ p' <> ex_inl /\ observed 9 p' [EName 9] = Ok [OInt 9].
Proof. eexists. eexists. split; [vm_compute; reflexivity|]. split; [intros E; vm_compute in E; discriminate E|]. reflexivity. Qed.
