(** Properties of the pass that turns curried functions into functions of several parameters: C15. *)
From Verif Require Import EvalFacts Orders Compile Wf Vm OptEv OptRel OptWalk OptGood OptPasses OptProg OptInline OptInlineOk OptInlineTotal OptSaturate OptSatRel OptSatOk OptSatProg OptSatDefs OptSatTotal PropsOpt PropsInline.

(** How many groups of parameters a function of this type takes one after the other, after its type
    parameters, and the type that takes them all at once. *)
Fixpoint fn_groups (t : ty) : nat := match t with TFn _ o => S (fn_groups o) | _ => 0 end.
Fixpoint arrows (t : ty) : nat := match t with TAbs _ t => arrows t | _ => fn_groups t end.
Fixpoint fn_params (t : ty) : list ty := match t with TFn ps o => ps ++ fn_params o | _ => [] end.
Fixpoint fn_result (t : ty) : ty := match t with TFn _ o => fn_result o | _ => t end.
Fixpoint uncurried (t : ty) : ty := match t with TAbs v t => TAbs v (uncurried t) | _ => TFn (fn_params t) (fn_result t) end.

(** What the compared expressions may be: a name of the program, or any expression over definitions that are
    not curried.  (A curried definition takes its parameters all at once after the pass, so the same call
    from outside means something else before and after.) *)
Definition from_outside (p : program) (e : expr) : Prop :=
  (exists x, e = EName x) \/
  (forall x, In x (fv e) -> exists d, In d (p_defs p) /\ vd_name d = x /\ arrows (vd_ty d) < 2).

Lemma arrows_groups t : arrows t = length (ty_groups (ty_body t)).
Proof. induction t as [| | |v|n ts|ps o IH|v t IH]; cbn [arrows ty_body]; auto. clear IH. generalize (TFn ps o). clear.
  assert (H : forall t, fn_groups t = length (ty_groups t)). { fix go 1. intros [| | | | |ps o|]; simpl; auto. } auto. Qed.
Lemma uncurried_eq t : under_abs collapse_arg_groups t = uncurried t.
Proof.
  assert (H1 : forall t, concat (ty_groups t) = fn_params t). { fix go 1. intros [| | | | |ps o|]; simpl; auto. rewrite go. auto. }
  assert (H2 : forall t, ty_out t = fn_result t). { fix go 1. intros [| | | | |ps o|]; simpl; auto. }
  assert (H : forall t, collapse_arg_groups t = TFn (fn_params t) (fn_result t)). { intros. unfold collapse_arg_groups. rewrite H1, H2. auto. }
  induction t as [| | |v|n ts|ps o IH|v t IH]; cbn [under_abs uncurried]; try apply H. rewrite IH. auto.
Qed.
Lemma outside_direct p e : from_outside p e -> direct p e.
Proof.
  intros [H|H]; [left; auto|right]. intros x Hx. destruct (H x Hx) as (d & H1 & H2 & H3). exists d. repeat split; auto.
  unfold groups_of. rewrite <- arrows_groups. auto.
Qed.

(** C15.  Every result is kept. *)
Theorem C15_saturate :
  forall (fuel nn nt : nat) (p p' : program) (nn' nt' : nat) (exprs : list expr),
    wf_program p exprs = true -> (forall x, In x (names_used p) -> x < nn) ->
    (forall e, In e exprs -> from_outside p e) ->
    saturate_fuel fuel nn nt p = Some (p', (nn', nt')) -> same_results p p' exprs.
Proof.
  intros fuel nn nt p p' nn' nt' exprs Hw Hb He H. apply kept_same.
  destruct (@saturate_ok fuel nn nt p p' nn' nt' (wf_ok _ _ Hw) Hb H) as (R & _). apply R.
  apply Forall_forall. intros e Hin. apply outside_direct. exact (He e Hin).
Qed.
Print Assumptions C15_saturate.

(** The pass ends (its walks are deeper than the program only by the groups of parameters), and with enough
    fuel the result does not depend on the fuel. *)
Theorem C15_saturate_terminates :
  forall (nn nt : nat) (p : program), exists fuel r, forall k, fuel <= k -> saturate_fuel k nn nt p = Some r.
Proof.
  intros nn nt p. destruct (saturate_total nn nt p) as (fuel & r & E).
  exists fuel, r. intros k Hk. eapply saturate_up; eauto.
Qed.
Print Assumptions C15_saturate_terminates.

(** The result still binds every name once and uses it in its scope, its new names are fresh, and its
    definitions have the names and export names they had and the type they had or, if it was curried, the type
    that takes all parameters at once. *)
Theorem C15_saturate_names :
  forall (fuel nn nt : nat) (p p' : program) (nn' nt' : nat) (exprs : list expr),
    wf_program p exprs = true -> (forall x, In x (names_used p) -> x < nn) ->
    saturate_fuel fuel nn nt p = Some (p', (nn', nt')) ->
    scoped_defs [] (p_defs p') = true /\ NoDup (names_used p') /\ nn <= nn' /\ (forall x, In x (names_used p') -> x < nn') /\
    p_types p' = p_types p /\
    Forall2 (fun d d' => vd_name d' = vd_name d /\ vd_export d' = vd_export d /\
      (vd_ty d' = vd_ty d \/ 2 <= arrows (vd_ty d) /\ vd_ty d' = uncurried (vd_ty d))) (p_defs p) (p_defs p').
Proof.
  intros fuel nn nt p p' nn' nt' exprs Hw Hb H.
  destruct (@saturate_ok fuel nn nt p p' nn' nt' (wf_ok _ _ Hw) Hb H) as (_ & (O1 & O2 & _) & Hn & Hb' & Ht & HF & _).
  split; [exact O1|]. split; [exact O2|]. split; [exact Hn|]. split; [exact Hb'|]. split; [exact Ht|].
  clear - HF. induction HF as [|d d' ds ds' (E1 & E2 & E3) _ IH]; constructor; auto. split; [auto|split; [auto|]].
  destruct E3 as [E3|[E3 E4]]; [auto|right]. rewrite arrows_groups, E4, uncurried_eq. auto.
Qed.
Print Assumptions C15_saturate_names.

(** A program with a curried definition, a polymorphic one, a curried recursive function inside and a partial
    application. *)
Definition ex_sat : program := mkProgram []
  [mkValDef 1 (Some [97%N]) (TFn [TInt] (TFn [TInt; TInt] TInt)) (ELam [(2, TInt)] (ELam [(3, TInt); (4, TInt)] (EOp (EName 2) Subtract (EOp (EName 3) Multiply (EName 4)))));
   mkValDef 5 None (TAbs 0 (TAbs 1 (TFn [TVar 0] (TFn [TVar 1] (TVar 0))))) (EPi 0 (EPi 1 (ELam [(6, TVar 0)] (ELam [(7, TVar 1)] (EName 6)))));
   mkValDef 8 (Some [98%N]) (TFn [TInt] TInt) (ELam [(9, TInt)]
     (ELetRec 10 (TFn [TInt] (TFn [TInt] TInt))
       (ELam [(11, TInt)] (ELam [(12, TInt)] (EIf (EOp (EName 11) LessEq (EInt 0)) (EName 12)
          (ECall (ECall (EName 10) [EOp (EName 11) Subtract (EInt 1)]) [EOp (EName 12) Add (EName 9)]))))
       (ECall (ECall (EName 10) [EInt 3]) [EInt 4])));
   mkValDef 13 (Some [99%N]) TInt
     (ELet 14 (ECall (EName 1) [EInt 100]) (ECall (ECall (EPiApp (EPiApp (EName 5) TInt) TInt) [ECall (EName 14) [EInt 2; EInt 5]]) [ECall (EName 8) [EInt 6]]))].
Definition ex_sat_exprs : list expr := [EName 13; EName 1; ECall (EName 8) [EInt 5]].
Example ex_sat_wf : wf_program ex_sat ex_sat_exprs = true /\ forallb (fun x => x <? 15) (names_used ex_sat) = true.
Proof. split; reflexivity. Qed.
Example ex_sat_outside : forall e, In e ex_sat_exprs -> from_outside ex_sat e.
Proof.
  intros e [<-|[<-|[<-|[]]]]; [left; eauto|left; eauto|right].
  intros x [<-|[]]. eexists. split; [right; right; left; reflexivity|]. split; [reflexivity|]. repeat constructor.
Qed.
Example ex_sat_runs : observed 20 ex_sat ex_sat_exprs = Ok [OInt 90; OFn; OInt 19]. Proof. reflexivity. Qed.
Example ex_sat_changes : exists p' q, saturate_fuel 20 15 2 ex_sat = Some (p', q) /\
  map vd_ty (p_defs p') = [TFn [TInt; TInt; TInt] TInt; TAbs 0 (TAbs 1 (TFn [TVar 0; TVar 1] (TVar 0))); TFn [TInt] TInt; TInt] /\
  observed 20 p' ex_sat_exprs = Ok [OInt 90; OFn; OInt 19].
Proof. eexists. eexists. split; [vm_compute; reflexivity|]. split; reflexivity. Qed.
(** Why a call of a curried definition from outside is not compared. *)
Example ex_sat_call : exists p' q, saturate_fuel 20 15 2 ex_sat = Some (p', q) /\
  observed 20 ex_sat [ECall (ECall (EName 1) [EInt 9]) [EInt 2; EInt 3]] = Ok [OInt 3] /\
  observed 20 p' [ECall (ECall (EName 1) [EInt 9]) [EInt 2; EInt 3]] = Panic.
Proof. eexists. eexists. split; [vm_compute; reflexivity|]. split; vm_compute; reflexivity. Qed.
