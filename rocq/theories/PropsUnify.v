(** Properties of type unification: C21, C22, C23.  [ureach u]: [u] is a state of the unifier between two
    operations of the type checker; [resolves u i t]: type index [i] stands for the finite type [t]
    (UnifySpec.v). *)
From Coq Require Import Permutation.
From Verif Require Import Unify UnifySpec UnifyProofs UnifyFacts.

(** C21.  When unification succeeds, the two types resolve to types that agree: equal except that the
    error type agrees with anything; without errors they are equal. *)
Theorem C21_unify_sound :
  forall (u : uni) (a b k : nat) (u' : uni),
    ureach u -> a < length (slots u) -> b < length (slots u) ->
    tc_unify k u a b = Done (u', true) ->
    exists ta tb, resolves u' a ta /\ resolves u' b tb /\ agree ta tb /\
      (error_free ta -> error_free tb -> ta = tb).
Proof.
  intros u a b k u' H Ha Hb E. destruct (ureach_inv H) as [Hp Hi].
  destruct (inv_acyc Hi Ha) as [t1 H1]. destruct (inv_acyc Hi Hb) as [t2 H2].
  destruct (tc_spec Hi Hp _ H1 H2 E) as (_ & _ & _ & _ & f & R & A & _).
  exists (subst f t1), (subst f t2). split; auto. split; auto. split; auto. intros; apply agree_eq; auto.
Qed.
Print Assumptions C21_unify_sound.

(** C21.  Whatever an operation does, all types only become more specific by one substitution of
    unknowns; so types that agreed (or were equal) still do. *)
Theorem C21_earlier_equations_stay :
  forall (u : uni) (a b k : nat) (u' : uni) (r : bool),
    ureach u -> a < length (slots u) -> b < length (slots u) ->
    tc_unify k u a b = Done (u', r) ->
    (exists f, forall i t, resolves u i t -> resolves u' i (subst f t)) /\
    (forall i j ti tj, resolves u i ti -> resolves u j tj -> agree ti tj ->
       exists ti' tj', resolves u' i ti' /\ resolves u' j tj' /\ agree ti' tj' /\ (ti = tj -> ti' = tj')).
Proof.
  intros u a b k u' r H Ha Hb E. destruct (ureach_inv H) as [Hp Hi].
  destruct (inv_acyc Hi Ha) as [t1 H1]. destruct (inv_acyc Hi Hb) as [t2 H2].
  destruct (tc_spec Hi Hp _ H1 H2 E) as (_ & _ & _ & _ & f & R & _).
  split; [exists f; auto|]. intros i j ti tj Ri Rj Hag. exists (subst f ti), (subst f tj).
  split; auto. split; auto. split; [apply agree_subst; auto|congruence].
Qed.
Print Assumptions C21_earlier_equations_stay.

(** C21.  Completeness and principality: for types without errors, if some substitution makes the two
    types equal, unification succeeds and its solution is the most general one. *)
Theorem C21_unify_complete :
  forall (u : uni) (a b k : nat) (u' : uni) (r : bool) (ta tb : term) (s : nat -> term),
    ureach u -> resolves u a ta -> resolves u b tb -> error_free ta -> error_free tb ->
    subst s ta = subst s tb ->
    tc_unify k u a b = Done (u', r) ->
    r = true /\
    exists f, (forall i t, resolves u i t -> resolves u' i (subst f t)) /\
              (forall t, subst s (subst f t) = subst s t).
Proof.
  intros u a b k u' r ta tb s H Ha Hb Ea Eb Es E. destruct (ureach_inv H) as [Hp Hi].
  destruct (tc_spec Hi Hp _ Ha Hb E) as (_ & _ & _ & _ & f & R & _ & _ & M).
  destruct (M Ea Eb s Es). split; auto. exists f. auto.
Qed.
Print Assumptions C21_unify_complete.

(** C21.  Types that agree already, in particular anything and an already reported error, always unify. *)
Theorem C21_agreeing_types_unify :
  forall (u : uni) (a b k : nat) (u' : uni) (r : bool) (ta tb : term),
    ureach u -> resolves u a ta -> resolves u b tb -> agree ta tb ->
    tc_unify k u a b = Done (u', r) -> r = true.
Proof.
  intros u a b k u' r ta tb H Ha Hb HA E. destruct (ureach_inv H) as [Hp Hi].
  unfold tc_unify in E. apply obind_done in E as ([u1 r1] & E1 & E).
  pose proof (unify_agree _ Hi Ha Hb HA E1) as ->. cbn in E. congruence.
Qed.
Print Assumptions C21_agreeing_types_unify.

(** C21.  Instantiating a scheme yields exactly the scheme with its variables replaced, and does not
    change any other type. *)
Theorem C21_instantiate_correct :
  forall (t : irty) (u : uni) (vars : list (nat * nat)) (vs : list (nat * term)) (u' : uni) (i : nat),
    ureach u -> no_infer t = true ->
    Forall2 (fun p q => fst p = fst q /\ snd p < length (slots u) /\ resolves u (snd p) (snd q)) vars vs ->
    instantiate u t vars = (u', i) ->
    ureach u' /\ resolves u' i (scheme vs t) /\ (forall j tj, resolves u j tj -> resolves u' j tj).
Proof.
  intros t u vars vs u' i H Hn Hv E. destruct (instantiate_spec _ H Hv Hn E) as (A & [_ B] & _ & D). auto.
Qed.
Print Assumptions C21_instantiate_correct.

(** C22.  A failed attempt changes nothing. *)
Theorem C22_failure_leaves_no_trace :
  forall (u : uni) (a b k : nat) (u' : uni),
    ureach u -> a < length (slots u) -> b < length (slots u) ->
    tc_unify k u a b = Done (u', false) -> u' = u.
Proof.
  intros u a b k u' H Ha Hb E. destruct (ureach_inv H) as [Hp Hi].
  destruct (inv_acyc Hi Ha) as [t1 H1]. destruct (inv_acyc Hi Hb) as [t2 H2].
  destruct (tc_spec Hi Hp _ H1 H2 E) as (_ & _ & _ & F & _). auto.
Qed.
Print Assumptions C22_failure_leaves_no_trace.

(** C22.  A successful attempt is stored completely, whatever the iteration order of the hash map. *)
Theorem C22_commit_order_irrelevant :
  forall (u : uni) (a b k : nat) (u1 : uni) (r : bool) (l : list (nat * slot)),
    ureach u -> a < length (slots u) -> b < length (slots u) ->
    unify k u a b = Done (u1, r) -> Permutation (pending u1) l ->
    commit_in u1 l = commit u1 /\ pending (commit u1) = [] /\ forall i, get (commit u1) i = get u1 i.
Proof.
  intros u a b k u1 r l H Ha Hb E Hl. destruct (ureach_inv H) as [Hp Hi].
  destruct (inv_acyc Hi Ha) as [t1 H1]. destruct (inv_acyc Hi Hb) as [t2 H2].
  destruct (unify_spec _ Hi H1 H2 E) as [f F]. split; [apply commit_order; auto; apply F|]. split; auto.
  intros i. apply commit_get, F.
Qed.
Print Assumptions C22_commit_order_irrelevant.

(** C23.  In every reachable state every type is one finite type. *)
Theorem C23_types_finite :
  forall (u : uni) (i : nat), ureach u -> i < length (slots u) ->
    exists t, resolves u i t /\ forall t', resolves u i t' -> t' = t.
Proof.
  intros u i H Hl. destruct (ureach_inv H) as [_ Hi]. destruct (inv_acyc Hi Hl) as [t Ht].
  exists t. split; auto. intros t' Ht'. eapply resolves_fun; eauto.
Qed.
Print Assumptions C23_types_finite.

(** C23.  Hence every operation terminates: unification, tainting, and converting to a printable type,
    which yields exactly the finite type (it panics only for an application of something that is not a
    named type, which kind checking excludes). *)
Theorem C23_operations_terminate :
  forall (u : uni) (a b : nat), ureach u -> a < length (slots u) -> b < length (slots u) ->
    (exists k r, tc_unify k u a b = Done r) /\
    (exists k u', taint k u a = Done u') /\
    (exists t k0, resolves u a t /\ forall k, k0 <= k ->
       to_ir k u a = match ir_of t with Some x => Done x | None => Bad end).
Proof.
  intros u a b H Ha Hb. destruct (ureach_inv H) as [Hp Hi].
  destruct (inv_acyc Hi Ha) as [t1 H1]. destruct (inv_acyc Hi Hb) as [t2 H2]. split; [|split].
  - destruct (@unify_term (infers u) (tsize t1) u a b t1 t2 (le_n _) (le_n _) Hi H1 H2) as (k & r & E).
    exists k. unfold tc_unify. rewrite E. cbn. destruct (snd r); eauto.
  - eapply taint_term; eauto.
  - destruct (@to_ir_spec (tsize t1) u a t1 (le_n _) H1) as (k0 & Hk). eauto.
Qed.
Print Assumptions C23_operations_terminate.

(** Two unified error-free types are reported identically. *)
Theorem C21_unified_types_print_alike :
  forall (u : uni) (a b k : nat) (u' : uni) (ta tb : term),
    ureach u -> resolves u a ta -> resolves u b tb -> error_free ta -> error_free tb ->
    tc_unify k u a b = Done (u', true) ->
    exists k0, forall k', k0 <= k' -> to_ir k' u' a = to_ir k' u' b.
Proof.
  intros u a b k u' ta tb H Ha Hb Ea Eb E. destruct (ureach_inv H) as [Hp Hi].
  destruct (tc_spec Hi Hp _ Ha Hb E) as (_ & _ & _ & _ & f & R & A & F & _).
  assert (Eq : subst f ta = subst f tb) by (apply agree_eq; auto).
  destruct (to_ir_spec (le_n _) (R _ _ Ha)) as (k1 & K1). destruct (to_ir_spec (le_n _) (R _ _ Hb)) as (k2 & K2).
  exists (Nat.max k1 k2). intros k' Hk. rewrite K1, K2 by lia. rewrite Eq. auto.
Qed.
Print Assumptions C21_unified_types_print_alike.

(** The hypotheses are met: [a -> b] unified with [int -> c], then a failing attempt [b ~ b -> b]. *)
Definition ex_u : uni :=
  mkUni [Infer; Infer; STy (TyFn 0 1); STy TyInt; Infer; STy (TyFn 3 4); STy (TyFn 1 1)] [].
Example ex_reach : ureach ex_u.
Proof.
  change (ureach (fst (allocate (fst (allocate (fst (fresh_var (fst (allocate (fst (allocate (fst (fresh_var (fst (fresh_var new_uni))))
    (TyFn 0 1))) TyInt)))) (TyFn 3 4))) (TyFn 1 1)))).
  repeat first [apply ur_alloc; [|cbn; lia || auto] | apply ur_fresh | apply ur_new].
Qed.
Example ex_unify : exists u', tc_unify 10 ex_u 2 5 = Done (u', true) /\ to_ir 10 u' 2 = Done (IrFn IrInt IrInfer) /\
  tc_unify 10 u' 4 6 = Done (u', false).
Proof. eexists. split; [vm_compute; reflexivity|]. split; vm_compute; reflexivity. Qed.
