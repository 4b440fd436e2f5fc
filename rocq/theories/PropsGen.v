(** Properties of the code generator: C39 (iterate), C41 (fold), C43 (names of generated programs). *)
From Verif Require Import FoldSpec GenSpec GenFacts GenNames GenItems IterateOk FoldOk TypeTable EvalFacts Orders StackSpec StackLoops.
From Verif Require Import CompileStatic CompileCorrect VerifyNames Verify.
Set Implicit Arguments.

(** ** C39 *)
(** A call [iterate n f x] of the generated function ends exactly as [n] applications of [f] to [x] do: with
    the last value, or with the first outcome that is not a value; it does not end if they do not. *)
Theorem C39_iterate_applies_n_times s e s' o cenv iv :
  iterate_intrinsic s = Some (e, s') -> ends o cenv e (Ok iv) ->
  forall en ie ne fe xe k fv v r,
  ends o en ie (Ok iv) -> ends o en ne (Ok (VInt k)) -> ends o en fe (Ok fv) -> ends o en xe (Ok v) -> (k < W64)%N ->
  (ends o en (ECall (ECall (ECall ie [ne]) [fe]) [xe]) r <-> iterates (apply_ends o fv) (N.to_nat k) v r).
Proof.
  unfold iterate_intrinsic. intros H He. gb. cbn [g_nn g_nt up_nn up_nt] in *.
  intros en ie ne fe xe k fv v r Hi. destruct He as [_ [m He]].
  assert (E : iv = iterate_val cenv (g_nt s) (g_nn s) (S (g_nn s)) (S (S (g_nn s))) (S (S (S (g_nn s))))
                     (S (S (S (S (g_nn s))))) (S (S (S (S (S (g_nn s))))))).
  { unfold iterate_core in He. rewrite eval_unfold in He. cbn [eval_eqn] in He. rewrite eval_unfold in He. cbn [eval_eqn] in He.
    injection He as <-. reflexivity. }
  subst iv. eapply iterate_ends; eauto. repeat constructor; simpl; lia.
Qed.
Print Assumptions C39_iterate_applies_n_times.

(** The number of activations that are live at once does not depend on [n]: it is at most three more than
    what single applications of [f] and the arguments of the call need. *)
Theorem C39_iterate_constant_nesting s e s' cenv iv m0 :
  iterate_intrinsic s = Some (e, s') -> eval_o ArgsFirst m0 cenv e = Ok iv ->
  forall en ie ne fe xe fv d m self tail,
  (forall m v, snd (apply_d m fv [v]) <= d) ->
  (forall e, In e [ie; ne; fe; xe] -> snd (eval_d m self false en e) <= d) ->
  (forall v, fst (eval_d m self false en ie) = Ok v -> v = iv) ->
  (forall v, fst (eval_d m self false en fe) = Ok v -> v = fv) ->
  snd (eval_d m self tail en (ECall (ECall (ECall ie [ne]) [fe]) [xe])) <= 3 + d.
Proof.
  unfold iterate_intrinsic. intros H He. gb. cbn [g_nn g_nt up_nn up_nt] in *.
  intros en ie ne fe xe fv d m self tail.
  assert (E : iv = iterate_val cenv (g_nt s) (g_nn s) (S (g_nn s)) (S (S (g_nn s))) (S (S (S (g_nn s))))
                     (S (S (S (S (g_nn s))))) (S (S (S (S (S (g_nn s))))))).
  { unfold iterate_core in He. rewrite eval_unfold in He. cbn [eval_eqn] in He. rewrite eval_unfold in He. cbn [eval_eqn] in He.
    injection He as <-. reflexivity. }
  subst iv. apply iterate_nesting. repeat constructor; simpl; lia.
Qed.
Print Assumptions C39_iterate_constant_nesting.

(** Doubling, five times. *)
Definition ex_dbl : expr := ELam [(100, TInt)] (EOp (EName 100) Add (EName 100)).
Example C39_example : exists e s' iv,
  iterate_intrinsic g0 = Some (e, s') /\ ends FnFirst [] e (Ok iv) /\
  ends FnFirst [(50, iv)] (ECall (ECall (ECall (EName 50) [EInt 5]) [ex_dbl]) [EInt 3]) (Ok (VInt 96)).
Proof.
  eexists _, _, _. split; [reflexivity|]. split.
  - split; [discriminate|]. exists 1. reflexivity.
  - split; [discriminate|]. exists 20. vm_compute. reflexivity.
Qed.

(** ** C41 *)
(** The generated fold applied to a value computes the structural recursion over the constructors of the
    type: for some names [real], [temp], [fold] that are different and new, the body, generated with its
    parameter named [real], is run on every node with the recursive fields replaced by the results. *)
Theorem C41_fold_is_structural_recursion t x body s e s' n args out cs :
  gen_expr (SFold t x body) s = Some (e, s') ->
  gen_ty_in s t = Some (TFn [TNamed n args] out) -> lookup n (g_tyctors s) = Some cs ->
  exists body' s1 s2 real temp fold,
    gen_expr body s1 = Some (body', s2) /\ g_names s1 = (x, real) :: g_names s /\ NoDup [real; temp; fold] /\
    (* the body does not see the names the fold uses for itself *)
    (forall D, below s -> sscoped (x :: D) body = true -> NoDup (x :: sbinders body) ->
       (forall y, In y D -> ~ In y (x :: sbinders body)) ->
       exists S, scoped S body' = true /\ ~ In temp S /\ ~ In fold S) /\
    forall o en, exists F, forall ve v r, ends o en ve (Ok v) ->
      (ends o en (ECall e [ve]) (Ok r) <->
       cata (fold_table s cs) (fun v w r => ends o ((real, w) :: (fold, F) :: (temp, v) :: en) body' (Ok r)) v r).
Proof.
  intros HG Ht Hc. destruct (@gen_fold_ok _ _ _ _ _ _ _ _ _ _ HG Ht Hc) as (b' & s1 & s2 & brs & Eb & En & Enn & X & -> & Hbr).
  exists b', s1, s2, (g_nn s), (S (g_nn s)), (S (S (g_nn s))). split; [auto|]. split; [auto|].
  split; [repeat constructor; simpl; lia|]. split.
  - intros D Hb Hs Hn HD. inversion Hn as [|? ? Hx Hn']; subst.
    assert (M : made (sbinders body) (x :: D) s1 s2 b').
    { eapply (@gen_expr_ok body); eauto; [eapply ext_below; eauto|].
      intros y [<-|Hy] Hc'; [auto|]. apply (HD y Hy). right; auto. }
    destruct M as (_ & _ & S1 & _). exists (img s1 (x :: D)). split; [auto|].
    assert (EI : img s1 (x :: D) = g_nn s :: img s D).
    { apply img_new; auto. intros Hc'. apply (HD x Hc'). left; auto. }
    rewrite EI.
    assert (IB : forall m, In m (img s D) -> m < g_nn s) by (intros m; apply img_below; auto).
    split; (intros [Hm|Hm]; [lia|apply IB in Hm; lia]).
  - intros o en. eexists. intros ve v r Hve. eapply fold_ends; eauto.
Qed.
Print Assumptions C41_fold_is_structural_recursion.

(** The constructors a fold runs over are those of the declared type, in order; each is rebuilt with the
    constructor at the same position of the folded type, and the recursive fields are the declared ones. *)
Theorem C41_table_is_the_declaration emit x params cases s u s' :
  emit_item emit (ITy x params cases) s = Some (u, s') ->
  NoDup (x :: map fst cases) -> (forall c, In c (map fst cases) -> lookup c (g_ctors s) = None) ->
  exists dt vars cs dtF varsF csF tcs,
    g_types s' = g_types s ++ [mkTyDef dt vars cs; mkTyDef dtF varsF csF] /\
    NoDup (dt :: map fst cs ++ dtF :: map fst csF) /\
    lookup x (g_names s') = Some dt /\ lookup x (g_folded s') = Some dtF /\
    lookup dt (g_tyctors s') = Some tcs /\ lookup dtF (g_tyctors s') = Some tcs /\
    length cs = length cases /\ length csF = length cases /\
    fold_table s' tcs = combine (map fst cs) (combine (map fst csF) (map (fun c => map is_rec (snd c)) cases)).
Proof. apply type_item_table. Qed.
Print Assumptions C41_table_is_the_declaration.

(** [type List a = | Nil | Cons a rec]; the sum of a list. *)
Definition ex_list : item := ITy 1 [2] [(3, []); (4, [Some (SNamed 2 []); None])].
Definition ex_sum_ty : sty := SFn (SNamed 1 [SInt]) SInt.
Definition ex_sum_body : sexpr :=
  SMatch true (SName 13 []) [(3, [], SNumber 0); (4, [14; 15], SBinary (SName 14 []) Add (SName 15 []))].
Definition ex_sum : sexpr := SFold ex_sum_ty 13 ex_sum_body.
Definition ex_state : gst := match emit_item true ex_list g0 with Some (_, s) => s | None => g0 end.
(** Constructors in the example: [2] and [3] are those of the list. *)
Example C41_example : exists e s' cs nil cons,
  emit_item true ex_list g0 = Some (tt, ex_state) /\
  gen_expr ex_sum ex_state = Some (e, s') /\
  gen_ty_in ex_state ex_sum_ty = Some (TFn [TNamed 0 [TInt]] TInt) /\ lookup 0 (g_tyctors ex_state) = Some cs /\
  map fst (fold_table ex_state cs) = [nil; cons] /\
  map (fun e => snd (snd e)) (fold_table ex_state cs) = [[]; [false; true]] /\
  ends FnFirst [(99, VComp cons [VInt 3; VComp cons [VInt 4; VComp nil []]])] (ECall e [EName 99]) (Ok (VInt 7)).
Proof.
  eexists _, _, _, _, _. split; [vm_compute; reflexivity|]. split; [vm_compute; reflexivity|].
  split; [vm_compute; reflexivity|]. split; [vm_compute; reflexivity|]. split; [vm_compute; reflexivity|].
  split; [vm_compute; reflexivity|].
  split; [discriminate|]. exists 20. vm_compute. reflexivity.
Qed.

(** ** C43 *)
(** The program generated from a resolved one is well formed: every name is in scope where it is used, all
    names bound anywhere in it are different, intrinsics have their arguments, recursive definitions are
    functions and call themselves in tail position with all their arguments. *)
Theorem C43_generated_program_well_formed root p :
  generate_core root = Some p -> resolved root -> wf_program p [] = true.
Proof. apply generate_wf. Qed.
Print Assumptions C43_generated_program_well_formed.

(** A program of three modules: the list module is imported twice. *)
Definition ex_mod1 : nat * list item := (1, [ex_list]).
Definition ex_mod2 : nat * list item := (2, [IImport [ex_mod1]; IVal 12 [] ex_sum_ty None (inr ex_sum)]).
Definition ex_root : list item :=
  [IImport [ex_mod2]; IImport [ex_mod1];
   IVal 20 [] SInt (Some [97%N])
     (inr (SApply (SName 12 []) (SApply (SApply (SName 4 [SInt]) (SNumber 3)) (SName 3 [SInt]))))].
Lemma ex_resolved : resolved ex_root.
Proof.
  split.
  - intros k a b Ha Hb. simpl in Ha, Hb. unfold ex_mod1, ex_mod2 in Ha, Hb.
    repeat match goal with H : _ \/ _ |- _ => destruct H end; try contradiction;
      repeat match goal with H : (_, _) = (_, _) |- _ => injection H; clear H; intros end; subst; try reflexivity; discriminate.
  - split; [repeat constructor; simpl; lia|]. intros k a Ha. simpl in Ha. unfold ex_mod1, ex_mod2 in Ha.
    repeat match goal with H : _ \/ _ |- _ => destruct H end; try contradiction;
      match goal with H : (_, _) = _ |- _ => injection H as <- <- end; repeat constructor; simpl; lia.
  - split.
    + intros k a x Ha Hx. simpl in Ha, Hx. unfold ex_mod1, ex_mod2 in Ha.
      repeat match goal with H : _ \/ _ |- _ => destruct H end; try contradiction; subst;
        match goal with H : (_, _) = _ |- _ => injection H as <- <- end; simpl; lia.
    + intros k a j b x Ha Hb Hne Hx Hxb. simpl in Ha, Hb. unfold ex_mod1, ex_mod2 in Ha, Hb.
      repeat match goal with H : _ \/ _ |- _ => destruct H end; try contradiction;
        match goal with H : (_, _) = (k, a) |- _ => injection H as <- <- end;
        match goal with H : (_, _) = (j, b) |- _ => injection H as <- <- end; try congruence; simpl in *; lia.
  - split; [reflexivity|]. intros k a Ha. simpl in Ha. unfold ex_mod1, ex_mod2 in Ha.
    repeat match goal with H : _ \/ _ |- _ => destruct H end; try contradiction;
      match goal with H : (_, _) = _ |- _ => injection H as <- <- end; reflexivity.
Qed.
Example C43_example : exists p, generate_core ex_root = Some p /\ resolved ex_root /\ length (p_defs p) = 4 /\
  verified 4000 p [] = true.
Proof.
  eexists. split; [vm_compute; reflexivity|]. split; [apply ex_resolved|]. split; vm_compute; reflexivity.
Qed.
