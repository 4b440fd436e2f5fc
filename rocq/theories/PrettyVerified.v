(** Programs the verifier accepts never apply an operator expression. *)
From Verif Require Import Verify Pretty PrettyLex PrettyTok PrettyRead.
Set Implicit Arguments.

Fixpoint heads (e : expr) : Prop :=
  match e with
  | EBool _ | EInt _ | EName _ | EString _ | ETrap _ _ => True
  | ECall f args => is_op f = false /\ heads f /\ fold_right and True (map heads args)
  | EIntr _ args | EConstruct _ _ args => fold_right and True (map heads args)
  | EIf a b c => heads a /\ heads b /\ heads c
  | EOp a _ b => heads a /\ heads b
  | ELam _ b => heads b
  | EMatch d bs => heads d /\ fold_right and True (map (fun br => heads (snd br)) bs)
  | ELet _ v e | ELetRec _ _ v e => heads v /\ heads e
  | EPi _ e => heads e
  | EPiApp e _ => is_op e = false /\ heads e
  end.

Section Heads.
  Variable limit : nat.
  Definition chk_heads (f : vstate -> option (ty * vstate)) (e : expr) : Prop := forall s r, f s = Some r -> heads e.
  Lemma args_heads chk xs : Forall (fun x => chk_heads (chk x) x) xs -> forall ps s s', length ps = length xs ->
    argsS chk xs ps s = Some s' -> fold_right and True (map heads xs).
  Proof.
    induction 1 as [|x xs Hx _ IH]; intros ps s s' L E; simpl; auto.
    destruct ps as [|p ps]; [discriminate|]. simpl in E. destruct (chk x s) as [[t s1]|] eqn:E1; [|discriminate].
    destruct (assert (fits t p)); [|discriminate]. split; [eapply Hx; eauto|]. eapply IH; [|eauto]. simpl in L. congruence.
  Qed.
  Lemma fields_heads chk vars tys xs : Forall (fun x => chk_heads (chk x) x) xs -> forall ps s s', length ps = length xs ->
    fieldsS chk vars tys xs ps s = Some s' -> fold_right and True (map heads xs).
  Proof.
    induction 1 as [|x xs Hx _ IH]; intros ps s s' L E; simpl; auto.
    destruct ps as [|p ps]; [discriminate|]. simpl in E. destruct (chk x s) as [[t s1]|] eqn:E1; [|discriminate].
    destruct (assert _); [|discriminate]. split; [eapply Hx; eauto|]. eapply IH; [|eauto]. simpl in L. congruence.
  Qed.
  Lemma branches_heads chk mt targs brs : Forall (fun br => chk_heads (chk (snd br)) (snd br)) brs ->
    forall t s r, branchesS limit chk mt targs brs t s = Some r -> fold_right and True (map (fun br => heads (snd br)) brs).
  Proof.
    induction 1 as [|[[c binds] v] brs Hx _ IH]; intros t s r E; simpl; auto. simpl in E.
    destruct (lookup c (v_ctors s)) as [[[tn vars] fields]|]; [|discriminate].
    do 3 (destruct (assert _); [|discriminate]).
    destruct (iterS _ (combine fields binds) s) as [s1|] eqn:E1; [|discriminate].
    destruct (chk v s1) as [[tv s2]|] eqn:E2; [|discriminate].
    destruct (match t with Some _ => _ | None => _ end) as [t1|]; [|discriminate].
    destruct (iterS exit binds s2) as [s3|] eqn:E3; [|discriminate].
    split; [eapply Hx; eauto|eapply IH; eauto].
  Qed.
  Lemma assert_true b x : assert b = Some x -> b = true.
  Proof. destruct b; auto; discriminate. Qed.
  Lemma op_ty e s t s' : is_op e = true -> check_expr limit e s = Some (t, s') -> t = TInt \/ t = TBool.
  Proof.
    destruct e; try discriminate. intros _ E. cbn [check_expr] in E.
    repeat match type of E with
    | (match ?a with Some _ => _ | None => None end) = Some _ =>
        let E1 := fresh "E" in destruct a as [?x|] eqn:E1; [|discriminate];
        try match goal with y : (ty * vstate)%type |- _ => destruct y end; cbn beta iota zeta in E
    end. injection E as <- _. destruct o; auto.
  Qed.
  Lemma check_heads e : chk_heads (check_expr limit e) e.
  Proof.
    induction e using expr_ind'; intros s0 [T s'] E; cbn [heads]; auto; cbn [check_expr] in E.
    all: repeat match type of E with
    | (match ?a with Some _ => _ | None => None end) = Some _ =>
        let E1 := fresh "E" in destruct a as [?x|] eqn:E1; [|discriminate];
        try match goal with y : (ty * vstate)%type |- _ => destruct y | y : (_ * _)%type |- _ => destruct y end; cbn beta iota zeta in E
    end.
    - split; [|split].
      + destruct (is_op e) eqn:O; auto. destruct (op_ty _ _ O E0) as [->| ->]; discriminate.
      + eapply IHe; eauto.
      + destruct t; try discriminate. destruct (assert _) eqn:A; [|discriminate]. apply assert_true, Nat.eqb_eq in A.
        destruct (argsS _ _ _ _) eqn:E1; [|discriminate]. eapply args_heads; eauto.
    - repeat split; [eapply IHe1|eapply IHe2|eapply IHe3]; eauto.
    - split; [eapply IHe1|eapply IHe2]; eauto.
    - apply assert_true, Nat.eqb_eq in E0. eapply args_heads; eauto.
    - eapply IHe; eauto.
    - split; [eapply IHe; eauto|]. destruct t; try discriminate.
      destruct (branchesS _ _ _ _ _ _ _) as [[t1 s2]|] eqn:E1; [|discriminate]. eapply branches_heads; eauto.
    - match goal with y : (nat * list nat)%type |- _ => destruct y end.
      destruct (assert _); [|discriminate]. destruct (assert _) eqn:A; [|discriminate]. apply assert_true, Nat.eqb_eq in A.
      destruct (fieldsS _ _ _ _ _ _) eqn:E1; [|discriminate]. eapply fields_heads; eauto.
    - split; [eapply IHe1|eapply IHe2]; eauto.
    - split; [eapply IHe1|eapply IHe2]; eauto.
    - eapply IHe; eauto.
    - split; [|eapply IHe; eauto]. destruct (is_op e) eqn:O; auto. destruct (op_ty _ _ O E0) as [->| ->]; discriminate.
  Qed.
  Lemma defs_heads ds : forall s s', iterS (check_def limit) ds s = Some s' -> Forall (fun d => heads (vd_value d)) ds.
  Proof.
    induction ds as [|d ds IH]; intros s s' E; [constructor|]. cbn [iterS] in E.
    destruct (check_def limit d s) as [s1|] eqn:E1; [|discriminate]. constructor; [|eapply IH; eauto].
    unfold check_def in E1. destruct (check_ty (vd_ty d) s) as [s2|]; [|discriminate].
    destruct (check_expr limit (vd_value d) s2) as [[t s3]|] eqn:E2; [|discriminate]. eapply check_heads; eauto.
  Qed.
End Heads.
Lemma verified_heads limit p vals : verified limit p vals = true -> Forall (fun d => heads (vd_value d)) (p_defs p).
Proof.
  unfold verified. destruct (verify limit p vals) as [s'|] eqn:E; [|discriminate]. intros _. unfold verify in E.
  destruct (iterS (check_ty_def limit) _ _) as [s1|]; [|discriminate].
  destruct (iterS (check_def limit) _ _) as [s2|] eqn:E2; [|discriminate]. eapply defs_heads; eauto.
Qed.

(** Specification: [part a e]: [a] occurs in [e]. *)
Inductive part : expr -> expr -> Prop :=
| part_refl e : part e e
| part_call_f a f xs : part a f -> part a (ECall f xs)
| part_call_x a f xs x : In x xs -> part a x -> part a (ECall f xs)
| part_intr a i xs x : In x xs -> part a x -> part a (EIntr i xs)
| part_construct a c tys xs x : In x xs -> part a x -> part a (EConstruct c tys xs)
| part_if_1 a x y z : part a x -> part a (EIf x y z)
| part_if_2 a x y z : part a y -> part a (EIf x y z)
| part_if_3 a x y z : part a z -> part a (EIf x y z)
| part_op_1 a x o y : part a x -> part a (EOp x o y)
| part_op_2 a x o y : part a y -> part a (EOp x o y)
| part_lam a ps b : part a b -> part a (ELam ps b)
| part_match_d a d bs : part a d -> part a (EMatch d bs)
| part_match_b a d bs br : In br bs -> part a (snd br) -> part a (EMatch d bs)
| part_let_1 a n v e : part a v -> part a (ELet n v e)
| part_let_2 a n v e : part a e -> part a (ELet n v e)
| part_letrec_1 a n t v e : part a v -> part a (ELetRec n t v e)
| part_letrec_2 a n t v e : part a e -> part a (ELetRec n t v e)
| part_pi a v e : part a e -> part a (EPi v e)
| part_piapp a e t : part a e -> part a (EPiApp e t).

Lemma readable_of e : heads e ->
  (forall a b, ~ part (EOp a Modulo b) e) ->
  (forall s, part (EString s) e -> str_ok s) ->
  (forall m t, part (ETrap m t) e -> msg_ok m) -> readable e.
Proof.
  assert (L : forall xs, Forall (fun e => heads e -> (forall a b, ~ part (EOp a Modulo b) e) ->
      (forall s, part (EString s) e -> str_ok s) -> (forall m t, part (ETrap m t) e -> msg_ok m) -> readable e) xs ->
    fold_right and True (map heads xs) -> (forall x a b, In x xs -> ~ part (EOp a Modulo b) x) ->
    (forall x s, In x xs -> part (EString s) x -> str_ok s) -> (forall x m t, In x xs -> part (ETrap m t) x -> msg_ok m) ->
    fold_right and True (map readable xs)).
  { intros xs IH H H1 H2 H3. apply and_Forall. apply and_Forall in H. rewrite Forall_forall in *. intros x Hx. apply IH; eauto. }
  induction e using expr_ind'; cbn [heads readable]; intros HH H1 H2 H3; auto.
  - apply H2. constructor.
  - destruct HH as (A & B & C). split; auto. split.
    + apply IHe; auto; intros; [intros HP; eapply H1; apply part_call_f; eauto|eapply H2; apply part_call_f; eauto|eapply H3; apply part_call_f; eauto].
    + apply L; auto; intros; [intros HP; eapply H1; eapply part_call_x; eauto|eapply H2; eapply part_call_x; eauto|eapply H3; eapply part_call_x; eauto].
  - destruct HH as (A & B & C). repeat split; [apply IHe1|apply IHe2|apply IHe3]; auto;
      intros; try (intros HP; eapply H1; (apply part_if_1 + apply part_if_2 + apply part_if_3); now eauto);
      try (eapply H2; (apply part_if_1 + apply part_if_2 + apply part_if_3); now eauto);
      try (eapply H3; (apply part_if_1 + apply part_if_2 + apply part_if_3); now eauto).
  - destruct HH as (A & B). split; [intros ->; eapply H1; apply part_refl|]. split; [apply IHe1|apply IHe2]; auto;
      intros; try (intros HP; eapply H1; (apply part_op_1 + apply part_op_2); now eauto);
      try (eapply H2; (apply part_op_1 + apply part_op_2); now eauto);
      try (eapply H3; (apply part_op_1 + apply part_op_2); now eauto).
  - apply L; auto; intros; [intros HP; eapply H1; eapply part_intr; eauto|eapply H2; eapply part_intr; eauto|eapply H3; eapply part_intr; eauto].
  - apply IHe; auto; intros; [intros HP; eapply H1; apply part_lam; eauto|eapply H2; apply part_lam; eauto|eapply H3; apply part_lam; eauto].
  - destruct HH as (A & B). split.
    + apply IHe; auto; intros; [intros HP; eapply H1; apply part_match_d; eauto|eapply H2; apply part_match_d; eauto|eapply H3; apply part_match_d; eauto].
    + apply and_Forall. apply and_Forall in B. rewrite Forall_forall in *. intros br Hbr.
      apply H; auto; intros; [intros HP; eapply H1; eapply part_match_b; eauto|eapply H2; eapply part_match_b; eauto|eapply H3; eapply part_match_b; eauto].
  - apply L; auto; intros; [intros HP; eapply H1; eapply part_construct; eauto|eapply H2; eapply part_construct; eauto|eapply H3; eapply part_construct; eauto].
  - destruct HH as (A & B). split; [apply IHe1|apply IHe2]; auto;
      intros; try (intros HP; eapply H1; (apply part_let_1 + apply part_let_2); now eauto);
      try (eapply H2; (apply part_let_1 + apply part_let_2); now eauto);
      try (eapply H3; (apply part_let_1 + apply part_let_2); now eauto).
  - destruct HH as (A & B). split; [apply IHe1|apply IHe2]; auto;
      intros; try (intros HP; eapply H1; (apply part_letrec_1 + apply part_letrec_2); now eauto);
      try (eapply H2; (apply part_letrec_1 + apply part_letrec_2); now eauto);
      try (eapply H3; (apply part_letrec_1 + apply part_letrec_2); now eauto).
  - apply IHe; auto; intros; [intros HP; eapply H1; apply part_pi; eauto|eapply H2; apply part_pi; eauto|eapply H3; apply part_pi; eauto].
  - destruct HH as (A & B). split; auto.
    apply IHe; auto; intros; [intros HP; eapply H1; apply part_piapp; eauto|eapply H2; apply part_piapp; eauto|eapply H3; apply part_piapp; eauto].
  - apply (H3 m t). constructor.
Qed.
