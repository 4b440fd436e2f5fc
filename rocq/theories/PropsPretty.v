(** C38.  The text printed for a core program. *)
From Verif Require Import Ir Eval Verify Formatter Pretty PrettyLex PrettyTok PrettyRead PrettyVerified.
From Coq Require Ascii String.
Import String.StringSyntax.
Local Open Scope string_scope.

(** Specification of the side conditions.  A name of the source program contains no white space, no double
    quote and none of the characters ( ) [ ] , ; @ and backslash. *)
Definition name_text (t : text) : Prop :=
  forall c, In c t -> c <> 32%N /\ c <> 10%N /\ c <> 34%N /\ ~ In c (tx "()[],;@\").
(** A string literal of bytes without double quote (34) and backslash (92). *)
Definition literal (s : list N) : Prop := forall b, In b s -> (b < 256)%N /\ b <> 34%N /\ b <> 92%N.
(** Messages and exported names: printable ASCII, likewise. *)
Definition message (s : list N) : Prop := forall b, In b s -> (32 <= b <= 126)%N /\ b <> 34%N /\ b <> 92%N.
(** What a program contains. *)
Definition within (a : expr) (p : program) : Prop := exists d, In d (p_defs p) /\ part a (vd_value d).
Definition exported_as (p : program) (x : list N) : Prop := exists d, In d (p_defs p) /\ vd_export d = Some x.

(** C38.  Printing never panics. *)
Theorem C38_printing_total : forall tbl p, exists t, pretty_print tbl p = Some t.
Proof. exact pretty_total. Qed.
Print Assumptions C38_printing_total.

Lemma name_text_ok tbl : (forall n, name_text (tbl n)) -> names_ok tbl.
Proof.
  intros H n. apply Forall_forall. intros c Hc. destruct (H n c Hc) as (A & B & C & D). unfold is_wordc, is_space, is_quote.
  replace (N.eqb c sp) with false by (symmetry; apply N.eqb_neq; auto).
  replace (N.eqb c nl) with false by (symmetry; apply N.eqb_neq; auto).
  replace (N.eqb c 34) with false by (symmetry; apply N.eqb_neq; auto).
  destruct (is_punct c) eqn:E; auto. exfalso. apply D. unfold is_punct in E. apply existsb_exists in E as (x & Hx & E).
  apply N.eqb_eq in E. subst. auto.
Qed.
Lemma def_ok_of p limit : verified limit p [] = true ->
  (forall a b, ~ within (EOp a Modulo b) p) -> (forall s, within (EString s) p -> literal s) ->
  (forall m t, within (ETrap m t) p -> message m) -> (forall x, exported_as p x -> message x) ->
  Forall def_ok (p_defs p).
Proof.
  intros V H1 H2 H3 H4. apply verified_heads in V. rewrite Forall_forall in *. intros d Hd. split.
  - destruct (vd_export d) as [x|] eqn:E; auto. apply Forall_forall. intros b Hb.
    destruct (H4 x (ex_intro _ d (conj Hd E)) b Hb) as (? & ? & ?). auto.
  - apply readable_of; auto.
    + intros a b Hp. eapply H1. exists d. eauto.
    + intros s Hp. apply Forall_forall. intros b Hb. destruct (H2 s (ex_intro _ d (conj Hd Hp)) b Hb) as (? & ? & ?). auto.
    + intros m t Hp. apply Forall_forall. intros b Hb. destruct (H3 m t (ex_intro _ d (conj Hd Hp)) b Hb) as (? & ? & ?). auto.
Qed.

(** C38, the part that holds: two verified programs that print the same text have the same definitions
    (names, export names, types and values), provided neither uses the remainder operator or has a quote or
    backslash in a string.  Missing: exactly these (see the refutations below); type definitions are not
    printed at all. *)
Theorem C38_text_determines_definitions_partial :
  forall tbl tbl' limit limit' p q t,
    pretty_print tbl p = Some t -> pretty_print tbl' q = Some t ->
    verified limit p [] = true -> verified limit' q [] = true ->
    (forall n, name_text (tbl n)) -> (forall n, name_text (tbl' n)) ->
    (forall r, r = p \/ r = q ->
       (forall a b, ~ within (EOp a Modulo b) r) /\
       (forall s, within (EString s) r -> literal s) /\
       (forall m ty, within (ETrap m ty) r -> message m) /\
       (forall x, exported_as r x -> message x)) ->
    p_defs p = p_defs q.
Proof.
  intros tbl tbl' limit limit' p q t Ep Eq Vp Vq Np Nq H.
  destruct (H p (or_introl eq_refl)) as (A1 & A2 & A3 & A4). destruct (H q (or_intror eq_refl)) as (B1 & B2 & B3 & B4).
  apply (@pretty_inj tbl tbl' p q t); auto using name_text_ok; [apply (@def_ok_of p limit)|apply (@def_ok_of q limit')]; auto.
Qed.
Print Assumptions C38_text_determines_definitions_partial.

(** C38 fails: a product and a remainder are printed alike, whatever the operands... *)
Theorem C38_modulo_is_printed_as_product_refuted :
  forall tbl a b p, wr_expr tbl (EOp a Modulo b) p = wr_expr tbl (EOp a Multiply b) p.
Proof. reflexivity. Qed.
Print Assumptions C38_modulo_is_printed_as_product_refuted.

(** ...so that two verified programs with different results print the same text... *)
Definition prog_of (e : expr) (t : ty) : program := mkProgram [] [mkValDef 0 (Some (tx "x")) t e].
Definition tbl_x (n : nat) : text := tx "x".
Theorem C38_same_text_different_results_refuted :
  let p := prog_of (EOp (EInt 7) Multiply (EInt 2)) TInt in
  let q := prog_of (EOp (EInt 7) Modulo (EInt 2)) TInt in
  verified 1 p [] = true /\ verified 1 q [] = true /\
  pretty_print tbl_x p = pretty_print tbl_x q /\
  eval_o FnFirst 5 [] (vd_value (hd (mkValDef 0 None TInt (EInt 0)) (p_defs p))) = Ok (VInt 14) /\
  eval_o FnFirst 5 [] (vd_value (hd (mkValDef 0 None TInt (EInt 0)) (p_defs q))) = Ok (VInt 1).
Proof. vm_compute. repeat split. Qed.
Print Assumptions C38_same_text_different_results_refuted.

(** ...and a byte that needs an escape prints like the four characters of its escape. *)
Theorem C38_backslash_is_not_escaped_refuted :
  let p := prog_of (EString [0]%N) TString in
  let q := prog_of (EString [92; 120; 48; 48]%N) TString in
  verified 1 p [] = true /\ verified 1 q [] = true /\ p_defs p <> p_defs q /\
  pretty_print tbl_x p = pretty_print tbl_x q.
Proof. split; [reflexivity|]. split; [reflexivity|]. split; [discriminate|]. vm_compute. reflexivity. Qed.
Print Assumptions C38_backslash_is_not_escaped_refuted.

(** Without the verifier's check a call of a sum prints like a sum ending in a call. *)
Theorem C38_operator_heads_are_not_parenthesised_refuted :
  let p := prog_of (ECall (EOp (EName 1) Add (EName 2)) [EName 3]) TInt in
  let q := prog_of (EOp (EName 1) Add (ECall (EName 2) [EName 3])) TInt in
  p_defs p <> p_defs q /\ pretty_print tbl_x p = pretty_print tbl_x q.
Proof. split; [discriminate|]. vm_compute. reflexivity. Qed.
Print Assumptions C38_operator_heads_are_not_parenthesised_refuted.

(** The hypotheses of the positive theorem are met, and the text is as expected. *)
Definition ex_p : program :=
  prog_of (ELam [(1, TInt)] (EIf (EOp (EName 1) Less (EInt 10)) (EOp (EOp (EName 1) Add (EInt 1)) Multiply (EInt 2))
             (ETrap (tx "no") TInt))) (TFn [TInt] TInt).
Example C38_example_text : pretty_print tbl_x ex_p = Some (tx "export(" ++ [34]%N ++ tx "x" ++ [34]%N ++ tx ") let x_0 : (int) -> int = \(x_1 : int) ->
    if (x_1 < 10) then
        (x_1 + 1) * 2
        else
        #trap(" ++ [34]%N ++ tx "no" ++ [34]%N ++ tx ", int);
").
Proof. vm_compute. reflexivity. Qed.
Ltac inside := repeat match goal with
  | H : part _ (_ _) |- _ => inversion H; subst; clear H
  | H : part _ (_ _ _ _) |- _ => inversion H; subst; clear H
  | H : In _ [] |- _ => destruct H
  end.
Example C38_hypotheses_met :
  verified 2 ex_p [] = true /\ (forall n, name_text (tbl_x n)) /\
  (forall a b, ~ within (EOp a Modulo b) ex_p) /\ (forall s, within (EString s) ex_p -> literal s) /\
  (forall m ty, within (ETrap m ty) ex_p -> message m) /\ (forall x, exported_as ex_p x -> message x).
Proof.
  split; [vm_compute; reflexivity|]. split.
  { intros n c [<-|[]]. repeat split; try discriminate. vm_compute. intuition discriminate. }
  split. { intros a b (d & [<-|[]] & H). cbn in H. inside. }
  split. { intros s (d & [<-|[]] & H). cbn in H. inside. }
  split.
  - intros m t (d & [<-|[]] & H). cbn in H. inside. intros b [<-|[<-|[]]]; vm_compute; intuition discriminate.
  - intros x (d & [<-|[]] & [= <-]). intros b [<-|[]]; vm_compute; intuition discriminate.
Qed.
