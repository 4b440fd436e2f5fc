(** What is parsed without an error is in the grammar. *)
From Verif Require Import Lexer Parser ParserSpec ParserProofs ParserRun ParserFns GrammarSpec GrammarParse.
Set Implicit Arguments.

(** Partial correctness: that the functions end is known already. *)
Definition wl {A} (m : M A) (p : pstate) (Q : A -> pstate -> Prop) : Prop :=
  match m p with Ok (a, p') => Q a p' | _ => True end.
Arguments wl : simpl never.
Lemma wp_wl A (m : M A) p (Q : A -> pstate -> Prop) : wp m p Q -> wl m p Q.
Proof. unfold wp, wl. destruct (m p) as [[a p']| |]; tauto. Qed.
Lemma wl_mono A (m : M A) p (Q Q' : A -> pstate -> Prop) : wl m p Q -> (forall a p', Q a p' -> Q' a p') -> wl m p Q'.
Proof. unfold wl. destruct (m p) as [[a p']| |]; auto. Qed.
Lemma wl_seq A B (m : M A) (f : A -> M B) p (Q : A -> pstate -> Prop) (Q' : B -> pstate -> Prop) :
  wl m p Q -> (forall a p', Q a p' -> wl (f a) p' Q') -> wl (bind m f) p Q'.
Proof. unfold wl, bind. destruct (m p) as [[a p']| |]; auto. intros H1 H2. apply H2. auto. Qed.
Lemma wl_assoc A B C (m : M A) (f : A -> M B) (g : B -> M C) p Q :
  wl (bind m (fun a => bind (f a) g)) p Q -> wl (bind (bind m f) g) p Q.
Proof. unfold wl, bind. destruct (m p) as [[a p']| |]; auto. Qed.
Lemma wl_ret A (a : A) p (Q : A -> pstate -> Prop) : Q a p -> wl (ret a) p Q.
Proof. auto. Qed.
Lemma wl_bret A B (a : A) (f : A -> M B) p (Q : B -> pstate -> Prop) : wl (f a) p Q -> wl (bind (ret a) f) p Q.
Proof. auto. Qed.

Notation cleans l := (flat_map errs l = []).
Definition G (P : list elem -> Prop) (p p' : pstate) : Prop := exists out, R p p' out /\ (cleans out -> P out).

Section Rules.
  Variables (A B : Type).
  Implicit Types (Q : B -> pstate -> Prop).
  Lemma b_hint h (X : unit -> M B) p0 p out Q : R p0 p out -> (forall p1, R p0 p1 out -> wl (X tt) p1 Q) -> wl (bind (hint_ h) X) p Q.
  Proof.
    intros H1 HX. eapply wl_seq; [apply wp_wl, hint_spec|]. cbv beta. intros [] p1 [H _]. apply HX.
    pose proof (R_trans H1 H) as Y. rewrite app_nil_r in Y. auto.
  Qed.
  Lemma b_at k (X : bool -> M B) p0 p out Q : R p0 p out -> (forall p1, R p0 p1 out -> next p1 = Some k -> wl (X true) p1 Q) ->
    (forall p1, R p0 p1 out -> wl (X false) p1 Q) -> wl (bind (at_ k) X) p Q.
  Proof.
    intros H1 H2 H3. eapply wl_seq; [apply wp_wl, at_spec|]. cbv beta. intros b p1 (H & _ & _ & Hb & Hn).
    pose proof (R_trans H1 H) as Y. rewrite app_nil_r in Y. destruct b; auto. apply H2; auto. apply Hb. auto.
  Qed.
  Lemma b_start (X : nat -> M B) p Q : (forall m p1, Started p m p1 -> R p1 p1 [] -> wl (X m) p1 Q) -> wl (bind start X) p Q.
  Proof. intros HX. eapply wl_seq; [apply wp_wl, start_spec|]. cbv beta. intros m p1 Hs. apply HX; auto. apply Rr. Qed.
  Lemma b_complete m k (X : nat -> M B) p0 o p p1 p2 out Q : R p0 p o -> Started p m p1 -> R p1 p2 out -> k <> BinaryExpr ->
    (forall p3, R p0 p3 (o ++ [Node k out]) -> RC p p3 m (Node k out) -> wl (X m) p3 Q) -> wl (bind (complete m k) X) p2 Q.
  Proof.
    intros H0 Hs Hr Hk HX. eapply wl_seq; [apply wp_wl; eapply complete_spec; eauto; apply gi_node; auto; eapply R_grp; eauto|]. cbv beta. intros m' p3 (-> & HC & _).
    apply HX; auto. apply (R_trans H0 (RC_R HC)).
  Qed.
  Lemma b_any k (X : unit -> M B) p0 p out Q : next p = Some k -> R p0 p out -> (forall p1, R p0 p1 (out ++ [Tok k]) -> wl (X tt) p1 Q) -> wl (bind bump_any X) p Q.
  Proof. intros Hn H1 HX. eapply wl_seq; [apply wp_wl, bump_any_spec; eauto|]. cbv beta. intros [] p1 H. apply HX. apply (R_trans H1 H). Qed.
  Lemma b_bump k (X : unit -> M B) p0 p out Q : next p = Some k -> R p0 p out -> (forall p1, R p0 p1 (out ++ [Tok k]) -> wl (X tt) p1 Q) -> wl (bind (bump k) X) p Q.
  Proof. intros Hn H1 HX. eapply wl_seq; [apply wp_wl, bump_spec; eauto|]. cbv beta. intros [] p1 H. apply HX. apply (R_trans H1 H). Qed.
  Lemma b_bump_name (X : unit -> M B) p0 p out Q : next p = Some KName -> R p0 p out -> (forall p1, R p0 p1 (out ++ [name]) -> wl (X tt) p1 Q) -> wl (bind bump_name X) p Q.
  Proof. intros Hn H1 HX. eapply wl_seq; [apply wp_wl, bump_name_spec; eauto|]. cbv beta. intros [] p1 H. apply HX. apply (R_trans H1 H). Qed.
  Lemma b_call (m : M unit) P (X : unit -> M B) p0 p out Q : R p0 p out -> wl m p (fun _ p' => G P p p') ->
    (forall l p1, R p0 p1 (out ++ l) -> (cleans l -> P l) -> wl (X tt) p1 Q) -> wl (bind m X) p Q.
  Proof.
    intros H1 H2 HX. eapply wl_seq; [exact H2|]. cbv beta. intros [] p1 (l & H & Hl). apply (HX l); auto. apply (R_trans H1 H).
  Qed.
End Rules.

Lemma l_emit_error p : wl emit_error p (fun _ p' => exists out, R p p' out /\ is_error out).
Proof.
  assert (D : hints p <> [] \/ expd p <> [] \/ (hints p = [] /\ expd p = [])) by (destruct (hints p); [destruct (expd p); [auto|right; left; discriminate]|left; discriminate]).
  assert (W : hints p <> [] \/ expd p <> [] -> wl emit_error p (fun _ p' => exists out, R p p' out /\ is_error out)).
  { intros H. apply wp_wl. eapply wp_mono; [apply emit_error_spec; auto|]. cbv beta. intros _ p' (sp & out & HR & Ho). exists out. split; auto.
    exists sp. destruct Ho as [[_ ->]|[_ ->]]; auto. }
  destruct D as [D|[D|[E1 E2]]]; auto.
  unfold emit_error. eapply wl_seq; [apply wp_wl, peek_spec|]. cbv beta. intros o p1 (A & B & _ & C & D & E & _).
  eapply wl_seq with (Q := fun _ p2 => p2 = p1 /\ o = Some KError).
  { unfold wl. destruct (is_kind o KError) eqn:Ek; [apply is_kind_iff in Ek; auto|]. rewrite C, D, E1, E2. cbn. auto. }
  cbv beta. intros _ p2 [-> ->]. eapply wl_seq; [apply wp_wl, peek_spec|]. cbv beta. intros o3 p3 (A3 & _ & _ & _ & _ & E3 & _).
  pose proof (R_trans A A3) as H03. cbn in H03.
  set (span := match toks p3 with (_, t) :: _ => (off p3, off p3 + length t) | [] => (cur p3, cur p3) end).
  eapply wl_seq with (Q := fun _ p4 => R p3 p4 [Err span]).
  { unfold wl. exists [EErr span], []. split; [|cbn; split; auto; repeat constructor]. constructor; cbn; auto.
    - repeat constructor.
    - intros Hc. split; auto. split; auto. constructor; auto. unfold span, within. destruct (toks p3) as [|[k t] r]; cbn.
      + lia.
      + unfold tlen. cbn. rewrite app_length. lia. }
  cbv beta. intros _ p4 H4. pose proof (R_trans H03 H4) as H04. cbn in H04.
  eapply b_at; [exact H04| |].
  - intros p5 H5 Hn. eapply wl_mono; [apply wp_wl, bump_spec; auto|]. cbv beta. intros _ p6 H6. eexists. split; [apply (R_trans H5 H6)|exists span; right; reflexivity].
  - intros p5 H5. apply wl_ret. eexists. split; [exact H5|exists span; left; reflexivity].
Qed.
Lemma l_emit p : wl emit_error p (fun _ p' => G (fun _ => False) p p').
Proof.
  eapply wl_mono; [apply l_emit_error|]. cbv beta. intros _ p' (out & HR & sp & [->| ->]); (eexists; split; [exact HR|]); cbn; intros Hc; discriminate Hc.
Qed.
Lemma l_expect k p : wl (expect k) p (fun _ p' => G (fun l => l = [Tok k]) p p').
Proof.
  unfold expect. eapply b_at; [apply Rr| |].
  - intros p5 H5 Hn. eapply wl_mono; [apply wp_wl, bump_spec; auto|]. cbv beta. intros _ p6 H6. eexists. split; [apply (R_trans H5 H6)|auto].
  - intros p5 H5. eapply wl_mono; [apply l_emit|]. cbv beta. intros _ p6 (l & H6 & Hl). exists l. split; [apply (R_trans H5 H6)|]. intros Hc. destruct (Hl Hc).
Qed.
Lemma l_expect_name p : wl expect_name p (fun _ p' => G (fun l => l = [name]) p p').
Proof.
  unfold expect_name. eapply b_at; [apply Rr| |].
  - intros p5 H5 Hn. eapply wl_mono; [apply wp_wl, bump_name_spec; auto|]. cbv beta. intros _ p6 H6. eexists. split; [apply (R_trans H5 H6)|auto].
  - intros p5 H5. eapply wl_mono; [apply l_emit|]. cbv beta. intros _ p6 (l & H6 & Hl). exists l. split; [apply (R_trans H5 H6)|]. intros Hc. destruct (Hl Hc).
Qed.
Lemma l_while (P : elem -> Prop) body : (forall q, wl body q (fun _ q' => G (Forall P) q q')) -> forall n q, wl (while_ n body) q (fun _ q' => G (Forall P) q q').
Proof.
  intros Hb. induction n as [|n IH]; intros q; cbn [while_]; [exact I|]. eapply wl_seq; [apply Hb|]. cbv beta. intros b q1 (l & H & Hl). destruct b.
  - eapply wl_mono; [apply IH|]. cbv beta. intros _ q2 (l' & H' & Hl'). exists (l ++ l'). split; [apply (R_trans H H')|]. rewrite flat_map_app. intros Hc.
    apply app_eq_nil in Hc as [? ?]. apply Forall_app. auto.
  - apply wl_ret. exists l. auto.
Qed.
Lemma l_while_with A (I I' : A -> pstate -> Prop) body :
  (forall a p, I a p -> wl (body a) p (fun o p' => match o with Some a' => I a' p' | None => I' a p' end)) ->
  forall n a p, I a p -> wl (while_with n body a) p I'.
Proof.
  intros Hb. induction n as [|n IH]; intros a p Ha; cbn [while_with]; [exact Logic.I|]. eapply wl_seq; [apply Hb; auto|]. cbv beta.
  intros o p' Ho. destruct o as [a'|]; [apply IH; auto|]. apply wl_ret. auto.
Qed.

Ltac bs :=
  lazymatch goal with
  | HR : R ?p0 ?p ?out |- wl (bind (hint_ _) _) ?p _ => eapply b_hint; [exact HR|]; clear HR; intros ?p HR
  | HR : R ?p0 ?p ?out |- wl (bind (at_ _) _) ?p _ => eapply b_at; [exact HR| |]; clear HR; [intros ?p HR ?Hn|intros ?p HR]
  | HN : next ?p = Some _, HR : R ?p0 ?p ?out |- wl (bind bump_any _) ?p _ => eapply b_any; [exact HN|exact HR|]; clear HR; intros ?p HR
  | HN : next ?p = Some _, HR : R ?p0 ?p ?out |- wl (bind (bump _) _) ?p _ => eapply b_bump; [exact HN|exact HR|]; clear HR; intros ?p HR
  | HN : next ?p = Some _, HR : R ?p0 ?p ?out |- wl (bind bump_name _) ?p _ => eapply b_bump_name; [exact HN|exact HR|]; clear HR; intros ?p HR
  | HS : Started ?q _ ?p, HN : next ?q = Some _, HR : R ?p ?p [] |- wl (bind bump_any _) ?p _ => eapply b_any; [rewrite (proj1 (started_next HS)); exact HN|exact HR|]; clear HR; intros ?p HR
  | HS : Started ?q _ ?p, HN : next ?q = Some _, HR : R ?p ?p [] |- wl (bind (bump _) _) ?p _ => eapply b_bump; [rewrite (proj1 (started_next HS)); exact HN|exact HR|]; clear HR; intros ?p HR
  | HS : Started ?q _ ?p, HN : next ?q = Some _, HR : R ?p ?p [] |- wl (bind bump_name _) ?p _ => eapply b_bump_name; [rewrite (proj1 (started_next HS)); exact HN|exact HR|]; clear HR; intros ?p HR
  | HR : R ?p0 ?p ?out |- wl (bind (expect _) _) ?p _ => eapply b_call; [exact HR|apply l_expect|]; clear HR; intros ?l ?p HR ?Hl
  | HR : R ?p0 ?p ?out |- wl (bind expect_name _) ?p _ => eapply b_call; [exact HR|apply l_expect_name|]; clear HR; intros ?l ?p HR ?Hl
  | |- wl (bind start _) ?p _ => apply b_start; intros ?m ?p ?Hs ?HR
  | HS : Started ?p ?m ?p1, H0 : R ?p0 ?p ?o, HR : R ?p1 ?p2 ?out |- wl (bind (complete ?m _) _) ?p2 _ =>
      eapply b_complete; [exact H0|exact HS|exact HR|discriminate|]; clear HS HR; intros ?p ?HR ?HC
  | |- wl (bind (bind _ _) _) _ _ => apply wl_assoc; cbv beta
  | |- wl (bind (ret _) _) _ _ => apply wl_bret; cbv iota
  | |- wl (ret _) _ _ => apply wl_ret
  end.
(** A call of another function. *)
Ltac bcall lem := match goal with HR : R ?p0 ?p ?out |- wl (bind ?m _) ?p _ =>
  eapply b_call; [exact HR|eapply lem; eauto|]; clear HR; intros ?l ?p HR ?Hl end.
(** The pieces of a list without errors have none. *)
Ltac cl Hc := repeat (cbn [flat_map errs app name] in Hc; rewrite ?flat_map_app, ?app_nil_r in Hc);
  repeat match goal with H : _ ++ _ = [] |- _ => apply app_eq_nil in H as [? ?] end;
  repeat match goal with H : cleans ?l -> _, H' : cleans ?l |- _ => specialize (H H') end;
  repeat match goal with H : errs ?l = [] -> _, H' : errs ?l = [] |- _ => specialize (H H') end.
Ltac ans := match goal with HR : R ?p0 ?p _ |- G _ ?p0 ?p => eexists; split; [exact HR|]; intros Hc; cl Hc; cbn [app] in * end.

(** ** Types *)
Lemma l_dotted p : wl dotted p (fun _ p' => G (fun l => path (name :: l)) p p').
Proof.
  pose proof (Rr p) as HR. unfold dotted. bs.
  - bs. eapply wl_mono; [apply l_expect_name|]. cbv beta. intros _ p' (l & H & Hl). exists (([] ++ [Tok KDot]) ++ l). split; [apply (R_trans HR H)|].
    intros Hc. cl Hc. subst l. constructor.
  - bs. ans. constructor.
Qed.
(** The outcome of a function that finishes a tree if it finds one. *)
Definition T1 (P : elem -> Prop) (p : pstate) (o : option nat) (p' : pstate) : Prop :=
  match o with
  | Some m => exists p0 o t, R p p0 o /\ RC p0 p' m t /\ (cleans (o ++ [t]) -> o = [] /\ P t)
  | None => R p p' []
  end.
Ltac one := match goal with H0 : R ?p ?p1 [], HC : RC ?p1 ?q ?m ?t |- T1 _ ?p _ ?q =>
  exists p1, [], t; split; [exact H0|]; split; [exact HC|]; intros Hc; split; auto; cl Hc; cbn [app] in * end.
Lemma l_recover h p : wl (error_recover h) p (fun _ p' => G (fun _ => False) p p').
Proof.
  unfold error_recover. eapply wl_seq; [apply l_emit|]. cbv beta. intros _ p1 (l & HR & Hl).
  eapply wl_seq; [apply wp_wl, peek_spec|]. cbv beta. intros o p2 (A & B & _). pose proof (R_trans HR A) as H2.
  assert (Hn : next p2 = o) by auto. clear B.
  assert (K0 : forall q o, R p q (l ++ o) -> G (fun _ : list elem => False) p q).
  { intros q o' H. exists (l ++ o'). split; auto. rewrite flat_map_app. intros Hc. apply app_eq_nil in Hc as [Hc _]. auto. }
  destruct o as [k|]; [|bs; eapply K0; eauto]. destruct (hint_starts h k); [bs; eapply K0; eauto|].
  clear HR. bs. match goal with HS : Started ?q _ ?p1, HR1 : R ?p1 ?p1 [] |- _ => eapply b_any with (k := k); [rewrite (proj1 (started_next HS)); exact Hn|exact HR1|]; clear HR1; intros ?p HR1 end.
  bs. bs. eapply K0. rewrite <- app_assoc in HR. exact HR.
Qed.
Lemma l_types : forall n,
  (forall p, wl (type_ n) p (fun _ p' => G (fun l => exists t, l = [t] /\ ty t) p p')) /\
  (forall p, wl (non_fn_type n) p (T1 simple p)) /\
  (forall p, wl (atom_type n) p (T1 tyatom p)).
Proof.
  induction n as [|n (IHt & IHn & IHa)]; [split; [|split]; intros; exact I|]. split; [|split]; intros p; pose proof (Rr p) as HR.
  - cbn [type_]. bs. eapply wl_seq; [apply IHn|]. cbv beta. intros o p2 Ho. destruct o as [m|].
    + destruct Ho as (q & o & t & Ho & HC & Hc). pose proof (R_trans HR Ho) as HR2. cbn [app] in HR2. clear HR Ho. eapply wl_seq; [apply wp_wl, at_spec|]. cbv beta. intros b p3 (H & _ & _ & Hb & Hn). destruct b.
      * eapply wl_seq; [apply wp_wl; eapply precede_spec; [exact HC|exact H]|]. cbv beta. intros x p4 [Hp Ht].
        assert (Hn4 : next p4 = Some KArrow) by (unfold next in *; rewrite Ht; apply Hb; auto). pose proof (Rr p4) as HR.
        bs. bcall IHt. eapply wl_seq; [apply wp_wl; eapply complete2_spec; [exact Hp|exact HR|]|].
        -- apply gi_node; [discriminate|]. constructor; [apply RC_R, R_grp in HC; inversion HC; auto|]. apply Forall_app. split; [constructor|eapply R_grp; eauto].
        -- cbv beta. intros m' p7 (-> & HC2 & _). bs. eexists. split; [apply (R_trans HR2 (RC_R HC2))|]. intros Hcl. rewrite flat_map_app in Hcl. apply app_eq_nil in Hcl as [C1 C2].
           cbn [flat_map errs app] in C2. rewrite app_nil_r in C2. apply app_eq_nil in C2 as [C2 C3]. destruct (Hl C3) as (t' & -> & Ht').
           destruct Hc as [-> Hs]; [rewrite flat_map_app, C1; cbn; rewrite C2; auto|]. eexists. split; [reflexivity|]. apply ty_fn; auto.
      * bs. eexists. split; [apply (R_trans HR2 (R_trans (RC_R HC) H))|]. rewrite app_nil_r. intros Hcl. destruct (Hc Hcl) as [-> Hs]. eexists. split; [reflexivity|]. constructor. auto.
    + eapply wl_mono; [apply l_recover|]. cbv beta. intros _ p3 (l & H & Hl). exists l. split; [apply (R_trans (R_trans HR Ho) H)|]. intros Hcl. destruct (Hl Hcl).
  - cbn [non_fn_type]. bs.
    + bs. bs. bcall l_dotted. match goal with HR : R ?p0 ?p ?out |- wl (bind (while_ _ _) _) ?p _ => eapply b_call; [exact HR|apply l_while with (P := tyatom)|clear HR; intros ?l ?p HR ?Hl] end.
      * intros q. eapply wl_seq; [apply IHa|]. cbv beta. intros o q' Ho. bs. destruct o as [m'|].
        -- destruct Ho as (q0 & o & t & Ho & HC & Hc). eexists. split; [apply (R_trans Ho (RC_R HC))|]. intros Hcl. destruct (Hc Hcl) as [-> Ht]. repeat constructor; auto.
        -- exists []. split; [exact Ho|constructor].
      * bs. bs. one. change (name :: l) with ([name] ++ l) in *. cbn. rewrite app_comm_cons. apply si_args; auto.
    + eapply wl_mono; [apply IHa|]. cbv beta. intros o q Ho. destruct o as [m|].
      * destruct Ho as (q0 & o & t & Ho & HC & Hc). exists q0, o, t. split; [apply (R_trans HR Ho)|]. split; auto. intros Hcl. destruct (Hc Hcl). split; auto. constructor. auto.
      * apply (R_trans HR Ho).
  - cbn [atom_type]. bs. bs; [bs; bs; bs; bs; one; constructor|]. bs; [bs; bs; bs; bs; one; constructor|]. bs; [bs; bs; bs; bs; one; constructor|].
    bs; [bs; bs; bcall l_dotted; bs; bs; one; constructor; auto|].
    bs. { bs. bs. bcall IHt. bs. bs. bs. one. subst. destruct Hl as (t & -> & Ht). constructor. auto. }
    bs. { eapply wl_seq; [apply l_emit|]. cbv beta. intros _ z2 (l & H2 & Hl). 
      eapply wl_seq; [apply wp_wl, start_spec|]. cbv beta. intros m z3 Hs. eapply wl_seq with (Q := fun _ p' => exists o, R z3 p' o).
      { unfold bump. pose proof (Rr z3) as H3. bs; [|exact I]. eapply wl_mono; [apply wp_wl, bump_any_spec; eauto|]. cbv beta. intros _ z5 H5. eexists. apply (R_trans H3 H5). }
      cbv beta. intros _ z4 (o & H4). pose proof (R_trans HR H2) as H02. eapply b_complete; [exact H02|exact Hs|exact H4|discriminate|]. intros z5 H5 HC. bs.
      eexists _, _, _. split; [exact H02|]. split; [exact HC|]. intros Hcl. exfalso. rewrite flat_map_app in Hcl. apply app_eq_nil in Hcl as [Hcl _]. cbn in Hcl. auto. }
    bs. exact HR.
Qed.
Lemma l_type n p : wl (type_ n) p (fun _ p' => G (fun l => exists t, l = [t] /\ ty t) p p').
Proof. apply l_types. Qed.
Lemma l_annotation n p : wl (annotation n) p (fun _ p' => G annot p p').
Proof.
  pose proof (Rr p) as HR. unfold annotation. bs.
  - bs. eapply wl_mono; [apply l_type|]. cbv beta. intros _ p' (l & H & Hl). eexists. split; [apply (R_trans HR H)|].
    intros Hc. cl Hc. destruct Hl as (t & -> & Ht). constructor. auto.
  - bs. ans. constructor.
Qed.
Lemma l_names n p : wl (names n) p (fun _ p' => G (fun l => exists c, l = repeat name c) p p').
Proof.
  unfold names. eapply wl_mono; [apply l_while with (P := fun e => e = name)|].
  - intros q. pose proof (Rr q) as HR. bs; [bs; bs; ans; repeat constructor|bs; ans; constructor].
  - cbv beta. intros _ p' (l & H & Hl). exists l. split; auto. intros Hc. exists (length l). specialize (Hl Hc). clear - Hl. induction Hl; cbn; congruence.
Qed.

(** ** Expressions *)
Lemma errs_node k l : errs (Node k l) = flat_map errs l.
Proof. reflexivity. Qed.
Definition T2 (P : elem -> Prop) (p : pstate) (o : option nat) (p' : pstate) : Prop :=
  match o with
  | Some m => exists k l, RC p p' m (Node k l) /\ k <> BinaryExpr /\ (errs (Node k l) = [] -> P (Node k l))
  | None => R p p' []
  end.
Definition O1 (min : nat) (p p' : pstate) : Prop :=
  exists out, R p p' out /\
    (is_error out \/
     (exists k l, out = [Node k l] /\ (forall q, top_level (Node k l) q -> min <= q)) /\
     (forall k' q', next p' = Some k' -> level k' = Some q' -> q' < min)) /\
    (cleans out -> exists e, out = [e] /\ ops min e).
Lemma err_not_clean out : is_error out -> cleans out -> False.
Proof. intros (sp & [->| ->]) H; discriminate H. Qed.
Ltac two := match goal with H0 : R ?p ?p1 [], HC : RC ?p1 ?q ?m (Node ?k ?l) |- T2 _ ?p _ ?q =>
  exists k, l; split; [exact (RC_pre H0 HC)|]; split; [discriminate|]; intros Hc; cl Hc; cbn [app] in * end.
Lemma ops_up m e m' : ops m e -> (forall q, top_level e q -> m' <= q) -> ops m' e.
Proof. intros [m0 e0 H|m0 op p a b Hl Hm Ha Hb] H'; [apply op_app; auto|]. eapply op_bin; eauto. apply H'. eexists _, _, _. split; eauto. Qed.
Lemma app_not_binary k l : app_ (Node k l) -> k <> BinaryExpr.
Proof. intros H E. subst. inversion H; subst. inversion H0. Qed.
Lemma l_exprs : forall n,
  (forall p, wl (expr n) p (fun _ p' => G (fun l => exists e, l = [e] /\ ex e) p p')) /\
  (forall p, next p = Some KPipe -> wl (match_case n) p (fun _ p' => G (fun l => exists e, l = [e] /\ mcase e) p p')) /\
  (forall p min, wl (op_expr n min) p (fun _ p' => O1 min p p')) /\
  (forall p, wl (apply_expr n) p (fun o p' => match o with
     | Some m => T2 app_ p (Some m) p'
     | None => exists out, R p p' out /\ is_error out end)) /\
  (forall p, wl (atom_expr n) p (T2 exatom p)).
Proof.
  induction n as [|n (IHe & IHm & IHo & IHp & IHa)]; [repeat split; intros; exact I|].
  split; [|split; [|split; [|split]]].
  - intros p. pose proof (Rr p) as HR. cbn [expr]. bs.
    bs. { bs. bs. bs. bcall l_annotation. bs. bcall IHe. bs. bcall IHe. bs. bs. ans. subst. destruct Hl2 as (v & -> & Hv), Hl4 as (e & -> & He).
          eexists. split; [reflexivity|]. rewrite <- !app_assoc. cbn [app]. apply ex_let; auto. }
    bs. { bs. bs. bcall IHe. bs.
          match goal with HR : R ?p0 ?p ?out |- wl (bind (while_ _ _) _) ?p _ => eapply b_call; [exact HR|apply l_while with (P := mcase)|clear HR; intros ?l ?p HR ?Hl] end.
          - intros q. pose proof (Rr q) as HRq. bs.
            + eapply wl_seq; [apply IHm; auto|]. cbv beta. intros _ q' (l' & H' & Hl'). bs. exists l'. split; [apply (R_trans HRq H')|]. intros Hc. destruct (Hl' Hc) as (e & -> & He). auto.
            + bs. ans. constructor.
          - bs. bs. bs. ans. subst. destruct Hl as (d & -> & Hd). eexists. split; [reflexivity|]. rewrite <- ?app_assoc. cbn [app]. rewrite <- ?app_assoc. cbn [app]. apply ex_match; auto. }
    bs. { bs. bs. bcall IHe. bs. bcall IHe. bs. bcall IHe. bs. bs. ans. subst. destruct Hl as (a & -> & Ha), Hl1 as (b & -> & Hb), Hl3 as (c & -> & Hc').
          eexists. split; [reflexivity|]. cbn [app]. apply ex_if; auto. }
    bs. { bs. bs. bs. bs.
      - cbv iota. bs. bs. bs. bcall IHe. bs. bs. ans. subst. destruct Hl1 as (e & -> & He). eexists. split; [reflexivity|]. cbn [app]. apply ex_fold; auto.
      - cbv iota. bs. bs. bs. bcall IHe. bs. bs. ans. subst. destruct Hl1 as (e & -> & He). eexists. split; [reflexivity|]. cbn [app]. apply ex_lam; auto. }
    eapply wl_mono; [apply IHo|]. cbv beta. intros _ q (out & H & _ & Hc). exists out. split; [apply (R_trans HR H)|]. intros Hcl. destruct (Hc Hcl) as (e & -> & He). eexists. split; [reflexivity|]. constructor. auto.
  - intros p Hn. pose proof (Rr p) as HR. cbn [match_case]. bs. bs. bs. bcall l_dotted. bs. bcall l_names. bs. bs. bcall IHe. bs. bs. ans. subst.
    match goal with H : exists c, _ = repeat name c |- _ => destruct H as (c & ->) end. match goal with H : exists e, _ = [e] /\ ex e |- _ => destruct H as (e & -> & He) end.
    eexists. split; [reflexivity|]. cbn [app]. rewrite <- !app_assoc. cbn [app]. rewrite app_comm_cons. apply mc_case; auto.
  - intros p min. pose proof (Rr p) as HR. cbn [op_expr]. bs. eapply wl_seq; [apply IHp|]. cbv beta. intros o p2 Ho. destruct o as [m|].
    2:{ destruct Ho as (out & Ho & He). bs. exists out. split; [apply (R_trans HR Ho)|]. split; [auto|]. intros Hc. destruct (err_not_clean He Hc). }
    destruct Ho as (k & l & Hc & Hk & Hcl). eapply wl_seq; [apply wp_wl, hint_spec|]. cbv beta. intros _ p3 [H3 _].
    eapply wl_seq; [eapply l_while_with with
      (I := fun m p' => exists k l, RC p p' m (Node k l) /\ (forall q, top_level (Node k l) q -> min <= q) /\
             (has_right (Node k l) -> forall q k' q', top_level (Node k l) q -> next p' = Some k' -> level k' = Some q' -> q' <= q) /\
             (errs (Node k l) = [] -> ops min (Node k l) /\ forall k' q', next p' = Some k' -> level k' = Some q' -> ops q' (Node k l)))
      (I' := fun m p' => exists k l, RC p p' m (Node k l) /\ (forall q, top_level (Node k l) q -> min <= q) /\
             (forall k' q', next p' = Some k' -> level k' = Some q' -> q' < min) /\ (errs (Node k l) = [] -> ops min (Node k l)))|..].
    + clear - IHo. intros m p1 (k & l & Hc & Hmin & Hr & Hcl).
      eapply wl_seq; [apply wp_wl, peek_spec|]. cbv beta. intros o p2 (A & B & _ & _ & _ & D & _).
      destruct o as [k0|].
      2:{ bs. exists k, l. split; [apply (RC_post Hc A)|]. split; auto. split; [intros k' q' E; congruence|]. intros Hx. apply (Hcl Hx). }
      pose proof (binding_level k0) as Hb. destruct (binding_power k0) as [[power rp]|].
      2:{ bs. exists k, l. split; [apply (RC_post Hc A)|]. split; auto. split; [intros k' q' E; congruence|]. intros Hx. apply (Hcl Hx). }
      destruct Hb as [Hlev ->]. destruct (power <? min) eqn:Em.
      { apply Nat.ltb_lt in Em. bs. exists k, l. split; [apply (RC_post Hc A)|]. split; auto. split; [|intros Hx; apply (Hcl Hx)]. intros k' q' E E'. rewrite <- B in E. injection E as ->. congruence. }
      apply Nat.ltb_ge in Em. symmetry in B.
      eapply wl_seq; [apply wp_wl; eapply precede_spec; [exact Hc|exact A]|]. cbv beta. intros x p3 [Hp Ht].
      assert (Hn3 : next p3 = Some k0) by (unfold next in *; rewrite Ht; auto). pose proof (Rr p3) as HR.
      bs. bs. bs. clear HC.
      eapply wl_seq; [apply IHo|]. cbv beta. intros _ z7 (out & Ho & Hcase & Hco).
      match goal with HR' : R p3 ?z _, Ho : R ?z z7 out |- _ => pose proof (R_trans HR' Ho) as Hall end. cbn [app] in Hall.
      assert (Hgt : ginner (Node k l)).
      { apply RC_R, R_grp in Hc. inversion Hc; auto. }
      eapply wl_seq; [apply wp_wl; eapply complete2_spec; [exact Hp|exact Hall|]|].
      { cbn [app]. apply gi_binary with (p := power); eauto.
        - eapply R_grp; eauto.
        - destruct Hcase as [[sp Hsp]|[(k' & l' & -> & _) _]]; eauto.
        - intros y Hy q Hq. destruct Hcase as [[sp [->| ->]]|[(k' & l' & -> & Hge) _]]; cbn in Hy.
          + destruct Hy as [<-|[]]. destruct Hq as (? & ? & ? & E & _). discriminate.
          + destruct Hy as [<-|[<-|[]]]; destruct Hq as (? & ? & ? & E & _); discriminate.
          + destruct Hy as [<-|[]]. apply Hge in Hq. lia.
        - intros Hhr q Hq. eapply Hr; eauto. congruence. }
      cbn [app]. cbv beta. intros m' z8 (-> & H8 & Ht8). eapply wl_seq; [apply wp_wl, hint_spec|]. cbv beta. intros _ z9 [H9 _]. bs.
      exists BinaryExpr, (Node k l :: Node BinaryOp [Tok k0] :: out). split; [apply (RC_post H8 H9)|].
      assert (Hnext : next z9 = next z7) by (rewrite (R_next0 H9 eq_refl); unfold next; rewrite Ht8; auto).
      split; [|split].
      * intros q (l1 & op1 & r1 & E & Elev). injection E as <- <- <-. rewrite Hlev in Elev. injection Elev as <-. auto.
      * intros (l1 & o1 & r1 & k1 & ch & E & Hin) q k' q' (l2 & op2 & r2 & E' & Elev) Hn Hlv. injection E' as <- <- <-. rewrite Hlev in Elev. injection Elev as <-.
        injection E as <- <- <-. destruct Hcase as [[sp [->| ->]]|[_ Hlow]]; [cbn in Hin; destruct Hin as [?|[]]; discriminate|cbn in Hin; destruct Hin as [?|[?|[]]]; discriminate|].
        rewrite Hnext in Hn. specialize (Hlow _ _ Hn Hlv). lia.
      * rewrite errs_node. cbn [flat_map]. intros Hx. apply app_eq_nil in Hx as [Hx1 Hx2]. cbn [errs flat_map app] in Hx2.
        destruct (Hco Hx2) as (e & -> & He). destruct (Hcl Hx1) as [O1' O2]. assert (Ha : ops power (Node k l)) by (apply (O2 k0); [congruence|auto]).
        split; [eapply op_bin; eauto|]. intros k' q' Hn Hlv. rewrite Hnext in Hn. destruct Hcase as [He'|[_ Hlow]]; [destruct (err_not_clean He' Hx2)|].
        specialize (Hlow _ _ Hn Hlv). eapply op_bin; eauto. lia.
    + exists k, l. split; [apply (RC_pre HR), (RC_post Hc H3)|].
      split; [intros q (? & ? & ? & E & _); congruence|]. split; [intros (? & ? & ? & ? & ? & E & _); congruence|]. intros Hx. specialize (Hcl Hx). split; [|intros]; apply op_app; auto.
    + cbv beta. intros m' p' (k' & l' & A & B & C & D). bs. exists [Node k' l']. split; [eapply RC_R; eauto|]. split; [right; split; auto; exists k', l'; auto|].
      intros Hx. cbn in Hx. rewrite app_nil_r in Hx. eexists. split; [reflexivity|]. apply D. exact Hx.
  - intros p. pose proof (Rr p) as HR. cbn [apply_expr]. eapply wl_seq; [apply IHa|]. cbv beta. intros o p1 Ho. destruct o as [m|].
    + destruct Ho as (k & l & Hc & Hk & Hcl).
      eapply wl_seq; [eapply l_while_with with (I := fun m p' => T2 app_ p (Some m) p') (I' := fun m p' => T2 app_ p (Some m) p')|].
      * clear - IHa. intros m p1 (k & l & Hc & Hk & Hcl). eapply wl_seq; [apply IHa|]. cbv beta. intros o p2 Ho. destruct o as [m1|].
        -- destruct Ho as (k1 & l1 & Hc1 & Hk1 & Hcl1). eapply wl_seq; [apply wp_wl; eapply precede_spec; [exact Hc|apply (RC_R Hc1)]|]. cbv beta. intros x p3 [Hp Ht].
           eapply wl_seq; [apply wp_wl; eapply complete2_spec; [exact Hp|apply Rr|]|].
           ++ apply gi_node; [discriminate|]. apply RC_R, R_grp in Hc, Hc1. cbn [app]. inversion Hc; inversion Hc1; subst. apply Forall_cons; [assumption|]. apply Forall_cons; [assumption|apply Forall_nil].
           ++ cbv beta. intros m' p4 (-> & H4 & _). bs. eexists _, _. split; [exact H4|]. split; [discriminate|]. cbn [app]. rewrite errs_node. cbn [flat_map]. rewrite app_nil_r.
              intros Hx. apply app_eq_nil in Hx as [? ?]. apply ap_app; auto.
        -- bs. exists k, l. split; [apply (RC_post Hc Ho)|]. auto.
      * exists k, l. split; auto. split; auto. intros Hx. apply ap_atom. auto.
      * cbv beta. intros m' p' Hx. bs. exact Hx.
    + eapply wl_seq; [apply l_emit_error|]. cbv beta. intros _ p2 (out & H2 & He). bs. exists out. split; auto. apply (R_trans Ho H2).
  - intros p. pose proof (Rr p) as HR. cbn [atom_expr]. bs.
    bs. { bs. bs. bcall IHe. bs. bs. bs. two. subst. destruct Hl as (e & -> & He). apply ea_paren. auto. }
    apply wl_assoc. bs. { cbv iota. bs. cbv iota. bs. bs. bs. bs. two. constructor. }
    cbv iota. bs; [cbv iota; bs; bs; bs; bs; two; constructor|]. cbv iota.
    bs; [bs; bs; bs; bs; two; constructor|].
    bs; [bs; bs; bs; bs; two; constructor|].
    bs. { bs. bs. bs.
      - bs. bs. bs. bs. two. subst. constructor.
      - bs. bs. two. constructor. }
    bs; [bs; bs; bs; bs; two; constructor|].
    bs. exact HR.
Qed.

(** ** Items *)
Lemma l_expr n p : wl (expr n) p (fun _ p' => G (fun l => exists e, l = [e] /\ ex e) p p').
Proof. apply l_exprs. Qed.
Lemma l_opt k p : wl (b <- at_ k ;; if b then bump k else ret tt) p (fun _ p' => G (optional [Tok k]) p p').
Proof.
  pose proof (Rr p) as HR. bs.
  - eapply wl_mono; [apply wp_wl, bump_spec; eauto|]. cbv beta. intros _ p' H. eexists. split; [apply (R_trans HR H)|]. intros _. constructor.
  - bs. ans. constructor.
Qed.
Lemma l_type_params n p : wl (type_params n) p (fun _ p' => G params p p').
Proof.
  pose proof (Rr p) as HR. unfold type_params. bs.
  - bs. match goal with HS : Started ?q ?m ?p1, HR1 : R ?p1 ?p1 [] |- wl (bind (names n) _) _ _ =>
      assert (Hnx : next p1 = Some KName) by (rewrite (proj1 (started_next HS)); exact Hn); eapply wl_seq with (Q := fun _ q => G (fun l => exists c, l = repeat name (S c)) p1 q) end.
    + unfold names. destruct n as [|n]; [exact I|]. cbn [while_]. eapply wl_seq with (Q := fun b q => b = true /\ R p1 q [name]).
      * eapply wl_seq; [apply wp_wl, at_spec|]. cbv beta. intros b q (H & _ & _ & Hb & Hx). assert (b = true) by (apply Hb; congruence). subst b.
        eapply wl_seq; [apply wp_wl, bump_name_spec; congruence|]. cbv beta. intros _ q' H'. bs. split; auto. apply (R_trans H H').
      * cbv beta. intros b q [-> H]. eapply wl_mono; [apply (l_names n)|]. cbv beta. intros _ q' (l & H' & Hl). exists ([name] ++ l). split; [apply (R_trans H H')|].
        intros Hc. cl Hc. destruct Hl as (c & ->). exists c. auto.
    + cbv beta. intros _ q (l & H' & Hl). bs. bs. ans. destruct Hl as (c & ->). constructor.
  - bs. ans. constructor.
Qed.
Definition case_ (o : bool) (e : elem) : Prop := exists pipe, (if o then optional [Tok KPipe] pipe else pipe = [Tok KPipe]) /\ tcase pipe e.
Lemma l_type_case n o p : wl (type_case n o) p (fun _ p' => G (fun l => exists e, l = [e] /\ case_ o e) p p').
Proof.
  pose proof (Rr p) as HR. unfold type_case. bs.
  match goal with HR1 : R ?p1 ?p1 [] |- wl _ ?p1 _ => 
    assert (Hp : forall q, wl (b <- (if o then at_ KPipe else ret true) ;; (if b then expect KPipe else ret tt)) q
      (fun _ q' => G (fun l => if o then optional [Tok KPipe] l else l = [Tok KPipe]) q q')) end.
  { intros q. pose proof (Rr q) as HRq. destruct o.
    - bs.
      + eapply wl_mono; [apply l_expect|]. cbv beta. intros _ q' (l & H & Hl). exists l. split; [apply (R_trans HRq H)|]. intros Hc. rewrite (Hl Hc). constructor.
      + bs. ans. constructor.
    - bs. apply l_expect. }
  eapply b_call; [exact HR0|apply Hp|]. clear HR0. intros pipe z1 HR1 Hpipe. bs.
  match goal with HR : R ?p0 ?p ?out |- wl (bind (while_ _ _) _) ?p _ => eapply b_call; [exact HR|apply l_while with (P := field)|clear HR; intros ?l ?p HR ?Hl] end.
  - intros q. pose proof (Rr q) as HRq. bs.
    + bs. bs. bs. bs. ans. repeat constructor.
    + eapply wl_seq; [apply l_types|]. cbv beta. intros o1 q2 Ho. destruct o1 as [m'|].
      * destruct Ho as (y0 & o2 & t & Ho & HC & Hc). pose proof (R_trans HRq Ho) as HRo. eapply wl_seq; [apply wp_wl; eapply precede_spec; [exact HC|apply Rr]|]. cbv beta. intros x q3 [Hq3 _].
        eapply wl_seq; [apply wp_wl; eapply complete2_spec; [exact Hq3|apply Rr|]|].
        -- apply gi_node; [discriminate|]. cbn [app]. apply RC_R, R_grp in HC. exact HC.
        -- cbv beta. intros m2 q4 (-> & HC4 & _). bs. eexists. split; [apply (R_trans HRo (RC_R HC4))|]. intros Hcl. cbn [app] in *. rewrite flat_map_app in Hcl. cbn in Hcl. rewrite !app_nil_r in Hcl.
           destruct Hc as [-> Ht]; [rewrite flat_map_app; cbn; rewrite app_nil_r; auto|]. constructor; [apply fi_type; auto|constructor].
      * bs. exists []. split; [apply (R_trans HRq Ho)|constructor].
  - bs. bs. ans. eexists. split; [reflexivity|]. subst. exists pipe. split; auto. rewrite <- app_assoc. cbn [app]. constructor. auto.
Qed.
Lemma l_commas n : forall p, wl (while_ n (
    b <- at_ KRightParen ;;
    if b then ret false
    else
      expect_name ;;
      b <- at_ KComma ;;
      if b then bump KComma ;; ret true else ret false)) p (fun _ p' => G commas p p').
Proof.
  induction n as [|n IH]; intros p; cbn [while_]; [exact I|]. pose proof (Rr p) as HR. bs. bs.
  - cbv iota. bs. bs. ans. constructor.
  - cbv iota. bs. bs. bs. bs.
    + cbv iota. bs. bs. bs. eapply wl_mono; [apply IH|]. cbv beta. intros _ p' (l' & H' & Hl'). eexists. split; [apply (R_trans HR H')|]. intros Hc. cl Hc. cbv beta in *. subst. cbn [app]. constructor. auto.
    + cbv iota. bs. bs. ans. cbv beta in *. subst. constructor.
Qed.

Lemma b_complete1 B m k (X : nat -> M B) p p1 p2 out (Q : B -> pstate -> Prop) : Started p m p1 -> R p1 p2 out -> k <> BinaryExpr ->
    (forall p3, R p p3 [Node k out] -> wl (X m) p3 Q) -> wl (bind (complete m k) X) p2 Q.
Proof. intros Hs Hr Hk HX. eapply b_complete; [apply Rr|exact Hs|exact Hr|exact Hk|]. intros p3 H _. apply HX. exact H. Qed.
Lemma l_value n m p p1 q x : Started p m p1 -> R p1 q x -> (cleans x -> optional [Tok KExport] x) ->
  wl (value_item n m) q (fun _ p' => G (fun l => exists e, l = [e] /\ item_tree e) p p').
Proof.
  intros Hs HR Hx. unfold value_item. bs. bs. bcall l_annotation. bs. bcall l_expr. bs.
  eapply b_complete1; [exact Hs|exact HR|discriminate|]. intros z H. bs. eexists. split; [exact H|]. intros Hc. cl Hc. cbv beta in *. subst.
  match goal with H : exists e, _ = [e] /\ ex e |- _ => destruct H as (e & -> & He) end. eexists. split; [reflexivity|].
  repeat (cbn [app]; rewrite <- ?app_assoc). apply it_value; auto.
Qed.
Lemma l_type_item n m p p1 q x : Started p m p1 -> R p1 q x -> next q = Some KType -> (cleans x -> optional [Tok KExport] x) ->
  wl (type_item n m) q (fun _ p' => G (fun l => exists e, l = [e] /\ item_tree e) p p').
Proof.
  intros Hs HR Hn Hx. unfold type_item. bs. bs. bcall l_type_params. bs. bcall l_opt. bcall (l_type_case n true).
  match goal with HR : R ?p0 ?p ?out |- wl (bind (while_ _ _) _) ?p _ => eapply b_call; [exact HR|apply l_while with (P := tcase [Tok KPipe])|clear HR; intros ?l ?p HR ?Hl] end.
  - intros z. pose proof (Rr z) as HRz. bs.
    + eapply wl_seq; [apply (l_type_case n false)|]. cbv beta. intros _ z' (l' & H' & Hl'). bs. exists l'. split; [apply (R_trans HRz H')|]. intros Hc.
      destruct (Hl' Hc) as (e & -> & pipe & -> & He). auto.
    + bs. ans. constructor.
  - bs. eapply b_complete1; [exact Hs|exact HR|discriminate|]. intros z H. bs. eexists. split; [exact H|]. intros Hc. cl Hc. cbv beta in *. subst.
    match goal with H : exists e, _ = [e] /\ case_ true e |- _ => destruct H as (e & -> & pipe & Hpipe & He) end. eexists. split; [reflexivity|].
    repeat (cbn [app]; rewrite <- ?app_assoc). eapply it_type; eauto.
Qed.
Lemma l_recover_item n p : wl (error_recover_item n) p (fun _ p' => G (fun _ => False) p p').
Proof.
  unfold error_recover_item. eapply wl_seq; [apply l_emit|]. cbv beta. intros _ p1 (l & HR & Hl).
  bs. match goal with HR : R ?p0 ?p ?out |- wl (bind (while_ _ _) _) ?p _ => eapply b_call; [exact HR|apply l_while with (P := fun _ => True)|clear HR; intros ?l ?p HR ?Hl] end.
  - intros q. eapply wl_seq; [apply wp_wl, peek_spec|]. cbv beta. intros o q1 (A & B & _). destruct o as [k|].
    + unfold wl. destruct (recovers (sol q1) k).
      * exists []. split; [exact A|constructor].
      * assert (W : wl (bump k ;; ret true) q1 (fun _ q' => G (Forall (fun _ => True)) q q')).
        { eapply wl_seq; [apply wp_wl, bump_spec; auto|]. cbv beta. intros _ q' H'. bs. eexists. split; [apply (R_trans A H')|]. intros _. repeat constructor. }
        exact W.
    + bs. exists []. split; [exact A|constructor].
  - bs. bs. eexists. split; [match goal with H : R p ?z (_ ++ _) |- R p ?z _ => exact H end|]. rewrite flat_map_app. intros Hc. apply app_eq_nil in Hc as [Hc _]. auto.
Qed.
Lemma l_exposed n p : next p = Some KLeftParen -> wl (exposed_list n) p (fun _ p' => G exposed p p').
Proof.
  intros Hn. pose proof (Rr p) as HR. unfold exposed_list. bs. bs. bcall l_commas. bs. bs. bs. ans. cbv beta in *. subst. cbn [app]; constructor. auto.
Qed.
Lemma l_item n p : wl (item n) p (fun _ p' => G (fun l => exists e, l = [e] /\ item_tree e) p p').
Proof.
  pose proof (Rr p) as HR. unfold item. bs.
  assert (Out : forall A (m : M A) q q0 (Q : list elem -> Prop), R p q [] -> wl m q (fun _ q' => G Q q0 q') -> q0 = q -> wl m q (fun _ q' => G Q p q')).
  { intros A m q y0 Q H W ->. eapply wl_mono; [exact W|]. cbv beta. intros _ q' (l & H' & Hl). exists l. split; auto. apply (R_trans H H'). }
  assert (OutS : forall (m : M unit) (Q : list elem -> Prop) q z, R p q [] -> wl m z (fun _ q' => G Q q q') -> wl m z (fun _ q' => G Q p q')).
  { intros m Q q z H W. eapply wl_mono; [exact W|]. cbv beta. intros _ q' (l & H' & Hl). exists l. split; auto. apply (R_trans H H'). }
  bs.
  - bs. bs. bs; [eapply OutS; [exact HR|]; eapply l_value; [exact Hs|exact HR0|constructor]|].
    bs; [eapply OutS; [exact HR|]; eapply l_type_item; [exact Hs|exact HR0|auto|constructor]|].
    bs. eapply wl_mono; [apply l_recover_item|]. cbv beta. intros _ q' (l & H' & Hl). eexists. split; [apply (R_trans HR0 H')|]. intros Hc. cl Hc. contradiction.
  - bs; [bs; eapply OutS; [exact HR|]; eapply l_value; [exact Hs|exact HR0|constructor]|].
    bs; [bs; eapply OutS; [exact HR|]; eapply l_type_item; [exact Hs|exact HR0| |constructor]; rewrite (proj1 (started_next Hs)); auto|].
    bs.
    + bs. bs.
      match goal with HR : R ?p0 ?p ?out |- wl (bind _ _) ?p _ => eapply b_call with (P := optional [name]); [exact HR| |clear HR; intros ?l ?p HR ?Hl] end.
      { match goal with |- wl _ ?q _ => pose proof (Rr q) as HRq end. bs.
        - eapply wl_mono; [apply wp_wl, bump_name_spec; eauto|]. cbv beta. intros _ p' H. eexists. split; [apply (R_trans HRq H)|]. intros _. constructor.
        - bs. ans. constructor. }
      match goal with HR : R ?p0 ?p ?out |- wl (bind _ _) ?p _ => eapply b_call with (P := exposed); [exact HR| |clear HR; intros ?l ?p HR ?Hl] end.
      { match goal with |- wl _ ?q _ => pose proof (Rr q) as HRq end. bs.
        - eapply wl_mono; [apply l_exposed; auto|]. cbv beta. intros _ p' (l' & H & Hl'). eexists. split; [apply (R_trans HRq H)|]. auto.
        - bs. ans. constructor. }
      bs. bs. bs. bs. bs. ans. cbv beta in *. subst. eexists. split; [reflexivity|]. repeat (cbn [app]; rewrite <- ?app_assoc). apply it_import; auto.
    + eapply wl_mono; [apply l_recover_item|]. cbv beta. intros _ q' (l & H' & Hl). eexists. split; [apply (R_trans HR H')|]. intros Hc. cl Hc. destruct Hl.
Qed.
