(** The grammar functions. *)
From Verif Require Import Parser ParserSpec ParserProofs ParserRun.
Set Implicit Arguments.

Lemma Rx_refl p : Rx p p.
Proof. exists []. apply R_refl; repeat split. Qed.
Lemma started_cnt p m p1 : Started p m p1 -> cnt p1 = cnt p.
Proof. intros [_ ->]. auto. Qed.
Lemma RC_cnt p p' m t : RC p p' m t -> cnt p = length (yield t) + cnt p'.
Proof. intros H. apply RC_R, R_cnt in H. cbn in H. rewrite app_nil_r in H. auto. Qed.
Lemma preceded_cnt p p3 x t o : Preceded p p3 x t o -> cnt p3 <= cnt p.
Proof.
  intros (C & CL & sp & idx & m & ks & tl & s1 & u & B & _). unfold cnt. rewrite (b_toks B), nt_app, app_length. lia.
Qed.
Lemma Rx_same_l p p' q : Rx p q -> same p' p -> evs p' = evs p -> Rx p' q.
Proof. intros H E1 E2. eapply Rx_trans; [|exact H]. exists []. apply R_refl; auto. Qed.

Ltac rx :=
  match goal with
  | |- Rx ?p ?p => apply Rx_refl
  | H : Rx ?p ?q |- Rx ?p ?q => exact H
  | H : R ?p ?x _ |- Rx ?p _ => apply (Rx_trans (R_Rx H)); rx
  | H : Rx ?p ?x |- Rx ?p _ => apply (Rx_trans H); rx
  | H : RC ?p ?x _ _ |- Rx ?p _ => apply (Rx_trans (RC_Rx H)); rx
  end.
Ltac cnts :=
  repeat match goal with
  | H : R _ _ _ |- _ => apply R_cnt in H; cbn [yields flat_map yield length app] in H
  | H : Rx _ _ |- _ => apply Rx_cnt in H
  | H : RC _ _ _ _ |- _ => apply RC_Rx, Rx_cnt in H
  | H : Started _ _ _ |- _ => apply started_cnt in H
  | H : Preceded _ _ _ _ _ |- _ => apply preceded_cnt in H
  | H : toks _ = toks _ |- _ => apply cnt_same in H
  end; lia.
Ltac nx :=
  match goal with
  | |- next ?p = Some _ => eassumption
  | H : Started ?q _ ?p |- next ?p = Some _ => rewrite (proj1 (started_next H)); nx
  | H : R ?q ?p [] |- next ?p = Some _ => rewrite (R_next0 H eq_refl); nx
  end.

Lemma if_at A (k : kind) (X Y : M A) p Q : k <> KError ->
  (forall p1, R p p1 [] -> hints p1 = hints p -> expd p1 <> [] -> next p1 = Some k -> wp X p1 Q) ->
  (forall p1, R p p1 [] -> hints p1 = hints p -> expd p1 <> [] -> next p1 <> Some k -> wp Y p1 Q) ->
  wp (bind (at_ k) (fun b => if b then X else Y)) p Q.
Proof.
  intros Hk H1 H2. eapply wp_seq; [apply at_spec|]. cbn. intros b p1 (A1 & B & C & D & E). destruct b.
  - apply H1; auto. apply D; auto.
  - apply H2; auto. intros F. apply D in F. discriminate.
Qed.
Lemma if_at2 A B (k : kind) (X Y : M A) (F : A -> M B) p Q : k <> KError ->
  (forall p1, R p p1 [] -> hints p1 = hints p -> expd p1 <> [] -> next p1 = Some k -> wp (bind X F) p1 Q) ->
  (forall p1, R p p1 [] -> hints p1 = hints p -> expd p1 <> [] -> next p1 <> Some k -> wp (bind Y F) p1 Q) ->
  wp (bind (at_ k) (fun b => bind (if b then X else Y) F)) p Q.
Proof.
  intros Hk H1 H2. eapply wp_seq; [apply at_spec|]. cbn. intros b p1 (A1 & B1 & C & D & E). destruct b.
  - apply H1; auto. apply D; auto.
  - apply H2; auto. intros G. apply D in G. discriminate.
Qed.
Lemma wp_assoc A B C (m : M A) (f : A -> M B) (g : B -> M C) p Q :
  wp (bind m (fun a => bind (f a) g)) p Q -> wp (bind (bind m f) g) p Q.
Proof. unfold wp, bind. destruct (m p) as [[a p']| |]; auto. Qed.

(** One step of a parsing function. *)
Ltac step :=
  lazymatch goal with
  | |- wp (bind (hint_ _) _) _ _ => eapply wp_seq; [apply hint_spec|cbv beta; intros _ ?p [? ?]]
  | |- wp (bind start _) _ _ => eapply wp_seq; [apply start_spec|cbv beta; intros ?m ?p ?Hs]
  | |- wp (bind (bump _) _) _ _ => eapply wp_seq; [apply bump_spec; nx|cbv beta; intros _ ?p ?]
  | |- wp (bind bump_name _) _ _ => eapply wp_seq; [apply bump_name_spec; nx|cbv beta; intros _ ?p ?]
  | |- wp (bind bump_any _) _ _ => eapply wp_seq; [eapply bump_any_spec; nx|cbv beta; intros _ ?p ?]
  | |- wp (bind (expect _) _) _ _ => eapply wp_seq; [apply expect_spec; discriminate|cbv beta; intros _ ?p [? ?]]
  | |- wp (bind expect_name _) _ _ => eapply wp_seq; [apply expect_name_spec|cbv beta; intros _ ?p ?]
  | |- wp (bind (at_ _) (fun b => if b then _ else _)) _ _ => apply if_at; [discriminate|intros ?p ? ? ? ?..]
  | |- wp (bind (at_ _) (fun b => bind (if b then _ else _) _)) _ _ => apply if_at2; [discriminate|intros ?p ? ? ? ?..]
  | |- wp (bind (bind _ _) _) _ _ => apply wp_assoc; cbv beta
  | |- wp (bind (ret _) _) _ _ => apply wp_bind, wp_ret
  | |- wp (ret _) _ _ => apply wp_ret
  end.
Ltac steps := repeat step.
(** Completing a node started at [Hs]. *)
Ltac compl := match goal with
  | Hs : Started ?p ?m ?p1 |- wp (bind (complete ?m _) _) _ _ =>
    eapply wp_seq; [eapply complete_x; [exact Hs|rx|discriminate]|cbv beta; intros ?m' ?p (-> & (?l & ?HC) & ?)]
  | Hs : Preceded ?p ?p1 ?m _ _ |- wp (bind (complete ?m _) _) _ _ =>
    eapply wp_seq; [eapply complete2_x; [exact Hs|rx|discriminate]|cbv beta; intros ?m' ?p (-> & (?l & ?HC) & ?)]
  end.

Lemma dotted_spec p : wp dotted p (fun _ p' => Rx p p').
Proof.
  unfold dotted. step.
  - step. eapply wp_mono; [apply expect_name_spec|]. cbn. intros. rx.
  - step. rx.
Qed.
Ltac use_ spec := eapply wp_seq; [apply spec|cbv beta; intros _ ?p ?].

Definition atomF (c : nat) (m : M (option nat)) : Prop :=
  forall p, cnt p <= c -> wp m p (fun o p' => match o with
    | Some m => exists k l, RC p p' m (Node k l) /\ k <> BinaryExpr /\ cnt p' < cnt p
    | None => R p p' [] /\ hints p' <> [] end).

Definition atomT (c : nat) (m : M (option nat)) : Prop :=
  forall p, cnt p <= c -> wp m p (fun o p' => match o with
    | Some m => exists p0 k l, Rx p p0 /\ RC p0 p' m (Node k l) /\ k <> BinaryExpr /\ cnt p' < cnt p
    | None => R p p' [] /\ hints p' <> [] end).

Lemma error_recover_spec h p : hints p <> [] \/ expd p <> [] -> wp (error_recover h) p (fun _ p' => Rx p p').
Proof.
  intros H. unfold error_recover. eapply wp_seq; [apply emit_error_x; auto|]. cbv beta. intros _ p1 H1.
  eapply wp_seq; [apply peek_spec|]. cbv beta. intros o p2 (A & B & _ & _ & _ & _ & _). destruct o as [k|]; [|step; rx].
  destruct (hint_starts h k); [step; rx|]. symmetry in B. step. step. compl. step. rx.
Qed.

(** A tree for the first [R p p1 []] steps. *)
Lemma RC_from p p1 p2 m t : R p p1 [] -> evs p1 = evs p -> RC p1 p2 m t -> RC p p2 m t.
Proof.
  intros (n & u & B & E & _) Ee (C & CL & sp & idx & ks & tl & used & B' & E' & H).
  exists C, CL, sp, idx, ks, tl, (u ++ used). split; [apply (base_trans B B')|]. rewrite Ee in *. auto.
Qed.
Lemma R0_evs p p1 : R p p1 [] -> evs p1 = evs p.
Proof. intros (n & u & _ & E & S). inversion S; subst. rewrite E, app_nil_r. auto. Qed.
Lemma RC_pre p p1 p2 m t : R p p1 [] -> RC p1 p2 m t -> RC p p2 m t.
Proof. intros H. apply RC_from; auto. apply R0_evs; auto. Qed.
Ltac rc :=
  match goal with
  | H : RC ?p ?q _ _ |- RC ?p ?q _ _ => exact H
  | H : R ?p ?x [] |- RC ?p _ _ _ => apply (RC_pre H); rc
  end.
Lemma R0_trans p p1 p2 : R p p1 [] -> R p1 p2 [] -> R p p2 [].
Proof. intros H1 H2. apply (R_trans H1 H2). Qed.
Ltac r0 :=
  match goal with
  | H : R ?p ?q [] |- R ?p ?q [] => exact H
  | H : R ?p ?x [] |- R ?p _ [] => apply (R0_trans H); r0
  end.
Ltac some_node := eexists _, _; split; [rc|]; split; [discriminate|cnts].

Ltac some_type := match goal with |- exists p0 k l, Rx ?p p0 /\ RC p0 ?q _ _ /\ _ /\ _ =>
  exists p; eexists _, _; split; [rx|]; split; [rc|]; split; [discriminate|cnts] end.
Lemma types_ok : forall n,
  (forall p, 10 * cnt p + 4 <= n -> wp (type_ n) p (fun _ p' => Rx p p')) /\
  (forall c, 10 * c + 3 <= n -> atomT c (non_fn_type n)) /\
  (forall c, 10 * c + 2 <= n -> atomT c (atom_type n)).
Proof.
  induction n as [|n (IHt & IHn & IHa)]; [split; [|split]; intros; lia|]. split; [|split].
  - intros p Hf. cbn [type_]. step. eapply wp_seq; [apply (IHn (cnt p)); cnts|]. cbv beta. intros o p2 Ho. destruct o as [m|].
    + destruct Ho as (p0' & k & l & Hx0 & Hc & Hk & Hl). step.
      * eapply wp_seq; [eapply precede_spec; eauto|]. cbv beta. intros x p3 [Hp Ht].
        assert (next p3 = Some KArrow) by (unfold next in *; rewrite Ht; auto). step.
        eapply wp_seq; [apply IHt; cnts|]. cbv beta. intros _ p5 Hx. compl. step. rx.
      * step. rx.
    + destruct Ho as [Ho Hh]. eapply wp_mono; [apply error_recover_spec; auto|]. cbn. intros _ p' Hx. rx.
  - intros c Hf p Hc. cbn [non_fn_type]. step.
    + step. step. use_ dotted_spec.
      eapply wp_seq; [apply while_spec|].
      * intros p' Hp'. eapply wp_seq; [apply (IHa (cnt p')); [cnts|auto]|]. cbv beta. intros o q Ho. step. destruct o as [m'|].
        -- destruct Ho as (p0' & k & l & Hx & A & B & C). split; [rx|auto].
        -- destruct Ho as [A _]. split; [rx|discriminate].
      * cnts.
      * cbv beta. intros _ q Hq. compl. step. some_type.
    + eapply wp_mono; [apply (IHa c); [lia|cnts]|]. cbv beta. intros o p' Ho. destruct o as [m|].
      * destruct Ho as (p0' & k & l & Hx & A & B & C). exists p0', k, l. split; [rx|]. split; [rc|]. split; auto. cnts.
      * destruct Ho as [A B]. split; [r0|auto].
  - intros c Hf p Hc. cbn [atom_type]. step.
    step; [step; step; compl; step; some_type|].
    step; [step; step; compl; step; some_type|].
    step; [step; step; compl; step; some_type|].
    step; [step; step; use_ dotted_spec; compl; step; some_type|].
    step.
    { step. step. eapply wp_seq; [apply IHt; cnts|]. cbv beta. intros _ q Hq. step. compl. step. some_type. }
    step.
    { eapply wp_seq; [apply emit_error_spec; auto|]. cbv beta. intros _ q (sp & out & Hq & Hcase).
      destruct Hcase as [[Hn _]|[_ ->]]; [congruence|].
      step. assert (next q = Some KRec) by (rewrite (R_next0 Hq eq_refl); auto).
      step. compl. step. exists q. eexists _, _. split; [rx|]. split; [rc|]. split; [discriminate|cnts]. }
    step. split; [r0|]. congruence.
Qed.

Lemma annotation_spec n p : 10 * cnt p + 4 <= n -> wp (annotation n) p (fun _ p' => Rx p p').
Proof.
  intros Hf. unfold annotation. step.
  - step. eapply wp_mono; [apply types_ok; cnts|]. cbv beta. intros. rx.
  - step. rx.
Qed.
Lemma names_spec n p : cnt p < n -> wp (names n) p (fun _ p' => Rx p p').
Proof.
  intros Hf. unfold names. apply while_spec; auto. intros w Hw. step.
  - step. step. split; [rx|]. intros _. cnts.
  - step. split; [rx|discriminate].
Qed.

Lemma RC_post p q p' m t : RC p q m t -> R q p' [] -> RC p p' m t.
Proof.
  intros (C & CL & sp & idx & ks & tl & used & B & E & H) Hr. pose proof (R0_evs Hr) as Ee. destruct Hr as (n & u & B' & _).
  exists C, CL, sp, idx, ks, tl, (used ++ u). split; [apply (base_trans B B')|]. rewrite Ee. auto.
Qed.

Lemma while_with_spec A (I I' : A -> pstate -> Prop) body :
  (forall a p, I a p -> wp (body a) p (fun o p' => match o with Some a' => I a' p' /\ cnt p' < cnt p | None => I' a p' end)) ->
  forall n a p, I a p -> cnt p < n -> wp (while_with n body a) p I'.
Proof.
  intros Hb. induction n as [|n IH]; intros a p Ha Hn; [lia|]. cbn. eapply wp_seq; [apply Hb; auto|]. cbv beta.
  intros o p' Ho. destruct o as [a'|]; [destruct Ho; apply IH; auto; lia|]. apply wp_ret. auto.
Qed.

Lemma binding_level k : match binding_power k with Some (a, b) => level k = Some a /\ b = S a | None => level k = None end.
Proof. destruct k; cbn; auto. Qed.

Definition is_error (out : list elem) : Prop := exists sp, out = [Err sp] \/ out = [Err sp; Tok KError].
(** The result of [op_expr]: either an error or one tree, whose operator binds at least as tight as asked,
    and what follows binds looser. *)
Definition opS (min : nat) (p p' : pstate) : Prop :=
  exists out, R p p' out /\
    (is_error out \/
     (exists k l, out = [Node k l] /\ (forall q, top_level (Node k l) q -> min <= q) /\ cnt p' < cnt p) /\
     (forall k' q', next p' = Some k' -> level k' = Some q' -> q' < min)).

Lemma exprs_ok : forall n,
  (forall p, 10 * cnt p + 5 <= n -> wp (expr n) p (fun _ p' => Rx p p')) /\
  (forall p, next p = Some KPipe -> 10 * cnt p + 3 <= n -> wp (match_case n) p (fun _ p' => Rx p p' /\ cnt p' < cnt p)) /\
  (forall p min, 10 * cnt p + 4 <= n -> wp (op_expr n min) p (fun _ p' => opS min p p')) /\
  (forall p, 10 * cnt p + 3 <= n -> wp (apply_expr n) p (fun o p' => match o with
     | Some m => exists k l, RC p p' m (Node k l) /\ k <> BinaryExpr /\ cnt p' < cnt p
     | None => exists out, R p p' out /\ is_error out end)) /\
  (forall c, 10 * c + 2 <= n -> atomF c (atom_expr n)).
Proof.
  induction n as [|n (IHe & IHm & IHo & IHp & IHa)]; [repeat split; intros; try lia; intros ? ?; lia|].
  split; [|split; [|split; [|split]]].
  - intros p Hf. cbn [expr]. step.
    assert (Hex : forall q, cnt q < cnt p -> wp (expr n) q (fun _ p' => Rx q p')) by (intros; apply IHe; lia).
    step.
    { step. step. step. eapply wp_seq; [apply annotation_spec; cnts|cbv beta; intros _ ? ?]. step.
      eapply wp_seq; [apply Hex; cnts|cbv beta; intros _ ? ?]. step.
      eapply wp_seq; [apply Hex; cnts|cbv beta; intros _ ? ?]. compl. step. rx. }
    step.
    { step. step. eapply wp_seq; [apply Hex; cnts|cbv beta; intros _ ? ?]. step.
      eapply wp_seq; [apply while_spec|].
      - intros w Hw. step.
        + eapply wp_seq; [apply IHm; [auto|cnts]|cbv beta; intros _ ? [? ?]]. step. split; [rx|cnts].
        + step. split; [rx|discriminate].
      - cnts.
      - cbv beta. intros _ ? ?. step. compl. step. rx. }
    step.
    { step. step. eapply wp_seq; [apply Hex; cnts|cbv beta; intros _ ? ?]. step.
      eapply wp_seq; [apply Hex; cnts|cbv beta; intros _ ? ?]. step.
      eapply wp_seq; [apply Hex; cnts|cbv beta; intros _ ? ?]. compl. step. rx. }
    step.
    { step. step. step. step.
      - eapply wp_seq; [apply bump_spec; nx|cbv beta; intros _ ? ?]. step. step.
        eapply wp_seq; [apply Hex; cnts|cbv beta; intros _ ? ?]. compl. step. rx.
      - step. step. step. eapply wp_seq; [apply Hex; cnts|cbv beta; intros _ ? ?]. compl. step. rx. }
    eapply wp_mono; [apply IHo; cnts|]. cbv beta. intros _ p' (out & Ho & _). rx.
  - intros p Hn Hf. cbn [match_case]. step. step. step. use_ dotted_spec. step.
    eapply wp_seq; [apply names_spec; cnts|cbv beta; intros _ ? ?]. compl. step.
    eapply wp_seq; [apply IHe; cnts|cbv beta; intros _ ? ?]. compl. step. split; [rx|cnts].
  - intros p min Hf. cbn [op_expr]. step. eapply wp_seq; [apply IHp; cnts|]. cbv beta. intros o p2 Ho. destruct o as [m|].
    2:{ destruct Ho as (out & Ho & He). step. exists out. split; auto. apply (R_trans H Ho). }
    destruct Ho as (k & l & Hc & Hk & Hl). step.
    eapply wp_seq; [eapply while_with_spec with
      (I := fun m p' => exists k l, RC p p' m (Node k l) /\ cnt p' < cnt p /\ (forall q, top_level (Node k l) q -> min <= q) /\
             (has_right (Node k l) -> forall q k' q', top_level (Node k l) q -> next p' = Some k' -> level k' = Some q' -> q' <= q))
      (I' := fun m p' => exists k l, RC p p' m (Node k l) /\ cnt p' < cnt p /\ (forall q, top_level (Node k l) q -> min <= q) /\
             (forall k' q', next p' = Some k' -> level k' = Some q' -> q' < min))|..].
    + clear - IHo Hf. intros m p1 (k & l & Hc & Hl & Hmin & Hr).
      eapply wp_seq; [apply peek_spec|]. cbv beta. intros o p2 (A & B & _ & _ & _ & D & _).
      destruct o as [k0|].
      2:{ step. exists k, l. split; [apply (RC_post Hc A)|]. split; [cnts|]. split; auto. intros k' q' E. congruence. }
      pose proof (binding_level k0) as Hb. destruct (binding_power k0) as [[power rp]|].
      2:{ step. exists k, l. split; [apply (RC_post Hc A)|]. split; [cnts|]. split; auto. intros k' q' E. congruence. }
      destruct Hb as [Hlev ->]. destruct (power <? min) eqn:Em.
      { apply Nat.ltb_lt in Em. step. exists k, l. split; [apply (RC_post Hc A)|]. split; [cnts|]. split; auto. intros k' q' E E'. rewrite <- B in E. injection E as ->. congruence. }
      apply Nat.ltb_ge in Em. symmetry in B.
      eapply wp_seq; [eapply precede_spec; [exact Hc|exact A]|]. cbv beta. intros x p3 [Hp Ht].
      assert (next p3 = Some k0) by (unfold next in *; rewrite Ht; auto).
      step. step.
      eapply wp_seq; [eapply complete_spec; [exact Hs|eassumption|apply gi_node; [discriminate|repeat constructor]]|].
      cbv beta. intros m' p6 (-> & Hop & Ht6).
      eapply wp_seq; [apply IHo; cnts|]. cbv beta. intros _ p7 (out & Ho & Hcase).
      pose proof (R_trans (RC_R Hop) Ho) as Hall. cbn [app] in Hall.
      assert (Hgt : ginner (Node k l)).
      { apply RC_R, R_grp in Hc. inversion Hc; auto. }
      eapply wp_seq; [eapply complete2_spec; [exact Hp|exact Hall|]|].
      { cbn [app]. apply gi_binary with (p := power); eauto.
        - eapply R_grp; eauto.
        - destruct Hcase as [[sp Hsp]|[(k' & l' & -> & _) _]]; eauto.
        - intros y Hy q Hq. destruct Hcase as [[sp [->| ->]]|[(k' & l' & -> & Hge & _) _]]; cbn in Hy.
          + destruct Hy as [<-|[]]. destruct Hq as (? & ? & ? & E & _). discriminate.
          + destruct Hy as [<-|[<-|[]]]; destruct Hq as (? & ? & ? & E & _); discriminate.
          + destruct Hy as [<-|[]]. apply Hge in Hq. lia.
        - intros Hhr q Hq. eapply Hr; eauto. congruence. }
      cbn [app]. cbv beta. intros m' p8 (-> & H8 & Ht8). step. step.
      match goal with H9 : R p8 ?p9 [] |- _ => split; [|cnts];
        exists BinaryExpr, (Node k l :: Node BinaryOp [Tok k0] :: out); split; [apply (RC_post H8 H9)|]; split; [cnts|] end.
      split.
      * intros q (l1 & op1 & r1 & E & Elev). injection E as <- <- <-. rewrite Hlev in Elev. injection Elev as <-. auto.
      * intros (l1 & o1 & r1 & k1 & ch & E & Hin) q k' q' (l2 & op2 & r2 & E' & Elev) Hn Hlv. injection E' as <- <- <-. rewrite Hlev in Elev. injection Elev as <-.
        injection E as <- <- <-. destruct Hcase as [[sp [->| ->]]|[_ Hlow]]; [cbn in Hin; destruct Hin as [?|[]]; discriminate|cbn in Hin; destruct Hin as [?|[?|[]]]; discriminate|].
        match goal with H9 : R p8 ?p9 [] |- _ => rewrite (R_next0 H9 eq_refl) in Hn end.
        assert (Hn7 : next p7 = Some k') by (unfold next in *; rewrite <- Ht8; auto). specialize (Hlow _ _ Hn7 Hlv). lia.
    + match goal with H9 : R p2 ?p9 [] |- _ => exists k, l; split; [apply (RC_pre H), (RC_post Hc H9)|]; split; [cnts|] end.
      split; [intros q (? & ? & ? & E & _); congruence|]. intros (? & ? & ? & ? & ? & E & _); congruence.
    + cnts.
    + cbv beta. intros m' p' (k' & l' & A & B & C & D). step. exists [Node k' l']. split; [eapply RC_R; eauto|]. right. split; auto. exists k', l'. auto.
  - intros p Hf. cbn [apply_expr]. eapply wp_seq; [apply (IHa (cnt p)); lia|]. cbv beta. intros o p1 Ho. destruct o as [m|].
    + destruct Ho as (k & l & Hc & Hk & Hl).
      eapply wp_seq; [eapply while_with_spec with
        (I := fun m p' => exists k l, RC p p' m (Node k l) /\ k <> BinaryExpr /\ cnt p' < cnt p)
        (I' := fun m p' => exists k l, RC p p' m (Node k l) /\ k <> BinaryExpr /\ cnt p' < cnt p)|..].
      * clear - IHa Hf. intros m p1 (k & l & Hc & Hk & Hl). eapply wp_seq; [apply (IHa (cnt p1)); lia|]. cbv beta. intros o p2 Ho. destruct o as [m1|].
        -- destruct Ho as (k1 & l1 & Hc1 & Hk1 & Hl1). eapply wp_seq; [eapply precede_spec; [exact Hc|apply (RC_R Hc1)]|]. cbv beta. intros x p3 [Hp Ht].
           eapply wp_seq; [eapply complete2_x; [exact Hp|apply Rx_refl|discriminate]|]. cbv beta. intros m' p4 (-> & (l4 & H4) & Ht4). step.
           apply cnt_same in Ht, Ht4. split; [|lia]. exists ApplyExpr, l4. split; auto. split; [discriminate|lia].
        -- destruct Ho as [A _]. step. exists k, l. split; [apply (RC_post Hc A)|]. split; auto. cnts.
      * exists k, l. auto.
      * lia.
      * cbv beta. intros m' p' Hx. step. auto.
    + destruct Ho as [A Hh]. eapply wp_seq; [apply emit_error_spec; auto|]. cbv beta. intros _ p2 (sp & out & Hr & Hcase). step.
      exists out. split; [apply (R_trans A Hr)|]. exists sp. destruct Hcase as [[_ ->]|[_ ->]]; auto.
  - intros c Hf p Hc. cbn [atom_expr]. step.
    step.
    { step. step. eapply wp_seq; [apply IHe; cnts|cbv beta; intros _ ? ?]. step. compl. step. some_node. }
    apply wp_assoc. step.
    { step. step. step. compl. step. some_node. }
    step; [step; step; compl; step; some_node|].
    step; [step; step; compl; step; some_node|].
    step; [step; step; compl; step; some_node|].
    step.
    { step. step. step.
      - step. step. compl. step. some_node.
      - compl. step. some_node. }
    step; [step; step; compl; step; some_node|].
    step. split; [r0|]. congruence.
Qed.

(** Items. *)
Lemma error_recover_item_spec n p : hints p <> [] \/ expd p <> [] -> cnt p < n ->
  wp (error_recover_item n) p (fun _ p' => Rx p p' /\
    (forall k, next p = Some k -> recovers true k = false -> cnt p' < cnt p)).
Proof.
  intros Hh Hn. unfold error_recover_item. eapply wp_seq; [apply emit_error_spec; auto|]. cbv beta. intros _ p1 (sp & out & Hr & Hcase).
  step.

  assert (Hbody : forall q, wp (o <- peek ;; match o with
            | Some k => fun p => if recovers (sol p) k then Ok (false, p) else (bump k ;; ret true) p
            | None => ret false end) q
    (fun b q' => Rx q q' /\ (b = true -> cnt q' < cnt q) /\ (forall k, next q = Some k -> recovers true k = false -> b = true))).
  { intros q. eapply wp_seq; [apply peek_spec|]. cbv beta. intros o q1 (A & B & _ & _ & _ & D & _). destruct o as [k|].
    2:{ step. split; [rx|]. split; [discriminate|]. intros k E. congruence. }
    unfold wp. destruct (recovers (sol q1) k) eqn:Er.
    - split; [rx|]. split; [discriminate|]. intros k' E. assert (k' = k) by congruence. subst k'. destruct k; cbn in *; congruence.
    - symmetry in B. assert (W : wp (bump k ;; ret true) q1 (fun b q' => b = true /\ R q1 q' [Tok k])).
      { step. step. auto. }
      unfold wp in W. destruct ((bump k ;; ret true) q1) as [[b q']| |]; auto. destruct W as [-> W]. split; [rx|]. split; auto. intros _. cnts. }
  eapply wp_seq with (Q := fun _ q => Rx p0 q /\ (forall k, next p0 = Some k -> recovers true k = false -> cnt q < cnt p0)).
  - destruct n as [|n]; [lia|]. cbn [while_]. eapply wp_seq; [apply Hbody|]. cbv beta. intros b q (A & B & C). destruct b.
    + eapply wp_mono; [apply while_spec|].
      * intros q' Hq'. eapply wp_mono; [apply Hbody|]. cbv beta. intros b q'' (A' & B' & _). auto.
      * specialize (B eq_refl). cnts.
      * cbv beta. intros _ q' Hq'. specialize (B eq_refl). split; [rx|]. intros. cnts.
    + step. split; auto. intros k E E'. discriminate (C _ E E').
  - cbv beta. intros _ q [A B]. compl. step. split; [rx|]. intros k E Ek.
    destruct (started_next Hs) as (E1 & E2 & _).
    destruct Hcase as [[En ->]|[En ->]]; [cnts|].
    assert (next p0 = Some k) by (rewrite E1, (R_next0 Hr eq_refl); auto). specialize (B _ H0 Ek). cnts.
Qed.

Lemma value_item_spec n m p p1 q : Started p m p1 -> Rx p1 q -> next q = Some KLet -> 10 * cnt q + 10 <= n ->
  wp (value_item n m) q (fun _ p' => Rx p p' /\ cnt p' < cnt q).
Proof.
  intros Hs Hq Hn Hf. unfold value_item. step. specialize (H0 Hn). step.
  eapply wp_seq; [apply annotation_spec; cnts|cbv beta; intros _ ? ?]. step.
  eapply wp_seq; [apply exprs_ok; cnts|cbv beta; intros _ ? ?]. step. compl. step. split; [rx|cnts].
Qed.
Lemma type_params_spec n p : cnt p < n -> wp (type_params n) p (fun _ p' => Rx p p').
Proof.
  intros Hf. unfold type_params. step.
  - step. eapply wp_seq; [apply names_spec; cnts|cbv beta; intros _ ? ?]. compl. step. rx.
  - step. rx.
Qed.
Lemma type_case_spec n o p : 10 * cnt p + 10 <= n ->
  wp (type_case n o) p (fun _ p' => Rx p p' /\ (next p = Some KPipe -> cnt p' < cnt p)).
Proof.
  intros Hf. unfold type_case. step. step.
  destruct (started_next Hs) as (E1 & E2 & _).
  eapply wp_seq with (Q := fun b q => R p0 q [] /\ (next p0 = Some KPipe -> b = true)).
  { destruct o; [|step; split; [apply R_refl; repeat split|auto]].
    eapply wp_mono; [apply at_spec|]. cbv beta. intros b q (A & _ & _ & B & C). split; auto. rewrite <- C. tauto. }
  cbv beta. intros b q [Hq Hb].
  eapply wp_seq with (Q := fun _ q' => Rx q q' /\ (next p0 = Some KPipe -> cnt q' < cnt q)).
  { destruct b.
    - eapply wp_mono; [apply expect_spec; discriminate|]. cbv beta. intros _ q' [A B]. split; auto. intros E. apply B. rewrite (R_next0 Hq eq_refl). auto.
    - step. split; [rx|]. intros E. discriminate (Hb E). }
  cbv beta. intros _ q1 [A B]. step. 
  eapply wp_seq; [apply while_spec|].
  - intros w Hw. step.
    + step. step. compl. step. split; [rx|cnts].
    + eapply wp_seq; [eapply types_ok with (c := cnt w); cnts|]. cbv beta. intros o1 q2 Ho. destruct o1 as [m'|].
      * destruct Ho as (p0' & k & l & Hx0 & Hc & Hk & Hl). eapply wp_seq; [eapply precede_spec; [exact Hc|apply R_refl; repeat split]|].
        cbv beta. intros x p3 [Hp Ht]. compl. step. split; [rx|]. intros _. cnts.
      * destruct Ho as [Ho _]. step. split; [rx|discriminate].
  - cnts.
  - cbv beta. intros _ ? ?. compl. step. split; [rx|]. intros E. rewrite <- E1 in E. specialize (B E). cnts.
Qed.
Lemma type_item_spec n m p p1 q : Started p m p1 -> Rx p1 q -> next q = Some KType -> 10 * cnt q + 10 <= n ->
  wp (type_item n m) q (fun _ p' => Rx p p' /\ cnt p' < cnt q).
Proof.
  intros Hs Hq Hn Hf. unfold type_item. step. step.
  eapply wp_seq; [apply type_params_spec; cnts|cbv beta; intros _ ? ?]. step.
  match goal with |- wp _ ?s _ => eapply wp_seq with (Q := fun _ q' => Rx s q') end.
  { step; [|step; rx]. eapply wp_mono; [apply bump_spec; nx|]. cbv beta. intros _ q' Hq'. rx. }
  cbv beta. intros _ q1 Hq1.
  eapply wp_seq; [apply type_case_spec; cnts|cbv beta; intros _ ? [? _]].
  eapply wp_seq; [apply while_spec|].
  - intros w Hw. step.
    + eapply wp_seq; [apply type_case_spec; cnts|cbv beta; intros _ ? [? Hc]]. specialize (Hc ltac:(auto)). step. split; [rx|cnts].
    + step. split; [rx|discriminate].
  - cnts.
  - cbv beta. intros _ ? ?. step. compl. step. split; [rx|cnts].
Qed.
Lemma exposed_list_spec n p : next p = Some KLeftParen -> cnt p < n -> wp (exposed_list n) p (fun _ p' => Rx p p').
Proof.
  intros Hn Hf. unfold exposed_list. step. step. eapply wp_seq; [apply while_spec|].
  - intros w Hw. step.
    + step. split; [rx|discriminate].
    + step. step.
      * step. step. split; [rx|cnts].
      * step. split; [rx|discriminate].
  - cnts.
  - cbv beta. intros _ ? ?. step. compl. step. rx.
Qed.
Lemma wp_expd m k p Q : wp (complete m k) p Q -> wp (complete m k) p (fun a p' => Q a p' /\ expd p' = expd p).
Proof. unfold wp, complete. destruct (nth_error (evs p) m) as [[]|]; auto. Qed.
Lemma item_spec n p k : next p = Some k -> 10 * cnt p + 20 <= n -> wp (item n) p (fun _ p' => Rx p p' /\ cnt p' < cnt p).
Proof.
  intros Hk Hf. unfold item. step. step.
  { step. step. step.
    { eapply wp_mono; [eapply value_item_spec; [exact Hs|rx|nx|cnts]|]. cbv beta. intros _ p' [A B]. split; [rx|cnts]. }
    step.
    { eapply wp_mono; [eapply type_item_spec; [exact Hs|rx|nx|cnts]|]. cbv beta. intros _ p' [A B]. split; [rx|cnts]. }
    eapply wp_seq; [eapply wp_expd; eapply complete_x; [exact Hs|rx|discriminate]|].
    cbv beta. intros m' p9 [(-> & (l & HC) & Ht) Hx].
    eapply wp_mono; [apply error_recover_item_spec; [right; rewrite Hx; auto|cnts]|].
    cbv beta. intros _ p' [A B]. split; [rx|cnts]. }
  step.
  { step. eapply wp_mono; [eapply value_item_spec; [exact Hs|rx|nx|cnts]|]. cbv beta. intros _ p' [A B]. split; [rx|cnts]. }
  step.
  { step. eapply wp_mono; [eapply type_item_spec; [exact Hs|rx|nx|cnts]|]. cbv beta. intros _ p' [A B]. split; [rx|cnts]. }
  step.
  { step. step.
    match goal with |- wp _ ?s _ => eapply wp_seq with (Q := fun _ q' => Rx s q') end.
    { step; [|step; rx]. eapply wp_mono; [apply bump_name_spec; nx|]. cbv beta. intros _ q' Hq'. rx. }
    cbv beta. intros _ q1 Hq1.
    match goal with |- wp _ ?s _ => eapply wp_seq with (Q := fun _ q' => Rx s q') end.
    { step; [|step; rx]. eapply wp_mono; [apply exposed_list_spec; [nx|cnts]|]. cbv beta. intros _ q' Hq'. rx. }
    cbv beta. intros _ q2 Hq2. step. step. step. compl. step. split; [rx|cnts]. }
  eapply wp_mono; [apply error_recover_item_spec; [auto|cnts]|]. cbv beta. intros _ p' [A B]. split; [rx|].
  assert (En : forall a b, R a b [] -> next b = next a) by (intros a b Hab; apply (R_next0 Hab eq_refl)).
  repeat match goal with H : R ?a ?b [] |- _ => assert (next b = next a) by (apply En; exact H); assert (cnt b = cnt a) by (apply R_cnt in H; cbn in H; lia); clear H end.
  assert (Hlast : next p4 = Some k) by congruence.
  specialize (B _ Hlast). assert (recovers true k = false) by (destruct k; cbn; auto; exfalso; congruence). specialize (B H). lia.
Qed.
