(** The tree builder: the trees tile the tokens. *)
From Verif Require Import Parser ParserSpec ParserProofs ParserRun ParserFns.
Set Implicit Arguments.

Section ElemInd.
  Variable P : elem -> Prop.
  Hypothesis Htok : forall k, P (Tok k).
  Hypothesis Herr : forall s, P (Err s).
  Hypothesis Hnode : forall k l, Forall P l -> P (Node k l).
  Fixpoint elem_ind2 (e : elem) : P e :=
    match e with
    | Tok k => Htok k
    | Err s => Herr s
    | Node k l => Hnode k ((fix go l := match l return Forall P l with [] => Forall_nil _ | x :: r => Forall_cons _ (elem_ind2 x) (go r) end) l)
    end.
End ElemInd.

Lemma tiles_app p a ta q : tiles p a ta q -> forall b tb r, tiles q b tb r -> tiles p (a ++ b) (ta ++ tb) r.
Proof.
  induction 1; intros b tb r Hb; cbn; auto.
  - constructor; auto.
  - constructor; auto.
  - rewrite <- app_assoc. eapply tl_node; eauto.
Qed.
Lemma tiles_len p a ta q : tiles p a ta q -> q = p + tlen ta.
Proof.
  induction 1; rewrite ?tlen_app; try lia; unfold tlen in *; cbn; rewrite ?app_length; lia.
Qed.
Lemma tiles_end p a ta q : tiles p a ta q -> match rev a with t :: _ => snd (full_of t) | [] => p end = q.
Proof.
  induction 1; cbn; auto.
  - destruct (rev ts); cbn in *; auto.
  - destruct (rev ts); cbn in *; auto.
  - destruct (rev ts); cbn in *; auto.
Qed.
Lemma first_app a b : first_span (a ++ b) = match first_span a with Some s => Some s | None => first_span b end.
Proof. induction a as [|t a IH]; cbn; auto. destruct (span_of t); auto. Qed.
Lemma tiles_span p a ta q : tiles p a ta q -> p <= q /\
  match first_span a, first_span (rev a) with
  | Some s, Some e => p <= fst s /\ fst s <= snd e /\ snd e <= q
  | None, None => True
  | _, _ => False
  end.
Proof.
  induction 1 as [p|p k t ts toks q Hk H [IH1 IH2]|p k t ts toks q Hk H [IH1 IH2]|p id k s e ch toks1 m ts toks2 q H1 [A1 A2] B1 B2 B3 H2 [C1 C2]];
    cbn [rev first_span span_of]; auto; rewrite first_app; cbn [first_span span_of].
  - split; [lia|]. destruct (first_span ts), (first_span (rev ts)); cbn; try tauto; lia.
  - split; [lia|]. destruct (first_span ts), (first_span (rev ts)); cbn; try tauto; lia.
  - split; [lia|]. destruct (first_span ts), (first_span (rev ts)); cbn; try tauto; lia.
Qed.
Lemma finish_tiles id k p ch toks q : tiles p ch toks q -> tiles p [finish_internal id k p ch] toks q.
Proof.
  intros H. unfold finish_internal. rewrite (tiles_end H). destruct (tiles_span H) as [Hpq Hs].
  rewrite <- (app_nil_r toks). destruct (first_span ch), (first_span (rev ch)); try tauto.
  - eapply tl_node; eauto; try lia. constructor.
  - eapply tl_node; eauto; try lia. constructor.
Qed.

Definition all_trivia (ts : list token) : Prop := Forall (fun t => trivia (fst t) = true) ts.
Definition trimmed (ts : list token) : Prop := match ts with (k, _) :: _ => trivia k = false | [] => True end.

Lemma split_trivia_ok ts : forall a b, split_trivia ts = (a, b) -> ts = a ++ b /\ all_trivia a /\ trimmed b.
Proof.
  induction ts as [|[k t] ts IH]; intros a b H; cbn in H.
  - injection H as <- <-. repeat split; constructor.
  - destruct (trivia k) eqn:E.
    + destruct (split_trivia ts) as [a' b'] eqn:E'. injection H as <- <-. destruct (IH _ _ eq_refl) as (-> & A & B).
      repeat split; auto. constructor; auto.
    + injection H as <- <-. repeat split; auto. constructor.
Qed.
Lemma split_line_ok ts : forall a b, split_line ts = (a, b) -> ts = a ++ b.
Proof.
  induction ts as [|[k t] ts IH]; intros a b H; cbn in H.
  - injection H as <- <-. auto.
  - destruct (keqb k KNewline).
    + injection H as <- <-. auto.
    + destruct (split_line ts) as [a' b'] eqn:E'. injection H as <- <-. rewrite (IH _ _ eq_refl). auto.
Qed.
Lemma nt_trivia ts : all_trivia ts -> nt ts = [].
Proof. induction 1 as [|[k t] ts H _ IH]; cbn in *; auto. rewrite H. auto. Qed.

(** Leaves added to the innermost node. *)
Lemma add_trivias_ok ts : forall b id k st ch stk, bstack b = (id, k, st, ch) :: stk -> all_trivia ts ->
  exists b' new, add_trivias b ts = Ok b' /\ bstack b' = (id, k, st, ch ++ new) :: stk /\
    tiles (bpos b) new ts (bpos b') /\ flat_map ids new = [] /\ flat_map shape new = [].
Proof.
  induction ts as [|[k' t] ts IH]; intros b id k st ch stk Hb Ht; cbn.
  - exists b, []. rewrite app_nil_r. repeat split; auto. constructor.
  - inversion Ht; subst. cbn in *. unfold add_leaf. rewrite Hb.
    destruct (IH (mkB ((id, k, st, ch ++ [STrivia k' (bpos b, bpos b + length t)]) :: stk) (bpos b + length t)) _ _ _ _ _ eq_refl H2)
      as (b' & new & E & Hs & Htl & Hid & Hsh).
    exists b', (STrivia k' (bpos b, bpos b + length t) :: new). rewrite E. split; auto. split; [rewrite Hs, <- app_assoc; auto|].
    split; [|auto]. constructor; auto.
Qed.

Definition diag_ok (l : list elem) (s s' : nstate) : Prop :=
  (exists more, errors s' = errors s ++ more /\ incl more (flat_map errs l)) /\
  (flat_map errs l = [] -> errors s' = errors s /\ since s <= since s') /\
  (2 <= since s -> flat_map errs l <> [] -> errors s' <> []).
Lemma diag_app l1 l2 s s1 s2 : diag_ok l1 s s1 -> diag_ok l2 s1 s2 -> diag_ok (l1 ++ l2) s s2.
Proof.
  intros ((m1 & E1 & I1) & A1 & B1) ((m2 & E2 & I2) & A2 & B2). unfold diag_ok. rewrite flat_map_app. split; [|split].
  - exists (m1 ++ m2). rewrite E2, E1, app_assoc. split; auto. apply incl_app; [apply incl_appl|apply incl_appr]; auto.
  - intros E. apply app_eq_nil in E as [Ea Eb]. destruct (A1 Ea) as [F1 F2]. destruct (A2 Eb) as [F3 F4]. split; [congruence|lia].
  - intros H Hne. destruct (flat_map errs l1) eqn:F1.
    + destruct (A1 eq_refl) as [_ Hs]. apply B2; [lia|auto].
    + assert (errors s1 <> []) by (apply B1; auto; discriminate). rewrite E2. intros E. apply app_eq_nil in E as [E _]. congruence.
Qed.

Record built (l : list elem) (s s' : nstate) (id : nat) (k : skind) (st : nat) (ch : list stree) stk (new : list stree) (placed : list token) : Prop := {
  bt_steps : node_steps (flats l) s = Ok s';
  bt_stack : bstack (nb s') = (id, k, st, ch ++ new) :: stk;
  bt_tiles : tiles (bpos (nb s)) new placed (bpos (nb s'));
  bt_toks : held s ++ ntoks s = placed ++ held s' ++ ntoks s';
  bt_held : all_trivia (held s');
  bt_trim : trimmed (ntoks s');
  bt_yield : map fst (nt (ntoks s)) = yields l ++ map fst (nt (ntoks s'));
  bt_shape : flat_map shape new = flat_map no_err l;
  bt_ids : flat_map ids new = List.seq (next_id s) (next_id s' - next_id s) /\ next_id s <= next_id s';
  bt_diag : diag_ok l s s';
  bt_zero : yields l = [] -> placed = [] /\ held s' = held s /\ ntoks s' = ntoks s
}.

Lemma node_steps_app a : forall b s, node_steps (a ++ b) s = rbind (node_steps a s) (node_steps b).
Proof. induction a as [|e a IH]; intros b s; cbn; auto. destruct (node_step e s); cbn; auto. Qed.

Lemma built_app l1 l2 s s1 s2 id k st ch stk n1 n2 p1 p2 :
  built l1 s s1 id k st ch stk n1 p1 -> built l2 s1 s2 id k st (ch ++ n1) stk n2 p2 ->
  built (l1 ++ l2) s s2 id k st ch stk (n1 ++ n2) (p1 ++ p2).
Proof.
  intros [A1 A2 A3 A4 A5 A6 A7 A8 [A9 A9'] A10 A11] [B1 B2 B3 B4 B5 B6 B7 B8 [B9 B9'] B10 B11]. constructor; auto.
  - rewrite flats_app, node_steps_app, A1. auto.
  - rewrite B2, app_assoc. auto.
  - eapply tiles_app; eauto.
  - rewrite A4, B4, <- app_assoc. auto.
  - rewrite A7, B7, yields_app, app_assoc. auto.
  - rewrite !flat_map_app. congruence.
  - split; [|lia]. rewrite flat_map_app, A9, B9.
    replace (next_id s2 - next_id s) with ((next_id s1 - next_id s) + (next_id s2 - next_id s1)) by lia.
    rewrite seq_app. do 2 f_equal. lia.
  - eapply diag_app; eauto.
  - intros E. rewrite yields_app in E. apply app_eq_nil in E as [Ea Eb]. destruct (A11 Ea) as (-> & ? & ?). destruct (B11 Eb) as (-> & ? & ?).
    split; auto. split; congruence.
Qed.

Definition builds (l : list elem) : Prop := forall s id k st ch stk r,
  bstack (nb s) = (id, k, st, ch) :: stk -> all_trivia (held s) -> trimmed (ntoks s) ->
  map fst (nt (ntoks s)) = yields l ++ r ->
  exists s' new placed, built l s s' id k st ch stk new placed.

Lemma builds_nil : builds [].
Proof.
  intros s id k st ch stk r Hs Hh Ht _. exists s, [], []. constructor; cbn; auto.
  - rewrite app_nil_r. auto.
  - constructor.
  - rewrite Nat.sub_diag. auto.
  - split; [exists []; rewrite app_nil_r; split; auto; apply incl_refl|]. split; [auto|intros _ E; destruct (E eq_refl)].
Qed.
Lemma builds_cons e l : builds [e] -> builds l -> builds (e :: l).
Proof.
  intros He Hl s id k st ch stk r Hs Hh Ht Hy. change (e :: l) with ([e] ++ l) in Hy. rewrite yields_app, <- app_assoc in Hy.
  destruct (He s id k st ch stk _ Hs Hh Ht Hy) as (s1 & n1 & p1 & B1).
  pose proof (bt_yield B1) as Y. rewrite Y in Hy. apply app_inv_head in Hy.
  destruct (Hl s1 id k st (ch ++ n1) stk r (bt_stack B1) (bt_held B1) (bt_trim B1) Hy) as (s2 & n2 & p2 & B2).
  exists s2, (n1 ++ n2), (p1 ++ p2). apply (built_app B1 B2).
Qed.

Lemma builds_tok k0 : builds [Tok k0].
Proof.
  intros s id k st ch stk r Hs Hh Ht Hy. cbn in Hy.
  destruct (ntoks s) as [|[k' t] r0] eqn:En; [discriminate|]. cbn in Ht. cbn in Hy. rewrite Ht in Hy. cbn in Hy. injection Hy as -> Hy.
  destruct (add_trivias_ok _ Hs Hh) as (b1 & n1 & E1 & S1 & T1 & I1 & H1).
  destruct (split_trivia r0) as [tr r1] eqn:Est. destruct (split_trivia_ok _ Est) as (-> & Htr & Htrim).
  destruct (split_line tr) as [now later] eqn:Esl. pose proof (split_line_ok _ Esl) as ->. apply Forall_app in Htr as [Hnow Hlater].
  set (b2 := mkB ((id, k, st, (ch ++ n1) ++ [STok k0 (bpos b1, bpos b1 + length t)]) :: stk) (bpos b1 + length t)).
  assert (Hs2 : bstack b2 = (id, k, st, (ch ++ n1) ++ [STok k0 (bpos b1, bpos b1 + length t)]) :: stk) by reflexivity.
  destruct (add_trivias_ok _ Hs2 Hnow) as (b3 & n3 & E3 & S3 & T3 & I3 & H3).
  exists (mkN b3 r1 later (next_id s) (S (since s)) (errors s)), (n1 ++ STok k0 (bpos b1, bpos b1 + length t) :: n3), (held s ++ (k0, t) :: now).
  constructor; cbn [nb ntoks held next_id since errors].
  - cbn [flats flat_map flat app node_steps node_step]. rewrite E1. cbn [rbind]. rewrite En, Ht, keqb_refl. cbn [negb].
    unfold add_leaf. rewrite S1. cbn [rbind]. rewrite Est, Esl. fold b2. rewrite E3. cbn. auto.
  - rewrite S3, <- !app_assoc. auto.
  - eapply tiles_app; eauto. constructor; auto.
  - rewrite En. la.
  - auto.
  - auto.
  - rewrite En. cbn. rewrite Ht. cbn. rewrite !nt_app, !(nt_trivia Hnow), (nt_trivia Hlater). auto.
  - rewrite flat_map_app, H1. cbn. rewrite H3. auto.
  - rewrite flat_map_app, I1. cbn. rewrite I3, Nat.sub_diag. auto.
  - split; [exists []; rewrite app_nil_r; split; auto; apply incl_refl|]. cbn. split; [auto|intros _ E; destruct (E eq_refl)].
  - discriminate.
Qed.
Lemma builds_err sp : builds [Err sp].
Proof.
  intros s id k st ch stk r Hs Hh Ht _. eexists (mkN (nb s) (ntoks s) (held s) (next_id s) 0 _), [], []. constructor; cbn; auto.
  - rewrite app_nil_r. auto.
  - constructor.
  - rewrite Nat.sub_diag. auto.
  - cbn. split; [|split].
    + cbn. destruct (since s) as [|[|n]]; [exists []|exists []|exists [sp]]; rewrite ?app_nil_r; split; auto; try apply incl_refl; intros x [].
    + discriminate.
    + intros H _. cbn. destruct (since s) as [|[|n]]; try lia. intros E. apply app_eq_nil in E as [_ E]. discriminate.
Qed.
Lemma builds_node k0 l : builds l -> builds [Node k0 l].
Proof.
  intros Hl s id k st ch stk r Hs Hh Ht Hy. cbn in Hy. rewrite app_nil_r in Hy.
  set (s1 := mkN (start_node (nb s) (next_id s) k0) (ntoks s) (held s) (S (next_id s)) (since s) (errors s)).
  destruct (Hl s1 (next_id s) k0 (bpos (nb s)) [] (bstack (nb s)) r eq_refl Hh Ht Hy) as (s2 & new & placed & B).
  destruct B as [A1 A2 A3 A4 A5 A6 A7 A8 [A9 A9'] A10 A11].
  set (b' := mkB ((id, k, st, ch ++ [finish_internal (next_id s) k0 (bpos (nb s)) new]) :: stk) (bpos (nb s2))).
  exists (mkN b' (ntoks s2) (held s2) (next_id s2) (since s2) (errors s2)), [finish_internal (next_id s) k0 (bpos (nb s)) new], placed.
  cbn in A9, A9'.
  constructor; cbn [nb ntoks held next_id since errors]; auto.
  - cbn [flats flat_map flat]. rewrite app_nil_r. cbn [app node_steps node_step]. cbn [rbind]. fold s1. unfold flats in A1.
    rewrite node_steps_app, A1. cbn [rbind node_steps node_step]. unfold finish_node. rewrite A2, Hs. cbn. auto.
  - apply finish_tiles. auto.
  - cbn. rewrite app_nil_r. auto.
  - unfold finish_internal. cbn. rewrite A8. auto.
  - unfold finish_internal. cbn. rewrite app_nil_r, A9. split; [|lia].
    replace (next_id s2 - next_id s) with (S (next_id s2 - S (next_id s))) by lia. auto.
  - destruct A10 as ((m & E & I) & C & D). unfold diag_ok. cbn. rewrite app_nil_r. cbn in *. split; eauto.
  - intros E. cbn in E. rewrite app_nil_r in E. auto.
Qed.
Lemma builds_list l : Forall (fun e => builds [e]) l -> builds l.
Proof. induction 1; [apply builds_nil|apply builds_cons; auto]. Qed.
Lemma builds_all e : builds [e].
Proof.
  induction e as [k|s|k l IH] using elem_ind2; [apply builds_tok|apply builds_err|apply builds_node, builds_list; auto].
Qed.
Lemma builds_any l : builds l.
Proof. apply builds_list. apply Forall_forall. intros e _. apply builds_all. Qed.
