(** One item and the whole file. *)
From Verif Require Import Lexer LexerSpec LexerProofs Parser ParserSpec ParserProofs ParserRun ParserFns ParserTree.
Set Implicit Arguments.

(** ** Dropping the errors *)

Lemma no_err_node k l : no_err (Node k l) = [Node k (flat_map no_err l)].
Proof. reflexivity. Qed.
Lemma ginner_inv k l : ginner (Node k l) ->
  (k <> BinaryExpr /\ Forall ginner l) \/
  (exists k1 ch1 op r p, k = BinaryExpr /\ l = Node k1 ch1 :: Node BinaryOp [Tok op] :: r /\ ginner (Node k1 ch1) /\ Forall ginner r /\
    level op = Some p /\
    ((exists k ch, r = [Node k ch]) \/ (exists s, r = [Err s] \/ r = [Err s; Tok KError])) /\
    (forall x, In x r -> forall q, top_level x q -> p < q) /\
    (has_right (Node k1 ch1) -> forall q, top_level (Node k1 ch1) q -> p <= q)).
Proof.
  intros H. inversion H as [| |k0 l0 A B|l0 op r p (k1 & ch1 & ->) B C D E F G]; subst; [left; auto|].
  right. exists k1, ch1, op, r, p. repeat (split; auto).
Qed.
Lemma no_err_top k ch q : top_level (Node k (flat_map no_err ch)) q -> ginner (Node k ch) -> top_level (Node k ch) q.
Proof.
  intros (l & op & r & E & Hl) Hg. injection E as -> E.
  apply ginner_inv in Hg as [[Hk _] | (k1 & ch1 & op' & r' & p & _ & -> & _)]; [congruence|].
  cbn in E. injection E as <- <- _. eexists _, _, _. split; eauto.
Qed.
Lemma no_err_right k ch : has_right (Node k (flat_map no_err ch)) -> ginner (Node k ch) -> has_right (Node k ch).
Proof.
  intros (l & o & r & k0 & ch0 & E & Hl) Hg. injection E as -> E.
  apply ginner_inv in Hg as [[Hk _] | (k1 & ch1 & op' & r' & p & _ & -> & _ & _ & _ & Hr & _)]; [congruence|].
  cbn in E. injection E as <- <- <-.
  destruct Hr as [(k2 & ch2 & ->) | (s & [-> | ->])].
  - eexists _, _, _, _, _. split; eauto. left; eauto.
  - destruct Hl.
  - destruct Hl as [E | []]. discriminate.
Qed.
Lemma ginner_grouped e : ginner e -> Forall grouped (no_err e).
Proof.
  induction e as [k|s|k l IH] using elem_ind2; intros H; cbn; auto.
  - repeat constructor.
  - assert (IHl : forall l', incl l' l -> Forall ginner l' -> Forall grouped (flat_map no_err l')).
    { intros l' Hi Hg. rewrite Forall_forall in *. intros x Hx. apply in_flat_map in Hx as (y & Hy & Hx).
      pose proof (IH _ (Hi _ Hy) (Hg _ Hy)) as G. rewrite Forall_forall in G. auto. }
    constructor; auto.
    apply ginner_inv in H as [[Hk Hl] | (k1 & ch1 & op & r & p & -> & -> & G1 & G2 & Hp & Hr & C1 & C2)].
    + apply g_node; auto. apply IHl; auto. apply incl_refl.
    + cbn. apply g_binary with p; auto.
      * inversion IH as [|? ? I1 _]; subst. specialize (I1 G1). cbn in I1. inversion I1; auto.
      * apply IHl; auto. intros x Hx. cbn. auto.
      * destruct Hr as [(k2 & ch2 & ->) | (s & [-> | ->])]; cbn; eauto.
      * intros x Hx q Hq. apply in_flat_map in Hx as (y & Hy & Hx). rewrite Forall_forall in G2.
        destruct y as [ky|sy|ky ly]; cbn in Hx; [destruct Hx as [<- | []]|destruct Hx|destruct Hx as [<- | []]]; apply (C1 _ Hy); auto. apply no_err_top; auto.
      * intros Hh q Hq. apply C2; [apply no_err_right; auto|apply no_err_top; auto].
Qed.
Lemma no_errs_same e : errs e = [] -> no_err e = [e].
Proof.
  induction e as [k|s|k l IH] using elem_ind2; cbn; intros H; auto; [discriminate|]. do 2 f_equal.
  induction IH as [|x l Hx _ IHl]; cbn in *; auto. apply app_eq_nil in H as [Ha Hb]. rewrite Hx; auto. cbn. f_equal. auto.
Qed.
Lemma errs_in l x : flat_map errs l = [] -> In x l -> errs x = [].
Proof.
  induction l as [|y l IH]; cbn; intros H Hi; [tauto|]. apply app_eq_nil in H as [Ha Hb]. destruct Hi as [<- | Hi]; auto.
Qed.
Lemma ginner_whole e : ginner e -> errs e = [] -> whole e.
Proof.
  induction e as [k|s|k l IH] using elem_ind2; intros H He; cbn in He.
  - constructor.
  - discriminate.
  - apply ginner_inv in H as [[Hk Hl] | (k1 & ch1 & op & r & p & -> & -> & G1 & G2 & Hp & Hr & C1 & C2)].
    + apply w_node; auto. rewrite Forall_forall in *. intros x Hx. apply IH; auto. eapply errs_in; eauto.
    + rewrite Forall_forall in IH, G2.
      destruct Hr as [(k2 & ch2 & ->) | (s & [-> | ->])].
      * apply w_binary; apply IH; try (eapply errs_in; [exact He|]); try exact G1; try (apply G2); cbn; auto.
      * exfalso. assert (E : errs (Err s) = []) by (eapply errs_in; [exact He|cbn; auto]). discriminate.
      * exfalso. assert (E : errs (Err s) = []) by (eapply errs_in; [exact He|cbn; auto]). discriminate.
Qed.

(** ** One item *)

Lemma at_eof_spec p : wp at_eof p (fun b p' => R p p' [] /\ next p' = next p /\ (b = true <-> next p = None)).
Proof.
  unfold at_eof. eapply wp_seq; [apply peek_spec|]. cbn. intros o p' (A & B & B' & C & D & E & F). apply wp_ret.
  split; auto. split; auto. rewrite B, E. destruct (next p); split; congruence.
Qed.
Lemma tlen_lex err src : tlen (lex err src) = length src.
Proof. unfold tlen. destruct (lexes_tile (lex_spec err src)) as [-> _]. auto. Qed.
Lemma nt_le ts : length (nt ts) <= length ts.
Proof. unfold nt. induction ts as [|[k t] ts IH]; cbn; auto. destruct (trivia k); cbn; lia. Qed.
Lemma nt_nil_trivia ts : nt ts = [] -> all_trivia ts.
Proof.
  induction ts as [|[k t] ts IH]; cbn; intros H; constructor; cbn; destruct (trivia k); cbn in H; auto; try discriminate. apply IH; auto.
Qed.

Record item_ok (err : list N -> nat) (src : list N) (start : nat) (t : stree) (ds : list (nat * nat)) (toks rest : list token) : Prop := {
  i_lex : lex err src = toks ++ rest;
  i_tiles : tiles start [t] toks (start + tlen toks);
  i_some : src <> [] -> toks <> [];
  i_ds : Forall (within start (start + length src)) ds;
  i_grouped : Forall grouped (shape t);
  i_whole : ds = [] -> Forall whole (shape t);
  i_ids : exists n, ids t = List.seq 0 n;
  i_root : exists s f ch, t = SNode 0 Root s f ch
}.

Lemma errs_node k l : errs (Node k l) = flat_map errs l.
Proof. reflexivity. Qed.
Lemma no_errs_list l : flat_map errs l = [] -> flat_map no_err l = l.
Proof.
  intros H. assert (E : no_err (Node Root l) = [Node Root l]) by (apply no_errs_same; auto). cbn in E. injection E as ->. auto.
Qed.

Lemma events_built err src start es l rest_kinds eat :
  reorder es = Ok (flats l) -> Forall ginner l ->
  Forall (within start (start + length src)) (flat_map errs l) ->
  map fst (nt (lex err src)) = yields l ++ rest_kinds ->
  (eat = true <-> rest_kinds = []) -> (rest_kinds <> [] -> yields l <> []) ->
  exists t ds toks rest, rbind (reorder es) (fun es => events_to_node es start (lex err src) eat) = Ok (t, ds) /\ item_ok err src start t ds toks rest /\
    (flat_map errs l = [] <-> ds = []) /\ shape t = [Node Root (flat_map no_err l)] /\ map fst (nt rest) = rest_kinds /\ (eat = true -> rest = []).
Proof.
  intros Hr Hg Hw Hy He Hp. rewrite Hr. cbn [rbind]. unfold events_to_node.
  destruct (split_trivia (lex err src)) as [tr r] eqn:Es. destruct (split_trivia_ok _ Es) as (El & Htr & Htrim).
  rewrite El, nt_app, (nt_trivia Htr) in Hy. cbn [app] in Hy.
  set (s0 := mkN (start_node (mkB [] start) 0 Root) r tr 1 2 []).
  pose proof (builds_any l) as BA. unfold builds in BA. destruct (BA s0 0 Root start [] [] rest_kinds eq_refl Htr Htrim Hy) as (s' & new & placed & B).
  rewrite (bt_steps B). cbn [rbind].
  pose proof (bt_toks B) as Tk. cbn in Tk. rewrite <- El in Tk. pose proof (bt_yield B) as Yd. cbn [ntoks s0] in Yd. rewrite Hy in Yd. apply app_inv_head in Yd.
  pose proof (bt_diag B) as ((more & Em & Im) & Dn & Ds). cbn in Em, Ds, Dn.
  destruct (bt_ids B) as [Id1 Id2]. cbn in Id1, Id2.
  assert (Hds : Forall (within start (start + length src)) (errors s')).
  { rewrite Em. rewrite Forall_forall in *. intros x Hx. apply Hw, Im. auto. }
  assert (Hne : errors s' = [] -> flat_map errs l = []).
  { intros E. destruct (flat_map errs l) eqn:F; auto. exfalso. apply Ds; auto. discriminate. }
  assert (Hgr : Forall grouped (flat_map no_err l)).
  { clear - Hg. induction Hg; cbn; auto. apply Forall_app. split; auto. apply ginner_grouped; auto. }
  assert (Hwh : errors s' = [] -> Forall whole (flat_map no_err l)).
  { intros E. rewrite (no_errs_list _ (Hne E)). specialize (Hne E). rewrite Forall_forall in *. intros x Hx. apply ginner_whole; auto. eapply errs_in; eauto. }
  assert (Fin : forall b extra toks rest, bstack b = [(0, Root, start, new ++ extra)] -> tiles (bpos (nb s')) extra rest (bpos b) ->
    flat_map ids extra = [] -> flat_map shape extra = [] -> lex err src = placed ++ rest ++ toks -> (src <> [] -> placed ++ rest <> []) -> map fst (nt toks) = rest_kinds -> (eat = true -> toks = []) ->
    exists t ds toks rest, rbind (finish b) (fun t => Ok (t, errors s')) = Ok (t, ds) /\ item_ok err src start t ds toks rest /\
      (flat_map errs l = [] <-> ds = []) /\ shape t = [Node Root (flat_map no_err l)] /\ map fst (nt rest) = rest_kinds /\ (eat = true -> rest = [])).
  { intros b extra toks rest Hb Ht Hi Hs Hl Hsome Hrk Heat. unfold finish. rewrite Hb. cbn [rbind].
    assert (HT : tiles start [finish_internal 0 Root start (new ++ extra)] (placed ++ rest) (bpos b)).
    { apply finish_tiles. eapply tiles_app; [apply (bt_tiles B)|]. auto. }
    eexists _, _, (placed ++ rest), toks. split; [reflexivity|]. split; [|split; [split; [intros E; rewrite (proj1 (Dn E)); auto|apply Hne]|split; [|auto]]].
    2: { unfold finish_internal. cbn. rewrite flat_map_app, Hs, app_nil_r, (bt_shape B). auto. }
    constructor; auto.
    - rewrite <- app_assoc. auto.
    - pose proof (tiles_len HT) as E. rewrite <- E. auto.
    - unfold finish_internal. cbn. rewrite flat_map_app, Hs, app_nil_r. constructor; auto. apply g_node; [discriminate|]. rewrite (bt_shape B). auto.
    - intros E. unfold finish_internal. cbn. rewrite flat_map_app, Hs, app_nil_r. constructor; auto. apply w_node; [discriminate|]. rewrite (bt_shape B). auto.
    - exists (next_id s'). unfold finish_internal. cbn. rewrite flat_map_app, Hi, app_nil_r, Id1. destruct (next_id s') as [|m] eqn:E; [lia|].
      cbn. rewrite Nat.sub_0_r. auto.
    - unfold finish_internal. eauto. }
  destruct eat.
  - assert (Hr0 : rest_kinds = []) by (apply He; auto). rewrite Hr0 in Yd.
    assert (Hn : ntoks s' = []).
    { pose proof (bt_trim B) as Tr. destruct (ntoks s') as [|[k t] tl] eqn:E; auto. cbn in Yd, Tr. rewrite Tr in Yd. discriminate. }
    destruct (add_trivias_ok _ (bt_stack B) (bt_held B)) as (b' & nw & E1 & S1 & T1 & I1 & H1).
    rewrite E1. cbn [rbind]. rewrite Hn. cbn [existsb add_trivias rbind].
    apply (Fin b' nw [] (held s')); auto.
    + rewrite Tk, Hn. auto.
    + intros Hsrc E. rewrite Hn, app_nil_r in Tk. rewrite E in Tk. pose proof (tlen_lex err src) as L. rewrite Tk in L. destruct src; [congruence|discriminate].
  - cbn [rbind]. apply (Fin (nb s') [] (held s' ++ ntoks s') []); auto.
    + rewrite app_nil_r. apply (bt_stack B).
    + constructor.
    + intros _ E. rewrite app_nil_r in E. subst placed. cbn in Tk.
      assert (Hk : rest_kinds <> []) by (intros F; apply He in F; discriminate).
      apply (Hp Hk). rewrite El in Tk. apply (f_equal nt) in Tk. rewrite !nt_app, (nt_trivia Htr), (nt_trivia (bt_held B)) in Tk. cbn in Tk.
      apply (f_equal (map fst)) in Tk. rewrite Hy, <- Yd in Tk. apply (f_equal (@length _)) in Tk. rewrite app_length in Tk. apply length_zero_iff_nil. lia.
    + rewrite nt_app, (nt_trivia (bt_held B)). auto.
    + discriminate.
Qed.
Lemma events_ok err src start es l rest_kinds eat :
  reorder es = Ok (flats l) -> Forall ginner l ->
  Forall (within start (start + length src)) (flat_map errs l) ->
  map fst (nt (lex err src)) = yields l ++ rest_kinds ->
  (eat = true <-> rest_kinds = []) -> (rest_kinds <> [] -> yields l <> []) ->
  exists t ds toks rest, rbind (reorder es) (fun es => events_to_node es start (lex err src) eat) = Ok (t, ds) /\ item_ok err src start t ds toks rest.
Proof.
  intros Hr Hg Hw Hy He Hp. destruct (@events_built err src start es l rest_kinds eat Hr Hg Hw Hy He Hp) as (t & ds & tk & r & A & B & _). exists t, ds, tk, r. auto.
Qed.

Lemma parse_one_item_ok err src start :
  exists t ds toks rest, parse_one_item err src start = Ok (t, ds) /\ item_ok err src start t ds toks rest.
Proof.
  unfold parse_one_item. set (ts := lex err src). set (p0 := mkP true ts start start [] [] []).
  assert (W : wp (e <- at_eof ;; (if e then ret tt else item (10 * length ts + 20)) ;; at_eof) p0 (fun eat p' =>
    exists out, R p0 p' out /\ (eat = true <-> next p' = None) /\ (next p' <> None -> yields out <> []))).
  { eapply wp_seq; [apply at_eof_spec|]. cbn. intros b p1 (A & B & C). destruct b.
    - apply wp_bind, wp_ret. eapply wp_mono; [apply at_eof_spec|]. cbn. intros b p3 (A' & B' & C').
      exists ([] ++ []). split; [eapply R_trans; eauto|]. rewrite B'. split; auto. intros H. destruct H. rewrite B. apply C. auto.
    - destruct (next p0) as [k|] eqn:Ek; [|exfalso; assert (false = true) by (apply C; auto); discriminate].
      eapply wp_seq; [eapply item_spec; [exact B|]|].
      + pose proof (R_cnt A) as H. pose proof (nt_le (toks p0)) as H'. fold (cnt p0) in H'. change (toks p0) with ts in H'. lia.
      + intros [] p2 ([out HR] & Hc). eapply wp_mono; [apply at_eof_spec|]. cbn. intros b p3 (A' & B' & C').
        exists (([] ++ out) ++ []). split; [eapply R_trans; [eapply R_trans|]; eauto|]. rewrite B'. split; auto.
        intros _. rewrite !yields_app. cbn. rewrite app_nil_r. intros E. rewrite (R_cnt HR), E in Hc. cbn in Hc. lia. }
  unfold wp in W. destruct ((e <- at_eof ;; (if e then ret tt else item (10 * length ts + 20)) ;; at_eof) p0) as [[eat p']| |]; try tauto.
  destruct W as (out & (new & used & B & Ev & Sg) & He & Hn). cbn in Ev, Sg. subst new.
  destruct B as [B1 B2 B3 B4 B5]. cbn [toks p0] in B1. cbn [cur off p0] in B5. change (toks p0) with ts in B5. destruct (B5 (le_n _)) as (C1 & C2 & C3).
  eapply events_ok with (l := out) (rest_kinds := map fst (nt (toks p'))).
  - apply reorder_ok. auto.
  - auto.
  - unfold ts in C3. rewrite tlen_lex in C3. auto.
  - fold ts. rewrite B1, nt_app, map_app, B3. auto.
  - rewrite He. unfold next. destruct (nt (toks p')) as [|[? ?] ?]; cbn; split; congruence.
  - unfold next in Hn. intros H. apply Hn. destruct (nt (toks p')) as [|[? ?] ?]; cbn in *; congruence.
Qed.
