(** Whole files, and uniqueness of grouping. *)
From Verif Require Import Lexer LexerSpec LexerProofs Parser ParserSpec ParserProofs ParserRun ParserFns ParserTree ParserItem.
Set Implicit Arguments.

Lemma lex_step_len err s : s <> [] -> match scan s with Some r => 1 <= fst r | None => 1 <= err_len err s end.
Proof.
  intros H. assert (L := lex_spec err s). destruct (scan s) as [[n k]|] eqn:E; [|unfold err_len; lia]. cbn.
  unfold lex in L. destruct s as [|c s]; [congruence|]. cbn [length lex_fuel] in L. rewrite E in L.
  pose proof (lexes_tile L) as [_ F]. inversion F as [|? ? F1 _]; subst. cbn in F1. destruct n; [|lia]. destruct F1; auto.
Qed.
Lemma lex_fuel_more err : forall f s, length s <= f -> lex_fuel err f s = lex err s.
Proof.
  unfold lex. induction f as [f IH] using lt_wf_ind. intros s H. destruct s as [|c s]; [destruct f; auto|].
  destruct f as [|f]; [cbn in H; lia|]. cbn [length]. cbn [lex_fuel].
  pose proof (@lex_step_len err (c :: s)) as HL. destruct (scan (c :: s)) as [[n k]|].
  - cbn in HL. specialize (HL ltac:(discriminate)). f_equal. cbn in H.
    assert (length (skipn n (c :: s)) <= length s) by (rewrite skipn_length; cbn [length]; lia).
    rewrite IH by lia. destruct f; [destruct s; [|cbn in H; lia]; destruct n; [lia|]; cbn; rewrite skipn_nil; auto|].
    rewrite (IH (length s)); auto; lia.
  - specialize (HL ltac:(discriminate)). f_equal. cbn in H. set (n := err_len err (c :: s)) in *.
    assert (length (skipn n (c :: s)) <= length s) by (rewrite skipn_length; cbn [length]; lia).
    rewrite IH by lia. destruct f; [destruct s; [|cbn in H; lia]; destruct n; [lia|]; cbn; rewrite skipn_nil; auto|].
    rewrite (IH (length s)); auto; lia.
Qed.
Lemma skip_skip A (l : list A) : forall a b, skipn b (skipn a l) = skipn (a + b) l.
Proof. induction l as [|x l IH]; intros [|a] b; cbn; auto. rewrite skipn_nil. auto. Qed.
Lemma lex_suffix err : forall a s b, lex err s = a ++ b -> lex err (skipn (tlen a) s) = b.
Proof.
  induction a as [|[k t] a IH]; intros s b H; [cbn; auto|].
  destruct s as [|c s]; [discriminate|].
  assert (Hs : exists n, (k, t) = (k, firstn n (c :: s)) /\ a ++ b = lex err (skipn n (c :: s))).
  { unfold lex in H. cbn [length lex_fuel] in H. pose proof (@lex_step_len err (c :: s)) as HL. specialize (HL ltac:(discriminate)).
    destruct (scan (c :: s)) as [[n k']|].
    - cbn in HL. injection H as <- <- H. exists n. split; auto. rewrite <- H. apply lex_fuel_more. rewrite skipn_length. cbn [length]. lia.
    - set (n := err_len err (c :: s)) in *. injection H as <- <- H. exists n. split; auto. rewrite <- H. apply lex_fuel_more. rewrite skipn_length. cbn [length]. lia. }
  destruct Hs as (n & E & Hb). injection E as ->. symmetry in Hb. apply IH in Hb. rewrite <- Hb.
  unfold tlen. cbn [map concat snd]. rewrite app_length. rewrite <- skip_skip. do 2 f_equal.
  rewrite firstn_length. destruct (Nat.le_gt_cases n (length (c :: s))) as [L|L].
  - rewrite Nat.min_l by auto. auto.
  - rewrite Nat.min_r by lia. rewrite skipn_all, skipn_all2; auto. lia.
Qed.

Record file_ok (err : list N -> nat) (src : list N) (items : list (stree * list (nat * nat))) (toks rest : list token) : Prop := {
  f_lex : lex err src = toks ++ rest;
  f_tiles : tiles 0 (map fst items) toks (compiled_length items);
  f_len : length items <= length toks;
  f_items : Forall (fun it => Forall (within 0 (length src)) (snd it) /\ Forall grouped (shape (fst it)) /\
     (snd it = [] -> Forall whole (shape (fst it))) /\ (exists n, ids (fst it) = List.seq 0 n) /\ (exists s f ch, fst it = SNode 0 Root s f ch) /\
     exists p toks, toks <> [] /\ tiles p [fst it] toks (p + tlen toks)) items
}.
Lemma compiled_snoc items it : compiled_length (items ++ [it]) = snd (full_of (fst it)).
Proof. unfold compiled_length. rewrite rev_app_distr. cbn. destruct it. auto. Qed.
Lemma compiled_le err src items toks rest : file_ok err src items toks rest -> compiled_length items = tlen toks /\ tlen toks + tlen rest = length src.
Proof.
  intros [A B C]. pose proof (tiles_len B). cbn in H. split; auto. rewrite <- tlen_app, <- A. apply tlen_lex.
Qed.
Lemma file_step_with err src items toks rest t ds toks' rest' : file_ok err src items toks rest -> compiled_length items < length src ->
  item_ok err (skipn (compiled_length items) src) (compiled_length items) t ds toks' rest' ->
  file_ok err src (items ++ [(t, ds)]) (toks ++ toks') rest' /\ compiled_length items < compiled_length (items ++ [(t, ds)]).
Proof.
  intros F H I. destruct (compiled_le F) as [L1 L2]. destruct I as [A1 A2 A3 A4 A5 A6 A7 A8].
  assert (HL : rest = toks' ++ rest').
  { rewrite <- A1. symmetry. rewrite L1. apply lex_suffix. apply (f_lex F). }
  assert (Hne : toks' <> []).
  { apply A3. intros E'. apply (f_equal (@length _)) in E'. rewrite skipn_length in E'. cbn in E'. lia. }
  assert (Hend : snd (full_of t) = compiled_length items + tlen toks') by (apply (tiles_end A2)).
  destruct (lexes_tile (lex_spec err src)) as [_ Hpos].
  split.
  - constructor.
    + rewrite (f_lex F), HL, app_assoc. auto.
    + rewrite map_app, compiled_snoc. cbn [map fst]. rewrite Hend. eapply tiles_app; eauto. apply (f_tiles F).
    + rewrite !app_length. pose proof (f_len F). destruct toks'; [congruence|]. cbn. lia.
    + apply Forall_app. split; [apply (f_items F)|]. constructor; auto. cbn. repeat (split; auto).
      * eapply Forall_impl; [|exact A4]. intros s [B1 [B2 B3]]. rewrite skipn_length in B3. split; [lia|]. split; auto. lia.
      * eauto.
  - rewrite compiled_snoc. cbn. rewrite Hend. rewrite (f_lex F), HL in Hpos. apply Forall_app in Hpos as [_ Hpos]. apply Forall_app in Hpos as [Hpos _].
    destruct toks' as [|[k0 t0] toks']; [congruence|]. inversion Hpos as [|? ? Hp _]; subst. cbn in Hp. unfold tlen. cbn. rewrite app_length.
    destruct t0; [congruence|]. cbn. lia.
Qed.
Lemma file_step err src items toks rest : file_ok err src items toks rest -> compiled_length items < length src ->
  exists it toks' rest', parse_one_item err (skipn (compiled_length items) src) (compiled_length items) = Ok it /\
    file_ok err src (items ++ [it]) (toks ++ toks') rest' /\ compiled_length items < compiled_length (items ++ [it]).
Proof.
  intros F H. destruct (parse_one_item_ok err (skipn (compiled_length items) src) (compiled_length items)) as (t & ds & toks' & rest' & E & I).
  exists (t, ds), toks', rest'. split; auto. eapply file_step_with; eauto.
Qed.
Lemma file_none err src : file_ok err src [] [] (lex err src).
Proof. constructor; cbn; auto. constructor. Qed.
Lemma parsed_ok err src items : parsed err src items -> exists toks rest, file_ok err src items toks rest.
Proof.
  induction 1 as [|items it H IH Hlt E]; [exists [], (lex err src); apply file_none|]. destruct IH as (toks & rest & F).
  destruct (file_step F Hlt) as (it' & toks' & rest' & E' & F' & _). rewrite E in E'. injection E' as <-. eauto.
Qed.
Lemma parsed_prefix err src a b : parsed err src a -> parsed err src b -> length a <= length b -> exists r, b = a ++ r.
Proof.
  intros Ha Hb. revert a Ha. induction Hb as [|items it H IH Hlt E]; intros a Ha L.
  - destruct a; [|cbn in L; lia]. exists []. auto.
  - rewrite app_length in L. cbn in L. destruct (Nat.eq_dec (length a) (S (length items))) as [El|El].
    + inversion Ha as [|items' it' H' Hlt' E' EE]; subst a; [cbn in El; lia|]. rewrite app_length in El. cbn in El.
      destruct (IH _ H') as (r & Er); [lia|]. assert (r = []) by (apply length_zero_iff_nil; rewrite Er, app_length in El; lia).
      subst r. rewrite app_nil_r in Er. subst items'. rewrite E in E'. injection E' as <-. exists []. rewrite app_nil_r. auto.
    + destruct (IH _ Ha) as (r & ->); [lia|]. exists (r ++ [it]). rewrite app_assoc. auto.
Qed.
Lemma loop_ok err src off : forall n items, parsed err src items -> length src - compiled_length items < n ->
  exists more, compile_loop n err src off items = Ok (items ++ more) /\ parsed err src (items ++ more) /\
    (off <= compiled_length (items ++ more) \/ compiled_length (items ++ more) = length src).
Proof.
  induction n as [|n IH]; intros items H Hn; [lia|]. cbn [compile_loop].
  destruct (off <=? compiled_length items) eqn:E1.
  - apply Nat.leb_le in E1. exists []. rewrite app_nil_r. cbn. auto.
  - apply Nat.leb_gt in E1. cbn [orb]. destruct (compiled_length items =? length src) eqn:E2.
    + apply Nat.eqb_eq in E2. exists []. rewrite app_nil_r. auto.
    + apply Nat.eqb_neq in E2. destruct (parsed_ok H) as (toks & rest & F). destruct (compiled_le F) as [L1 L2].
      destruct (@file_step _ _ _ _ _ F) as (it & toks' & rest' & E & F' & Hl); [lia|]. rewrite E. cbn [rbind].
      assert (Hp : parsed err src (items ++ [it])) by (econstructor; eauto; lia).
      destruct (IH _ Hp) as (more & A & B & C); [lia|]. exists (it :: more). rewrite <- app_assoc in A, B, C. auto.
Qed.
Lemma compile_ok err src off items : parsed err src items ->
  exists more, compile_up_to err src off items = Ok (items ++ more) /\ parsed err src (items ++ more) /\
    (off <= compiled_length (items ++ more) \/ compiled_length (items ++ more) = length src).
Proof.
  intros H. unfold compile_up_to. destruct (off <=? compiled_length items) eqn:E1.
  - apply Nat.leb_le in E1. exists []. rewrite app_nil_r. auto.
  - apply loop_ok; auto. lia.
Qed.
Lemma requested_parsed err src offs items : requested err src offs items -> parsed err src items.
Proof.
  induction 1 as [|offs items off items' H IH E]; [constructor|]. destruct (compile_ok off IH) as (more & E' & P & _).
  rewrite E in E'. injection E' as ->. auto.
Qed.
Lemma compiled_mono err src a r : parsed err src (a ++ r) -> compiled_length a <= compiled_length (a ++ r).
Proof.
  revert a. induction r as [|it r IH] using rev_ind; intros a H; [rewrite app_nil_r; auto|].
  rewrite app_assoc in *. inversion H as [E|items it' H' Hlt E' EE]; [symmetry in E; apply app_eq_nil in E as [_ E]; discriminate|].
  apply app_inj_tail in EE as [-> ->]. destruct (parsed_ok H') as (toks & rest & F). destruct (file_step F Hlt) as (it' & toks' & rest' & E2 & F' & Hl).
  rewrite E' in E2. injection E2 as <-. specialize (IH _ H'). lia.
Qed.
Lemma requested_cover err src offs items : requested err src offs items ->
  compiled_length items = length src \/ Forall (fun o => o <= compiled_length items) offs.
Proof.
  induction 1 as [|offs items off items' H IH E]; [auto|]. pose proof (requested_parsed H) as P. destruct (compile_ok off P) as (more & E' & P' & C).
  rewrite E in E'. injection E' as ->. destruct C as [C|C]; auto.
  pose proof (compiled_mono _ _ P') as M. destruct (parsed_ok P') as (? & ? & F). destruct (compiled_le F) as [L1 L2].
  destruct IH as [IH|IH]; [left; lia|]. right. apply Forall_app. split; auto. eapply Forall_impl; [|exact IH]. cbn. intros. lia.
Qed.

(** ** Grouping is unique *)

Lemma whole_inv k l : whole (Node k l) ->
  (k <> BinaryExpr /\ Forall whole l) \/
  (exists a op b, k = BinaryExpr /\ l = [a; Node BinaryOp [Tok op]; b] /\ whole a /\ whole b /\
    (exists k ch, a = Node k ch) /\ (exists k ch, b = Node k ch)).
Proof.
  intros H. inversion H; subst; [left; auto|]. right. eexists _, _, _. repeat (split; eauto).
Qed.
Lemma grouped_inv a op b : grouped (Node BinaryExpr [a; Node BinaryOp [Tok op]; b]) -> (exists k ch, a = Node k ch) -> (exists k ch, b = Node k ch) ->
  exists p, level op = Some p /\ grouped a /\ grouped b /\ (forall q, top_level b q -> p < q) /\ (has_right a -> forall q, top_level a q -> p <= q).
Proof.
  intros H _ _. inversion H as [| |? ? Hk|? ? ? ? p Hg Hf Hp _ H1 H2]; subst; [congruence|]. exists p. inversion Hf; subst. repeat (split; auto).
  intros q Hq. eapply H1; eauto. left; auto.
Qed.
Definition is_binary (e : elem) : Prop := exists l, e = Node BinaryExpr l.
Lemma operands_other e : ~ is_binary e -> operands e = (e, []).
Proof.
  unfold is_binary. intros H. destruct e as [k|s|k l]; auto. destruct k; auto. destruct H. eauto.
Qed.
Lemma operands_binary a op b : operands (Node BinaryExpr [a; Node BinaryOp [Tok op]; b]) =
  let '(x, xs) := operands a in let '(y, ys) := operands b in (x, xs ++ (op, y) :: ys).
Proof. reflexivity. Qed.
(** Every operator of a grouped expression binds at least as tight as the outermost one. *)
Definition least (q : nat) (x : kind * elem) : Prop := exists p, level (fst x) = Some p /\ q <= p.
Lemma least_mono q q' l : q' <= q -> Forall (least q) l -> Forall (least q') l.
Proof. intros H F. eapply Forall_impl; [|exact F]. intros x (p & Hp & Hl). exists p. split; auto. lia. Qed.
Lemma grouped_levels e : whole e -> grouped e ->
  snd (operands e) = [] \/ exists q, top_level e q /\ has_right e /\ Forall (least q) (snd (operands e)).
Proof.
  induction e as [k|s|k l IH] using elem_ind2; intros Hw Hg; cbn; auto.
  apply whole_inv in Hw as [[Hk _] | (a & op & b & -> & -> & Wa & Wb & Na & Nb)].
  - left. change (snd (operands (Node k l)) = []). rewrite operands_other; auto. intros (l' & E). congruence.
  - right. destruct (grouped_inv Hg Na Nb) as (p & Hp & Ga & Gb & Hb & Ha). exists p. split; [eexists _, _, _; eauto|].
    destruct Nb as (kb & cb & ->). split; [eexists _, _, _, _, _; split; [reflexivity|left; reflexivity]|].
    inversion IH as [|? ? IHa IH']; subst. inversion IH' as [|? ? _ IH2]; subst. inversion IH2 as [|? ? IHb _]; subst.
    specialize (IHa Wa Ga). specialize (IHb Wb Gb). set (e := Node kb cb) in *.
    change (Forall (least p) (snd (operands (Node BinaryExpr [a; Node BinaryOp [Tok op]; e])))). rewrite operands_binary.
    destruct (operands a) as [x xs]. destruct (operands e) as [y ys]. cbn [snd] in *. apply Forall_app. split; [|constructor].
    + destruct IHa as [-> | (q & T & R & F)]; auto. eapply least_mono; [|exact F]; auto.
    + exists p. auto.
    + destruct IHb as [-> | (q & T & R & F)]; auto. eapply least_mono; [|exact F]. specialize (Hb _ T). lia.
Qed.
Lemma operands_snd_left e p : whole e -> grouped e -> (has_right e -> forall q, top_level e q -> p <= q) -> Forall (least p) (snd (operands e)).
Proof. intros W G H. destruct (grouped_levels W G) as [-> | (q & T & R & F)]; auto. eapply least_mono; [|exact F]; auto. Qed.
Lemma operands_snd_right e p : whole e -> grouped e -> (forall q, top_level e q -> p < q) -> Forall (least (S p)) (snd (operands e)).
Proof. intros W G H. destruct (grouped_levels W G) as [-> | (q & T & R & F)]; auto. eapply least_mono; [|exact F]. apply H. auto. Qed.

Lemma split_eq A (xs1 : list A) : forall xs2 a b ys1 ys2, xs1 ++ a :: ys1 = xs2 ++ b :: ys2 ->
  (xs1 = xs2 /\ a = b /\ ys1 = ys2) \/ (In b ys1 /\ In a xs2) \/ (In a ys2 /\ In b xs1).
Proof.
  induction xs1 as [|x xs1 IH]; intros [|x' xs2] a b ys1 ys2 H; cbn in H.
  - injection H as -> ->. auto.
  - injection H as -> ->. right. left. split; [apply in_or_app; cbn; auto|cbn; auto].
  - injection H as -> <-. right. right. split; [apply in_or_app; cbn; auto|cbn; auto].
  - injection H as -> H. apply IH in H as [(-> & -> & ->) | [[H1 H2] | [H1 H2]]]; cbn; auto.
Qed.
Lemma whole_binary_dec e : whole e -> ~ is_binary e \/
  exists a op b, e = Node BinaryExpr [a; Node BinaryOp [Tok op]; b] /\ whole a /\ whole b /\
    (exists k ch, a = Node k ch) /\ (exists k ch, b = Node k ch).
Proof.
  intros H. destruct e as [k|s|k l]; try (left; intros (l' & E); discriminate).
  apply whole_inv in H as [[Hk _] | (a & op & b & -> & -> & Wa & Wb & Na & Nb)].
  - left. intros (l' & E). congruence.
  - right. eexists _, _, _. repeat (split; eauto).
Qed.
Lemma operands_ops e : whole e -> is_binary e -> snd (operands e) <> [].
Proof.
  intros W B. destruct (whole_binary_dec W) as [N | (a & op & b & -> & _)]; [tauto|]. rewrite operands_binary.
  destruct (operands a), (operands b). cbn. destruct l; discriminate.
Qed.
Lemma grouping_unique a : forall b, whole a -> grouped a -> whole b -> grouped b -> operands a = operands b -> a = b.
Proof.
  remember (length (snd (operands a))) as n eqn:En. revert a En. induction n as [n IH] using lt_wf_ind. intros a En b Wa Ga Wb Gb E.
  destruct (whole_binary_dec Wa) as [Na | (a1 & o1 & a2 & -> & Wa1 & Wa2 & Na1 & Na2)]; destruct (whole_binary_dec Wb) as [Nb | (b1 & o2 & b2 & -> & Wb1 & Wb2 & Nb1 & Nb2)].
  - rewrite !operands_other in E by auto. congruence.
  - rewrite operands_other in E by auto. symmetry in E. apply (f_equal snd) in E. exfalso. eapply operands_ops; [exact Wb|eexists; reflexivity|exact E].
  - rewrite (operands_other Nb) in E. apply (f_equal snd) in E. exfalso. eapply operands_ops; [exact Wa|eexists; reflexivity|exact E].
  - destruct (grouped_inv Ga Na1 Na2) as (p & Hp & Ga1 & Ga2 & Hb & Ha). destruct (grouped_inv Gb Nb1 Nb2) as (q & Hq & Gb1 & Gb2 & Hb' & Ha').
    pose proof (operands_snd_left Wa1 Ga1 Ha) as L1. pose proof (operands_snd_right Wa2 Ga2 Hb) as L2.
    pose proof (operands_snd_left Wb1 Gb1 Ha') as L3. pose proof (operands_snd_right Wb2 Gb2 Hb') as L4.
    rewrite !operands_binary in E. rewrite operands_binary in En.
    destruct (operands a1) as [x1 xs1] eqn:E1. destruct (operands a2) as [y1 ys1] eqn:E2. destruct (operands b1) as [x2 xs2] eqn:E3. destruct (operands b2) as [y2 ys2] eqn:E4.
    cbn [snd] in *. injection E as -> E. rewrite app_length in En. cbn in En. rewrite Forall_forall in L1, L2, L3, L4.
    destruct (split_eq _ _ _ _ _ _ E) as [(-> & Eo & ->) | [[H1 H2] | [H1 H2]]].
    + injection Eo as -> ->. assert (a1 = b1) as ->.
      { eapply IH; try reflexivity; auto; [rewrite E1; cbn; lia|congruence]. }
      assert (a2 = b2) as ->; auto. { eapply IH; try reflexivity; auto; [rewrite E2; cbn; lia|congruence]. }
    + destruct (L2 _ H1) as (r & R1 & R2). destruct (L3 _ H2) as (t & T1 & T2). cbn in *. assert (r = q) by congruence. assert (t = p) by congruence. lia.
    + destruct (L4 _ H1) as (r & R1 & R2). destruct (L1 _ H2) as (t & T1 & T2). cbn in *. assert (r = p) by congruence. assert (t = q) by congruence. lia.
Qed.
