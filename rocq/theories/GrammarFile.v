(** A file of the grammar: item after item. *)
From Verif Require Import Lexer LexerSpec LexerProofs Parser ParserSpec ParserProofs ParserRun ParserFns ParserTree ParserItem ParserFile GrammarSpec GrammarParse GrammarItems GrammarBack.
Set Implicit Arguments.

(** ** Trees of the grammar hold no errors *)
Inductive good : elem -> Prop :=
| g_ty e : ty e -> good e
| g_ex e : ex e -> good e
| g_mcase e : mcase e -> good e
| g_ops m e : ops m e -> good e
| g_field e : field e -> good e
| g_tcase l e : optional [Tok KPipe] l -> tcase l e -> good e
| g_item e : item_tree e -> good e.
Definition kid (e : elem) : Prop := good e \/ errs e = [].

Lemma kid_tok k : kid (Tok k).
Proof. right. auto. Qed.
Lemma kid_names n : errs (Node MatchVars (repeat name n)) = [].
Proof. cbn. induction n; cbn; auto. Qed.
Lemma kid_params n : errs (Node TypeParams (repeat name n)) = [].
Proof. cbn. induction n; cbn; auto. Qed.
Lemma kid_commas l : commas l -> flat_map errs l = [].
Proof. induction 1; cbn; auto. Qed.
Lemma kids_app a b : Forall kid a -> Forall kid b -> Forall kid (a ++ b).
Proof. intros. apply Forall_app. auto. Qed.
Lemma kids_path l : path l -> Forall kid l.
Proof. intros []; repeat (apply Forall_cons; [right; reflexivity|]); apply Forall_nil. Qed.
Lemma kids_annot l : annot l -> Forall kid l.
Proof. intros [|t H]; [apply Forall_nil|]. apply Forall_cons; [right; reflexivity|apply Forall_cons; [left; apply g_ty; auto|apply Forall_nil]]. Qed.
Lemma kids_opt l' l : Forall kid l' -> optional l' l -> Forall kid l.
Proof. intros H []; auto. Qed.
Lemma kids_good (P : elem -> Prop) l : (forall e, P e -> good e) -> Forall P l -> Forall kid l.
Proof. intros H F. eapply Forall_impl; [|exact F]. intros e He. left. auto. Qed.
Ltac kids := repeat first
  [ apply Forall_nil | apply Forall_cons; [first [apply kid_tok | right; reflexivity | right; apply kid_names | right; apply kid_params | idtac]|]
  | apply kids_app | apply kids_path; assumption | apply kids_annot; assumption
  | eapply kids_opt; [|eassumption] ].
Lemma good_simple t : simple t -> good t.
Proof. intros. apply g_ty, ty_simple. auto. Qed.
Lemma good_atom t : tyatom t -> good t.
Proof. intros. apply good_simple, si_atom. auto. Qed.
Lemma good_app t : app_ t -> good t.
Proof. intros. apply (@g_ops 0), op_app. auto. Qed.
Lemma good_exatom t : exatom t -> good t.
Proof. intros. apply good_app, ap_atom. auto. Qed.
Ltac gd := left; first [apply g_ty; assumption | apply good_simple; assumption | apply good_atom; assumption | apply g_ex; assumption |
  apply g_mcase; assumption | eapply g_ops; eassumption | apply good_app; assumption | apply good_exatom; assumption | apply g_field; assumption ].
Lemma good_kids e : good e -> exists k l, e = Node k l /\ Forall kid l.
Proof.
  assert (A : forall t, tyatom t -> exists k l, t = Node k l /\ Forall kid l).
  { intros t []; eexists _, _; (split; [reflexivity|]); kids. gd. }
  assert (S : forall t, simple t -> exists k l, t = Node k l /\ Forall kid l).
  { intros t [t' H|l ts Hl Hts]; auto. eexists _, _; (split; [reflexivity|]); kids. eapply kids_good; [|exact Hts]. apply good_atom. }
  assert (X : forall t, exatom t -> exists k l, t = Node k l /\ Forall kid l).
  { intros t []; eexists _, _; (split; [reflexivity|]); kids. gd. }
  assert (Y : forall t, app_ t -> exists k l, t = Node k l /\ Forall kid l).
  { intros t [t' H|f a Hf Ha]; auto. eexists _, _; (split; [reflexivity|]); kids; gd. }
  assert (O : forall m t, ops m t -> exists k l, t = Node k l /\ Forall kid l).
  { intros m t []; auto. eexists _, _; (split; [reflexivity|]); kids; gd. }
  intros [t [t' H|a b Ha Hb]|t [ ]|t [ ]|m t H|t [ ]|l t Hl [ ]|t [ ]]; eauto.
  - eexists _, _; (split; [reflexivity|]); kids; gd.
  - eexists _, _; (split; [reflexivity|]); kids; gd.
  - eexists _, _; (split; [reflexivity|]); kids; try gd. eapply kids_good; [|eassumption]. apply g_mcase.
  - eexists _, _; (split; [reflexivity|]); kids; gd.
  - eexists _, _; (split; [reflexivity|]); kids; gd.
  - eexists _, _; (split; [reflexivity|]); kids; gd.
  - eexists _, _; (split; [reflexivity|]); kids; gd.
  - eexists _, _; (split; [reflexivity|]); kids.
  - eexists _, _; (split; [reflexivity|]); kids; gd.
  - eexists _, _; (split; [reflexivity|]); kids. eapply kids_good; [|eassumption]. apply g_field.
  - eexists _, _; (split; [reflexivity|]); kids; gd.
  - eexists _, _; (split; [reflexivity|]); kids.
    + destruct H0; kids.
    + left. eapply g_tcase; eauto.
    + eapply kids_good; [|eassumption]. intros. exact (g_tcase (opt_some _) H5).
  - eexists _, _; (split; [reflexivity|]); kids. destruct H0; kids. right. cbn. rewrite flat_map_app, kid_commas; auto.
Qed.
Lemma good_errs e : good e -> errs e = [].
Proof.
  induction e as [k|s|k l IH] using elem_ind2; intros H; destruct (good_kids H) as (k' & l' & E & F); try discriminate.
  injection E as <- <-. rewrite errs_node. revert IH. induction F as [|x l Hx F IHl]; intros IH; cbn; auto. inversion IH as [|? ? I1 I2]; subst.
  assert (Hl : flat_map errs l = []).
  { clear - F I2. induction F as [|x l Hx F IHl]; cbn; auto. inversion I2; subst. rewrite IHl; auto. destruct Hx as [Hx|Hx]; [rewrite H1; auto|rewrite Hx; auto]. }
  rewrite Hl, app_nil_r. destruct Hx; auto.
Qed.

(** ** One item *)
Lemma item_first it : item_tree it -> yields [it] <> [].
Proof. intros []; cbn; try (destruct H; discriminate); discriminate. Qed.
Lemma grammar_item err src start it ks : item_tree it -> map fst (nt (lex err src)) = yield it ++ ks ->
  exists t toks rest, parse_one_item err src start = Ok (t, []) /\ item_ok err src start t [] toks rest /\
    shape t = [Node Root [it]] /\ map fst (nt rest) = ks /\ (ks = [] -> rest = []).
Proof.
  intros Hi HK. unfold parse_one_item. set (ts := lex err src). set (p0 := mkP true ts start start [] [] []).
  assert (W : wp (e <- at_eof ;; (if e then ret tt else item (10 * length ts + 20)) ;; at_eof) p0 (fun eat p' =>
    R p0 p' [it] /\ (eat = true <-> next p' = None))).
  { eapply wp_seq; [apply at_eof_spec|]. cbv beta. intros b p1 (A & B & C).
    assert (HK1 : K p1 = yield it ++ ks) by (rewrite (R0_K A); exact HK).
    destruct b.
    - exfalso. assert (E : next p0 = None) by (apply C; auto). rewrite K_next in E. change (K p0) with (map fst (nt ts)) in E. unfold ts in E. rewrite HK in E.
      pose proof (item_first Hi) as F. cbn in F. rewrite app_nil_r in F. destruct (yield it); [congruence|discriminate].
    - eapply wp_seq; [eapply e_item; [exact Hi|exact HK1|]|].
      + pose proof (R_cnt A) as H. pose proof (nt_le (toks p0)) as H'. fold (cnt p0) in H'. change (toks p0) with ts in H'. lia.
      + cbv beta. intros [] p2 HR. eapply wp_mono; [apply at_eof_spec|]. cbv beta. intros b p3 (A' & B' & C').
        split; [|rewrite B'; auto]. pose proof (R_trans (R_trans A HR) A') as Y. exact Y. }
  unfold wp in W. destruct ((e <- at_eof ;; (if e then ret tt else item (10 * length ts + 20)) ;; at_eof) p0) as [[eat p']| |]; try tauto.
  destruct W as (HR & He). assert (HKp : K p' = ks) by (eapply R_K; [exact HR|]; cbn [yields flat_map]; rewrite app_nil_r; exact HK).
  destruct HR as (new & used & B & Ev & Sg). cbn in Ev, Sg. subst new.
  destruct B as [B1 B2 B3 B4 B5]. cbn [toks p0] in B1. cbn [cur off p0] in B5. change (toks p0) with ts in B5. destruct (B5 (le_n _)) as (C1 & C2 & C3).
  assert (He0 : flat_map errs [it] = []) by (cbn; rewrite (good_errs (g_item Hi)); auto).
  edestruct (@events_built err src start (evs p') [it] ks eat) as (t & ds & tk & rest & E & I & D & S & Rk & Ra).
  - apply reorder_ok. auto.
  - auto.
  - rewrite He0. constructor.
  - rewrite HK. cbn. rewrite app_nil_r. auto.
  - rewrite He, K_next, HKp. destruct ks; cbn; split; congruence.
  - intros _. apply item_first. auto.
  - apply D in He0 as E0. subst ds. exists t, tk, rest. rewrite (no_errs_list _ He0) in S. do 4 (split; auto). intros ->. apply Ra, He. rewrite K_next, HKp. auto.
Qed.

(** ** The file *)
Definition tree_of (i : stree * list (nat * nat)) : list elem * list (nat * nat) := (shape (fst i), snd i).
Definition as_item (e : elem) : list elem * list (nat * nat) := ([Node Root [e]], []).
Lemma nt_words err src : words err src = map fst (nt (lex err src)).
Proof. reflexivity. Qed.
Lemma grammar_loop err src its : Forall item_tree its -> forall items toks rest n,
  file_ok err src items toks rest -> map fst (nt rest) = yields its -> (its = [] -> rest = []) -> length its < n ->
  exists more, compile_loop n err src (length src) items = Ok (items ++ more) /\ map tree_of more = map as_item its.
Proof.
  induction 1 as [|it its Hi H IH]; intros items toks rest n F HK H0 Hn; (destruct n as [|n]; [lia|]); cbn [compile_loop];
    destruct (compiled_le F) as [L1 L2].
  - rewrite (H0 eq_refl) in L2. cbn in L2. replace (length src <=? compiled_length items) with true by (symmetry; apply Nat.leb_le; lia).
    exists []. rewrite app_nil_r. auto.
  - assert (Hlt : compiled_length items < length src).
    { destruct rest as [|[k0 t0] rest]; [|].
      - exfalso. pose proof (item_first Hi) as Z. cbn in HK, Z. symmetry in HK. apply app_eq_nil in HK as [HK _]. rewrite HK in Z. apply Z. auto.
      - destruct (lexes_tile (lex_spec err src)) as [_ Hpos]. rewrite (f_lex F) in Hpos. apply Forall_app in Hpos as [_ Hpos]. inversion Hpos as [|? ? Hp _]; subst.
        rewrite <- L2. unfold tlen at 2. cbn in Hp |- *. rewrite app_length. destruct t0; [congruence|]. cbn. lia. }
    assert (Hrest : lex err (skipn (compiled_length items) src) = rest) by (rewrite L1; apply lex_suffix, (f_lex F)).
    destruct (@grammar_item err (skipn (compiled_length items) src) (compiled_length items) it (yields its)) as (t & tk & r & E & I & S & Kr & Kn); auto.
    { rewrite Hrest. exact HK. }
    destruct (file_step_with F Hlt I) as (F' & _).
    replace (length src <=? compiled_length items) with false by (symmetry; apply Nat.leb_gt; lia).
    replace (compiled_length items =? length src) with false by (symmetry; apply Nat.eqb_neq; lia).
    cbn [orb]. rewrite E. cbn [rbind]. cbn in Hn.
    destruct (IH _ _ _ n F' Kr) as (more & EL & EM); [intros ->; auto|lia|].
    exists ((t, []) :: more). rewrite EL, <- app_assoc. split; auto. cbn. unfold tree_of at 1. cbn. rewrite S, EM. auto.
Qed.
Lemma yields_len its : Forall item_tree its -> length its <= length (yields its).
Proof.
  induction 1 as [|it its Hi H IH]; cbn; auto. rewrite app_length. pose proof (item_first Hi) as F. cbn in F. rewrite app_nil_r in F. destruct (yield it); [congruence|]. cbn. unfold yields in IH. lia.
Qed.
Lemma grammar_file err src its : its <> [] -> Forall item_tree its -> words err src = yields its ->
  exists items, compile_up_to err src (length src) [] = Ok items /\ map tree_of items = map as_item its.
Proof.
  intros Hne H HK. unfold compile_up_to. rewrite nt_words in HK.
  pose proof (yields_len H) as L. rewrite <- HK, map_length in L. pose proof (nt_le (lex err src)) as L'.
  assert (L2 : length (lex err src) <= length src).
  { destruct (lexes_tile (lex_spec err src)) as [E F]. rewrite <- E at 2. clear - F. induction F as [|[k t] l Hx F IH]; cbn in *; auto. rewrite app_length. destruct t; [congruence|]. cbn. lia. }
  unfold token in *.   assert (H0 : its = [] \/ 1 <= length its) by (destruct its; cbn; [auto|right; lia]). assert (0 < length src) by (destruct H0; [congruence|lia]).
  cbn [compiled_length rev]. replace (length src <=? 0) with false by (symmetry; apply Nat.leb_gt; lia).
  destruct (grammar_loop H (n := S (length src)) (file_none err src)) as (more & A & B); auto; [congruence|lia|]. eauto.
Qed.

(** ** What is compiled without a diagnostic is a file of the grammar *)
Lemma parse_shape err src start : exists t ds toks rest,
  parse_one_item err src start = Ok (t, ds) /\ item_ok err src start t ds toks rest /\
  (ds = [] -> nt (lex err src) <> [] -> exists it, item_tree it /\ map fst (nt (lex err src)) = yield it ++ map fst (nt rest)) /\
  (nt (lex err src) = [] -> ds = [] /\ rest = []).
Proof.
  unfold parse_one_item. set (ts := lex err src). set (p0 := mkP true ts start start [] [] []).
  set (run := e <- at_eof ;; (if e then ret tt else item (10 * length ts + 20)) ;; at_eof).
  assert (W : wp run p0 (fun eat p' => exists out, R p0 p' out /\ (eat = true <-> next p' = None) /\ (next p' <> None -> yields out <> []))).
  { unfold run. eapply wp_seq; [apply at_eof_spec|]. cbn. intros b p1 (A & B & C). destruct b.
    - apply wp_bind, wp_ret. eapply wp_mono; [apply at_eof_spec|]. cbn. intros b p3 (A' & B' & C').
      exists ([] ++ []). split; [eapply R_trans; eauto|]. rewrite B'. split; auto. intros H. destruct H. rewrite B. apply C. auto.
    - destruct (next p0) as [k|] eqn:Ek; [|exfalso; assert (false = true) by (apply C; auto); discriminate].
      eapply wp_seq; [eapply item_spec; [exact B|]|].
      + pose proof (R_cnt A) as H. pose proof (nt_le (toks p0)) as H'. fold (cnt p0) in H'. change (toks p0) with ts in H'. lia.
      + intros [] p2 ([out HR] & Hc). eapply wp_mono; [apply at_eof_spec|]. cbn. intros b p3 (A' & B' & C').
        exists (([] ++ out) ++ []). split; [eapply R_trans; [eapply R_trans|]; eauto|]. rewrite B'. split; auto.
        intros _. rewrite !yields_app. cbn. rewrite app_nil_r. intros E. rewrite (R_cnt HR), E in Hc. cbn in Hc. lia. }
  assert (V : wl run p0 (fun eat p' => exists out, R p0 p' out /\ (next p0 = None -> out = []) /\
    (next p0 <> None -> flat_map errs out = [] -> exists it, out = [it] /\ item_tree it))).
  { unfold run. eapply wl_seq; [apply wp_wl, at_eof_spec|]. cbv beta. intros b p1 (A & B & C). destruct b.
    - assert (E0 : next p0 = None) by (apply C; auto). eapply wl_seq; [apply wl_ret with (Q := fun _ q => q = p1); auto|]. cbv beta. intros _ q ->.
      eapply wl_mono; [apply wp_wl, at_eof_spec|]. cbv beta. intros b p3 (A' & _). exists []. split; [apply (R_trans A A')|]. split; auto. congruence.
    - assert (E0 : next p0 <> None) by (intros E; assert (false = true) by (apply C; auto); discriminate).
      eapply wl_seq; [apply l_item|]. cbv beta. intros _ p2 (out & HR & Ho). eapply wl_mono; [apply wp_wl, at_eof_spec|]. cbv beta. intros b p3 (A' & _).
      exists out. split; [pose proof (R_trans (R_trans A HR) A') as Y; rewrite app_nil_r in Y; exact Y|]. split; [congruence|]. intros _. exact Ho. }
  unfold wp in W. unfold wl in V. destruct (run p0) as [[eat p']| |]; try tauto.
  destruct W as (out1 & HR1 & He & Hn). destruct V as (out & HR & Hz & Hit).
  pose proof (R_nt HR) as HK. pose proof (R_nt HR1) as HK1. rewrite HK in HK1. apply app_inv_tail in HK1. rewrite <- HK1 in Hn. clear out1 HR1 HK1.
  change (toks p0) with ts in HK.
  assert (HN : next p0 = None <-> nt ts = []).
  { unfold next. change (toks p0) with ts. destruct (nt ts) as [|[? ?] ?]; split; intros X; auto; discriminate X. }
  destruct HR as (new & used & B & Ev & Sg). cbn in Ev, Sg. subst new.
  destruct B as [B1 B2 B3 B4 B5]. cbn [cur off p0] in B5. change (toks p0) with ts in B5. destruct (B5 (le_n _)) as (C1 & C2 & C3).
  edestruct (@events_built err src start (evs p') out (map fst (nt (toks p'))) eat) as (t & ds & tk & rest & E & I & D & S & Rk & Ra).
  - apply reorder_ok. auto.
  - auto.
  - unfold ts in C3. rewrite tlen_lex in C3. auto.
  - exact HK.
  - rewrite He. unfold next. destruct (nt (toks p')) as [|[? ?] ?]; cbn; split; congruence.
  - unfold next in Hn. intros H. apply Hn. destruct (nt (toks p')) as [|[? ?] ?]; cbn in *; congruence.
  - exists t, ds, tk, rest. split; [exact E|]. split; [exact I|]. split.
    + intros Hd Hne. apply D in Hd. destruct Hit as (it & -> & Hi); auto; [intros E0; apply Hne, HN, E0|]. exists it. split; auto. rewrite Rk, HK. cbn. rewrite app_nil_r. auto.
    + intros H0. assert (out = []) by (apply Hz, HN, H0). subst out. split; [apply D; auto|]. apply Ra, He. unfold next.
      rewrite H0 in HK. destruct (nt (toks p')) as [|[? ?] ?]; auto. discriminate.
Qed.
Lemma short_rest err src items toks rest : file_ok err src items toks rest -> length src <= compiled_length items -> rest = [].
Proof.
  intros F H. destruct (compiled_le F) as [L1 L2]. destruct rest as [|[k0 t0] rest]; auto. exfalso.
  destruct (lexes_tile (lex_spec err src)) as [_ Hpos]. rewrite (f_lex F) in Hpos. apply Forall_app in Hpos as [_ Hpos]. inversion Hpos as [|? ? Hp _]; subst.
  unfold tlen at 2 in L2. cbn in Hp, L2. rewrite app_length in L2. destruct t0; [congruence|]. cbn in L2. lia.
Qed.
Lemma back_loop err src : forall n items items' toks rest, compile_loop n err src (length src) items = Ok items' -> file_ok err src items toks rest ->
  exists more, items' = items ++ more /\
    (Forall (fun i => snd i = []) more -> exists its, Forall item_tree its /\ map fst (nt rest) = yields its) /\
    (nt rest = [] -> Forall (fun i => snd i = []) more).
Proof.
  induction n as [|n IH]; intros items items' tk rest H F; [discriminate|]. cbn [compile_loop] in H. destruct (compiled_le F) as [L1 L2].
  destruct ((length src <=? compiled_length items) || (compiled_length items =? length src)) eqn:Ec.
  - injection H as <-. exists []. rewrite app_nil_r. split; auto. split; [|constructor]. intros _. exists []. split; [constructor|].
    rewrite (short_rest F); auto. apply Bool.orb_true_iff in Ec as [Ec|Ec]; [apply Nat.leb_le in Ec; auto|apply Nat.eqb_eq in Ec; lia].
  - apply Bool.orb_false_iff in Ec as [Ec _]. apply Nat.leb_gt in Ec.
    destruct (parse_shape err (skipn (compiled_length items) src) (compiled_length items)) as (t & ds & toks' & rest' & E & I & Hi & Hb).
    assert (Hrest : lex err (skipn (compiled_length items) src) = rest) by (rewrite L1; apply lex_suffix, (f_lex F)).
    rewrite Hrest in Hi, Hb. rewrite E in H. cbn [rbind] in H. destruct (file_step_with F Ec I) as (F' & _).
    destruct (IH _ _ _ _ H F') as (more & -> & A & B). exists ((t, ds) :: more). rewrite <- app_assoc. split; auto. split.
    + intros Hf. pose proof (Forall_inv Hf) as Hd. pose proof (Forall_inv_tail Hf) as Hf'. cbn in Hd. destruct (A Hf') as (its & Hits & Hy). destruct (nt rest) as [|[k0 t0] r0] eqn:En.
      * exists []. split; constructor.
      * destruct Hi as (it & Hit & Hk); auto; [discriminate|]. exists (it :: its). split; auto. rewrite Hk, Hy. auto.
    + intros H0. destruct (Hb H0) as [-> ->]. constructor; auto.
Qed.
Lemma back_file err src items : compile_up_to err src (length src) [] = Ok items ->
  (Forall (fun i => snd i = []) items -> exists its, Forall item_tree its /\ words err src = yields its) /\
  (words err src = [] -> Forall (fun i => snd i = []) items).
Proof.
  unfold compile_up_to. rewrite nt_words. intros H. destruct (length src <=? compiled_length []) eqn:E.
  - injection H as <-. split; [|constructor]. intros _. exists []. split; [constructor|]. apply Nat.leb_le in E. cbn in E. destruct src; [|cbn in E; lia]. reflexivity.
  - destruct (back_loop _ H (file_none err src)) as (more & -> & A & B). cbn [app]. split; auto. intros Hw. apply B. destruct (nt (lex err src)); [auto|discriminate].
Qed.
