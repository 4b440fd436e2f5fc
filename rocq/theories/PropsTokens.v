(** C56: highlighting. *)
From Verif Require CompileCorrect.
From Verif Require Import ParserSpec ParserRun ParserTree ParserItem ParserFile PropsParser.
From Verif Require Import NavSpec NavProofs NavUnits PropsNav TokenSpec TokenProofs Tokens.
Set Implicit Arguments.

(** What each kind of definition, and each token that is not a name, is shown as. *)
Definition shown_as (r : role) : token_kind :=
  match r with RType => TkType | RTypeVariable => TkTypeVariable | RCtor => TkCtor | RValue => TkValue end.
Definition plain (k : kind) : option token_kind :=
  if existsb (keqb k) [KImport; KFrom; KExport; KLet; KMatch; KWith; KEnd; KIf; KThen; KElse; Lexer.KType; KInt; KBool; KStringTy; KTrue; KFalse; KFold; KRec]
  then Some TkKeyword
  else if existsb (keqb k) [KPlus; KMinus; KStar; KSlash; KPercent; KLess; KLessEq; KGreater; KGreaterEq; KEqEq; KNotEq; KArgPipe] then Some TkOperator
  else if existsb (keqb k) [KColon; KEquals; KLeftParen; KRightParen; KBackslash; KArrow; KPipe; KComma; KDot; KSemicolon] then Some TkPunctuation
  else match k with KHole => Some TkValue | KNumber => Some TkNumber | KString => Some TkString | KComment => Some TkComment | _ => None end.
(** A token with its place as it is shown; [name] gives the color of a name. *)
Definition show_token (name : nat * nat -> token_kind) (t : kind * (nat * nat)) : list hl_token :=
  match (match fst t with KName => Some (name (snd t)) | k => plain k end) with Some h => [(h, snd t)] | None => [] end.

(** ** The leaves of the trees are the tokens *)
Lemma at_app : forall a p b, tokens_at p (a ++ b) = tokens_at p a ++ tokens_at (p + tlen a) b.
Proof.
  induction a as [|[k t] a IH]; intros p b; cbn [app tokens_at]; [unfold tlen; cbn; rewrite Nat.add_0_r; auto|]. rewrite IH. cbn [app]. do 3 f_equal.
  unfold tlen. cbn. rewrite app_length. lia.
Qed.
Lemma leaves_at {A} (f : stree -> list A) (g : kind * (nat * nat) -> list A) :
  (forall id k s fl ch, f (SNode id k s fl ch) = []) -> (forall k sp, trivia k = false -> f (STok k sp) = g (k, sp)) ->
  (forall k sp, trivia k = true -> f (STrivia k sp) = g (k, sp)) ->
  forall p ts toks q, tiles p ts toks q -> flat_map (fun t => flat_map f (descendants t)) ts = flat_map g (tokens_at p toks).
Proof.
  intros Hn Ht Hv. induction 1 as [p|p k t ts toks q E _ IH|p k t ts toks q E _ IH|p id k s e ch toks1 m ts toks2 q T1 IH1 _ _ _ T2 IH2]; cbn [flat_map tokens_at descendants].
  - auto.
  - cbn [app]. rewrite Ht, IH, app_nil_r by auto. auto.
  - cbn [app]. rewrite Hv, IH, app_nil_r by auto. auto.
  - rewrite at_app, flat_map_app, Hn, IH2. replace (p + tlen toks1) with m by (apply (tiles_len T1)). f_equal. cbn [app]. rewrite <- IH1.
    clear. induction ch as [|c ch IH]; auto. cbn [flat_map]. rewrite flat_map_app, IH. auto.
Qed.

(** ** Colors of names *)
Section Last.
  Context {K V : Type} (eqb : K -> K -> bool).
  Lemma last_in (l : list (K * V)) k v : get_last eqb l k = Some v -> exists x : K, In (x, v) l /\ eqb x k = true.
  Proof.
    induction l as [|[x w] l IH]; cbn; [discriminate|]. destruct (get_last eqb l k) as [w'|].
    - intros E. injection E as ->. destruct (IH eq_refl) as (y & Hy & E). eauto.
    - destruct (eqb x k) eqn:E; [|discriminate]. intros Q. injection Q as ->. eauto.
  Qed.
  Lemma last_none (l : list (K * V)) k : get_last eqb l k = None -> forall (x : K) (v : V), In (x, v) l -> eqb x k = false.
  Proof.
    induction l as [|[x w] l IH]; cbn; [intros _ ? ? []|]. destruct (get_last eqb l k); [discriminate|]. destruct (eqb x k) eqn:E; [discriminate|].
    intros _ y v [Q|Q]; [injection Q as -> ->; auto|eauto].
  Qed.
End Last.
Lemma span_eqb_iff a b : span_eqb a b = true <-> a = b.
Proof.
  unfold span_eqb. destruct a as [a1 a2], b as [b1 b2]. cbn. rewrite andb_true_iff, !Nat.eqb_eq. split; [intros []; congruence|intros E; injection E; auto].
Qed.
Lemma nodup_key {A B} (l : list (A * B)) n a b : NoDup (map fst l) -> In (n, a) l -> In (n, b) l -> a = b.
Proof.
  induction l as [|[x y] l IH]; [intros _ []|]. cbn. intros N Ha Hb. inversion_clear N as [|? ? N1 N2]. destruct Ha as [Ha|Ha], Hb as [Hb|Hb]; auto.
  - congruence.
  - injection Ha as -> ->. exfalso. apply N1. apply (in_map fst _ _ Hb).
  - injection Hb as -> ->. exfalso. apply N1. apply (in_map fst _ _ Ha).
Qed.

(** The definitions are the names that are defined. *)
Theorem C56_definitions_are_binders ps : map fst (definitions ps) = binders ps.
Proof.
  rewrite <- (run_definitions (fun n => n) ps), map_map. cbn. apply (@binder_names (fun n => n) ps).
Qed.
Print Assumptions C56_definitions_are_binders.

Section Colors.
  Variable sy : nat -> sym.
  Hypothesis J : forall a b, sy a = sy b -> a = b.
  Variable ps : list placed.
  Hypothesis LO : laid_out ps.
  Let L := nv_items (run sy 0 ps c0 0).
  Lemma def_in d r x : In (d, (r, x)) (definitions ps) -> exists e, In e (flat_map idefs L) /\ d_name e = d /\ role_of (d_kind e) = r /\ exported (d_vis e) = x.
  Proof. rewrite <- (run_definitions sy ps). intros H. apply in_map_iff in H as (e & E & He). injection E as E1 E2 E3. exists e. auto. Qed.
  Lemma in_def e : In e (flat_map idefs L) -> In (def_role e) (definitions ps).
  Proof. rewrite <- (run_definitions sy ps). apply in_map. Qed.
  Lemma kinds_in s k : In (s, k) (def_kinds L) <-> exists e, In e (flat_map idefs L) /\ d_sym e = s /\ d_kind e = k.
  Proof.
    unfold def_kinds. rewrite in_flat_map. split.
    - intros (i & Hi & H). apply in_map_iff in H as (e & E & He). injection E as <- <-. exists e. split; auto. apply in_flat_map. eauto.
    - intros (e & He & <- & <-). apply in_flat_map in He as (i & Hi & He). exists i. split; auto. apply in_map_iff. eauto.
  Qed.
  Definition names_it (n d : ident) : Prop := n = d \/ In (n, d) (uses ps).
  Lemma entry_role sp k : In (sp, k) (symbol_kinds L) -> exists n d x, sp = span n /\ In (d, (role_of k, x)) (definitions ps) /\ names_it n d.
  Proof.
    unfold symbol_kinds. intros H. apply in_flat_map in H as (i & Hi & H). apply in_app_iff in H as [H|H].
    - apply in_flat_map in H as (r & Hr & H). destruct (get_last Nat.eqb _ (r_sym r)) as [k'|] eqn:E; [|destruct H]. destruct H as [H|[]]. injection H as <- <-.
      apply last_in in E as (s & E & Es). apply Nat.eqb_eq in Es. subst s. apply kinds_in in E as (e & He & Es & Ek).
      assert (Hr' : In r (flat_map irefs L)) by (apply in_flat_map; eauto). destruct (@forall2_l _ _ _ _ _ _ (all_uses sy ps) Hr') as ([n d] & Hu & Rn & Rd). cbn [fst snd] in *.
      exists (r_name r), d, (exported (d_vis e)). split; auto. split; [|right; rewrite Rn; auto].
      pose proof (@owner sy J ps (r_sym r) d e Rd He Es) as En. apply in_def in He. unfold def_role in He. rewrite En, Ek in He. auto.
    - apply in_map_iff in H as (e & E & He). injection E as <- <-. exists (d_name e), (d_name e), (exported (d_vis e)). split; auto. split; [|left; auto].
      apply (@in_def e). apply in_flat_map. eauto.
  Qed.
  Lemma entry_ex n d r x : In (d, (r, x)) (definitions ps) -> names_it n d -> exists k, In (span n, k) (symbol_kinds L).
  Proof.
    intros Hd N. unfold symbol_kinds. destruct N as [<-|Hu].
    - apply def_in in Hd as (e & He & <- & _). apply in_flat_map in He as (i & Hi & He). exists (d_kind e). apply in_flat_map. exists i. split; auto. apply in_app_iff. right. apply in_map_iff. exists e. auto.
    - destruct (@forall2_r _ _ _ _ _ _ (all_uses sy ps) Hu) as (r0 & Hr & Rn & (e & He & Es & _)). cbn [fst snd] in *. apply in_flat_map in Hr as (i & Hi & Hr).
      destruct (get_last Nat.eqb (def_kinds L) (r_sym r0)) as [k|] eqn:E.
      + exists k. apply in_flat_map. exists i. split; auto. apply in_app_iff. left. apply in_flat_map. exists r0. split; auto. fold L in E. rewrite E, Rn. left. auto.
      + exfalso. assert (Q : In (r_sym r0, d_kind e) (def_kinds L)) by (apply kinds_in; exists e; auto). apply (last_none _ _ _ E) in Q. rewrite Nat.eqb_refl in Q. discriminate.
  Qed.
  Lemma same_span n m : In n (map fst (uses ps) ++ binders ps) -> In m (map fst (uses ps) ++ binders ps) -> span n = span m -> n = m.
  Proof.
    intros Hn Hm E. injection E as E _. apply (lo_apart LO) with (pos := id_at n); auto; [apply on_self|rewrite E; apply on_self].
  Qed.
  Lemma names_in n d r x : In (d, (r, x)) (definitions ps) -> names_it n d -> In n (map fst (uses ps) ++ binders ps).
  Proof.
    intros Hd [->|Hu]; apply in_app_iff; [right; rewrite <- C56_definitions_are_binders; apply (in_map fst _ _ Hd)|left; apply (in_map fst _ _ Hu)].
  Qed.
  Definition color (sp : nat * nat) : token_kind := match get_last span_eqb (symbol_kinds L) sp with Some k => shown_as (role_of k) | None => TkValue end.
  Lemma color_ok n d r x : In (d, (r, x)) (definitions ps) -> names_it n d -> color (span n) = shown_as r.
  Proof.
    intros Hd N. unfold color. destruct (get_last span_eqb _ _) as [k|] eqn:E.
    - apply last_in in E as (sp & H & E). apply span_eqb_iff in E. subst sp. apply entry_role in H as (m & d' & x' & E & Hd' & M).
      apply same_span in E; [|apply (@names_in n d r x); auto|apply (@names_in m d' (role_of k) x'); auto]. subst m. f_equal.
      pose proof (lo_once LO) as ND. apply CompileCorrect.NoDup_app_iff in ND as (N1 & N2 & N3). pose proof C56_definitions_are_binders ps as B.
      assert (d' = d).
      { assert (Z : forall a z y, In (a, z) (uses ps) -> In (a, y) (definitions ps) -> False).
        { intros a z y A1 A2. apply (N3 a); [apply (in_map fst _ _ A1)|rewrite <- B; apply (in_map fst _ _ A2)]. }
        destruct N as [<-|Hu], M as [<-|Hu']; auto; try (exfalso; eapply Z; eauto; fail). eapply nodup_key; eauto. }
      subst d'. rewrite <- B in N2. pose proof (nodup_key _ _ _ _ N2 Hd Hd') as Q. congruence.
    - exfalso. destruct (@entry_ex n d r x Hd N) as (k & H). apply (last_none _ _ _ E) in H. assert (Q : span_eqb (span n) (span n) = true) by (apply span_eqb_iff; auto). congruence.
  Qed.
  Lemma color_other sp : ~ In sp (map span (map fst (uses ps) ++ binders ps)) -> color sp = TkValue.
  Proof.
    intros H. unfold color. destruct (get_last span_eqb _ _) as [k|] eqn:E; auto. exfalso. apply H. apply last_in in E as (sp' & Q & E). apply span_eqb_iff in E. subst sp'.
    apply entry_role in Q as (n & d & x & -> & Hd & N). apply in_map. eapply names_in; eauto.
  Qed.
  Lemma shown_token k sp : (trivia k = false -> element_token (symbol_kinds L) (STok k sp) = show_token color (k, sp)) /\
    (trivia k = true -> element_token (symbol_kinds L) (STrivia k sp) = show_token color (k, sp)).
  Proof.
    unfold show_token, color. cbn [element_token fst snd]. split; destruct k; try discriminate; intros _; try reflexivity.
    cbn [convert_token]. destruct (get_last span_eqb _ sp) as [[| |? []]|]; auto.
  Qed.
End Colors.

(** Every token of the file is shown, in order, at its place: keywords, operators, punctuation, numbers, strings
    and comments by what they are; a name by what is defined under the name it stands for, or as a value if it
    stands for nothing.  Spaces, line ends and characters that are no tokens are not shown. *)
Theorem C56_highlighting err src items sy ps offs :
  (forall a b, sy a = sy b -> a = b) -> laid_out ps -> compile_up_to err src (length src) [] = Parser.Ok items ->
  exists name : nat * nat -> token_kind,
    tokens (map fst items) (nv_items (nav_to_end sy ps (nav_after sy ps offs))) = flat_map (show_token name) (tokens_at 0 (lex err src)) /\
    (forall d r x, In (d, (r, x)) (definitions ps) -> name (span d) = shown_as r) /\
    (forall n d r x, In (n, d) (uses ps) -> In (d, (r, x)) (definitions ps) -> name (span n) = shown_as r) /\
    (forall sp, ~ In sp (map span (map fst (uses ps) ++ binders ps)) -> name sp = TkValue).
Proof.
  intros J LO E. exists (@color sy ps). destruct (after_reached sy ps offs) as (ps1 & R). rewrite (@to_end_all sy ps _ ps1 LO R).
  destruct (C25_whole_file_is_covered err src) as (items' & E' & T). rewrite E in E'. injection E' as <-. split; [|split; [|split]].
  - unfold tokens. apply (@leaves_at _ _ (show_token (@color sy ps))) with (q := length src); auto; intros k sp H; apply (shown_token sy ps); auto.
  - intros d r x H. apply (@color_ok sy J ps LO d d r x); auto. left. auto.
  - intros n d r x Hu H. apply (@color_ok sy J ps LO n d r x); auto. right. auto.
  - intros sp. apply (@color_other sy J ps).
Qed.
Print Assumptions C56_highlighting.

(** `type T a = C a | N; let f : b = \x -> g (C x); -- hi` on two lines; [g] stands for nothing. *)
Definition hs_src : list N :=
  [116;121;112;101;32;84;32;97;32;61;32;67;32;97;32;124;32;78;59;10;108;101;116;32;102;32;58;32;98;32;61;32;92;120;32;45;62;32;103;32;40;67;32;120;41;59;32;45;45;32;104;105]%N.
Definition hs : list placed :=
  let i c p := mkIdent [N.of_nat c] p in
  [mkPlaced (XType (i 84 5) false false [i 97 7] [(i 67 11, [Some (XNamed (i 97 13) [])]); (i 78 17, [])]) 20;
   mkPlaced (XValue (i 102 24) false (Some (XNamed (i 98 28) [])) (inr (XLam false (i 120 33) (XApply (XName (i 103 38)) (XParens (XApply (XName (i 67 41)) (XName (i 120 43)))))))) 52].
Lemma hs_laid_out : laid_out hs.
Proof.
  assert (P : pairwise (map fst (uses hs) ++ binders hs) = true) by (vm_compute; reflexivity). apply pairwise_ok in P as [N A]. constructor; auto.
  assert (Z : names_of hs = ltac:(let v := eval vm_compute in (names_of hs) in exact v)) by (vm_compute; reflexivity). rewrite Z. clear Z.
  unfold hs. cbn [map fst snd in_items pl_end]. repeat (split; [lia|split; [|]]); try exact I;
    intros n Hn; cbn in Hn; repeat (destruct Hn as [<-|Hn]; [cbn; lia|]); destruct Hn.
Qed.
Example C56_example : laid_out hs /\
  (exists items, compile_up_to (fun _ => 1) hs_src (length hs_src) [] = Parser.Ok items /\ map (fun it => snd (full_of (fst it))) items = map pl_end hs /\
     tokens (map fst items) (nv_items (nav_to_end (fun n => n) hs (nav_after (fun n => n) hs [30]))) =
     [(TkKeyword, (0, 4)); (TkType, (5, 6)); (TkTypeVariable, (7, 8)); (TkPunctuation, (9, 10)); (TkCtor, (11, 12)); (TkTypeVariable, (13, 14));
      (TkPunctuation, (15, 16)); (TkCtor, (17, 18)); (TkPunctuation, (18, 19));
      (TkKeyword, (20, 23)); (TkValue, (24, 25)); (TkPunctuation, (26, 27)); (TkTypeVariable, (28, 29)); (TkPunctuation, (30, 31)); (TkPunctuation, (32, 33)); (TkValue, (33, 34));
      (TkPunctuation, (35, 37)); (TkValue, (38, 39)); (TkPunctuation, (40, 41)); (TkCtor, (41, 42)); (TkValue, (43, 44)); (TkPunctuation, (44, 45)); (TkPunctuation, (45, 46)); (TkComment, (47, 52))]).
Proof.
  split; [apply hs_laid_out|]. eexists. split; [vm_compute; reflexivity|]. split; vm_compute; reflexivity.
Qed.
