(** Properties of the parser: C25, C26, C27.  [requested err src offs items] (ParserSpec.v): [items] is what
    a compilation unit for [src] holds after requests to compile up to the offsets [offs]; each item is a
    tree and the spans of its diagnostics.  [lex err src] are the tokens (C24). *)
From Verif Require Import Lexer LexerSpec LexerProofs Parser ParserSpec ParserProofs ParserRun ParserFns ParserTree ParserItem ParserFile.

(** C25.  After any history of requests, the leaves of the trees are, in order, the first tokens of the
    source, laid out without gap or overlap from offset 0 up to the compiled length, with matching spans. *)
Theorem C25_trees_tile_the_source :
  forall (err : list N -> nat) (src : list N) (offs : list nat) (items : list (stree * list (nat * nat))),
    requested err src offs items ->
    exists toks rest, lex err src = toks ++ rest /\ tiles 0 (map fst items) toks (compiled_length items) /\
      firstn (compiled_length items) src = concat (map snd toks).
Proof.
  intros err src offs items H. destruct (parsed_ok (requested_parsed H)) as (toks & rest & F). exists toks, rest.
  split; [apply (f_lex F)|]. split; [apply (f_tiles F)|]. destruct (compiled_le F) as [-> _].
  destruct (lexes_tile (lex_spec err src)) as [<- _]. rewrite (f_lex F), map_app, concat_app. unfold tlen. rewrite firstn_app, Nat.sub_diag, firstn_all.
  cbn. apply app_nil_r.
Qed.
Print Assumptions C25_trees_tile_the_source.

(** C25.  Compiling to the end always yields trees whose leaves are all the tokens of the source. *)
Theorem C25_whole_file_is_covered :
  forall (err : list N -> nat) (src : list N),
    exists items, compile_up_to err src (length src) [] = Ok items /\ tiles 0 (map fst items) (lex err src) (length src).
Proof.
  intros err src. destruct (compile_ok (length src) (parsed_none err src)) as (items & E & P & C). cbn in *. exists items. split; auto.
  destruct (parsed_ok P) as (toks & rest & F). destruct (compiled_le F) as [L1 L2]. assert (tlen rest = 0) by lia.
  assert (rest = []).
  { destruct (lexes_tile (lex_spec err src)) as [_ Hp]. rewrite (f_lex F) in Hp. apply Forall_app in Hp as [_ Hp]. destruct rest as [|[k t] rest]; auto.
    inversion Hp as [|? ? Hp1 _]; subst. unfold tlen in H. cbn in H, Hp1. rewrite app_length in H. destruct t; [congruence|discriminate]. }
  subst rest. pose proof (f_lex F) as FL. rewrite app_nil_r in FL. rewrite FL. replace (length src) with (compiled_length items) by lia. apply (f_tiles F).
Qed.
Print Assumptions C25_whole_file_is_covered.

(** C25.  Parsing item by item, in whatever steps, gives the first items of the parse of the whole file. *)
Theorem C25_lazy_parsing_agrees :
  forall (err : list N -> nat) (src : list N) (offs : list nat) (items : list (stree * list (nat * nat))),
    requested err src offs items ->
    exists more, compile_up_to err src (length src) [] = Ok (items ++ more).
Proof.
  intros err src offs items H. pose proof (requested_parsed H) as P.
  destruct (compile_ok (length src) (parsed_none err src)) as (full & E & Pf & C). cbn in *. rewrite E.
  destruct (Nat.le_gt_cases (length items) (length full)) as [L|L].
  - destruct (parsed_prefix P Pf L) as (r & ->). eauto.
  - destruct (parsed_prefix Pf P) as (r & ->); [lia|]. exfalso. rewrite app_length in L. destruct r as [|it r] using rev_ind; [cbn in L; lia|]. clear IHr.
    rewrite app_assoc in P. inversion P as [E1|its it' P' Hlt E2 EE]; [symmetry in E1; apply app_eq_nil in E1 as [_ E1]; discriminate|].
    apply app_inj_tail in EE as [-> ->]. pose proof (compiled_mono _ _ P'). lia.
Qed.
Print Assumptions C25_lazy_parsing_agrees.

(** C25.  Every item is a root whose nodes are numbered 0, 1, 2 ... in preorder, and every diagnostic lies
    within the source. *)
Theorem C25_ids_and_diagnostics :
  forall (err : list N -> nat) (src : list N) (offs : list nat) (items : list (stree * list (nat * nat))) t ds,
    requested err src offs items -> In (t, ds) items ->
    (exists n, ids t = List.seq 0 n) /\ (exists s f ch, t = SNode 0 Root s f ch) /\
    Forall (fun d => fst d <= snd d /\ snd d <= length src) ds.
Proof.
  intros err src offs items t ds H Hi. destruct (parsed_ok (requested_parsed H)) as (toks & rest & F).
  pose proof (f_items F) as FI. rewrite Forall_forall in FI. destruct (FI _ Hi) as (A & _ & _ & B & C & _). cbn in *.
  split; auto. split; auto. eapply Forall_impl; [|exact A]. intros d (_ & D1 & D2). auto.
Qed.
Print Assumptions C25_ids_and_diagnostics.

(** C26.  Whatever was requested before, a request ends without panic and without running out of the step
    bounds, keeps the items already there, and gets as far as asked (or to the end of the source). *)
Theorem C26_requests_end :
  forall (err : list N -> nat) (src : list N) (offs : list nat) (off : nat) (items : list (stree * list (nat * nat))),
    requested err src offs items ->
    exists more, compile_up_to err src off items = Ok (items ++ more) /\
      (off <= compiled_length (items ++ more) \/ compiled_length (items ++ more) = length src).
Proof.
  intros err src offs off items H. destruct (compile_ok off (requested_parsed H)) as (more & A & _ & B). eauto.
Qed.
Print Assumptions C26_requests_end.

(** C26.  Every item holds at least one token, so there are at most as many items as tokens. *)
Theorem C26_items_make_progress :
  forall (err : list N -> nat) (src : list N) (offs : list nat) (items : list (stree * list (nat * nat))),
    requested err src offs items ->
    length items <= length (lex err src) /\
    Forall (fun it => exists p toks q, toks <> [] /\ tiles p [fst it] toks q) items.
Proof.
  intros err src offs items H. destruct (parsed_ok (requested_parsed H)) as (toks & rest & F). split.
  - rewrite (f_lex F), app_length. pose proof (f_len F). lia.
  - eapply Forall_impl; [|exact (f_items F)]. cbn. intros it (_ & _ & _ & _ & _ & p & tk & A & B). eauto.
Qed.
Print Assumptions C26_items_make_progress.

(** C27.  In every tree the parser builds, operators are grouped by precedence, left-associatively; where
    nothing was reported, every operator has both operands. *)
Theorem C27_operators_are_grouped :
  forall (err : list N -> nat) (src : list N) (offs : list nat) (items : list (stree * list (nat * nat))) t ds,
    requested err src offs items -> In (t, ds) items ->
    Forall grouped (shape t) /\ (ds = [] -> Forall whole (shape t)).
Proof.
  intros err src offs items t ds H Hi. destruct (parsed_ok (requested_parsed H)) as (toks & rest & F).
  pose proof (f_items F) as FI. rewrite Forall_forall in FI. destruct (FI _ Hi) as (_ & A & B & _). auto.
Qed.
Print Assumptions C27_operators_are_grouped.

(** C27.  There is only one such grouping of given operands and operators. *)
Theorem C27_grouping_is_unique :
  forall a b : elem, whole a -> grouped a -> whole b -> grouped b -> operands a = operands b -> a = b.
Proof. exact grouping_unique. Qed.
Print Assumptions C27_grouping_is_unique.

(** `let x = a + b * c d;` *)
Definition ex_src : list N := [108;101;116;32;120;32;61;32;97;32;43;32;98;32;42;32;99;32;100;59]%N.
Definition nm : elem := Node NameExpr [Node NameNode [Tok KName]].
Definition ex_sum : elem :=
  Node BinaryExpr [nm; Node BinaryOp [Tok KPlus];
    Node BinaryExpr [nm; Node BinaryOp [Tok KStar]; Node ApplyExpr [nm; nm]]].
Example parse_ex : match compile_up_to (fun _ => 1) ex_src 20 [] with
  | Ok [(t, ds)] => shape t = [Node Root [Node ValueItem
      [Tok KLet; Node NameNode [Tok KName]; Tok KEquals; ex_sum; Tok KSemicolon]]] /\ ds = []
  | _ => False end.
Proof. vm_compute. split; reflexivity. Qed.
Example requested_ex : exists items, requested (fun _ => 1) ex_src [3; 20] items /\ length items = 1.
Proof.
  destruct (compile_up_to (fun _ => 1) ex_src 3 []) as [i1| |] eqn:E1; [|vm_compute in E1; discriminate..].
  destruct (compile_up_to (fun _ => 1) ex_src 20 i1) as [i2| |] eqn:E2; [|vm_compute in E1; injection E1 as <-; vm_compute in E2; discriminate..].
  exists i2. split.
  - apply (req_more _ _ [3] i1 20 i2); auto. apply (req_more _ _ [] [] 3 i1); auto. constructor.
  - vm_compute in E1. injection E1 as <-. vm_compute in E2. injection E2 as <-. reflexivity.
Qed.
Example grouped_ex : grouped ex_sum /\ whole ex_sum /\ operands ex_sum = (nm, [(KPlus, nm); (KStar, Node ApplyExpr [nm; nm])]).
Proof.
  pose proof parse_ex as H. destruct (compile_up_to (fun _ => 1) ex_src 20 []) as [[|[t ds] [|]]| |] eqn:E; try tauto.
  destruct H as [Hs ->].
  assert (R : requested (fun _ => 1) ex_src ([] ++ [20]) [(t, [])]) by (econstructor; [constructor|exact E]).
  destruct (C27_operators_are_grouped _ _ _ _ t [] R) as [G W]; [left; auto|]. specialize (W eq_refl). rewrite Hs in G, W.
  split; [|split; [|reflexivity]].
  - inversion G as [|? ? G1 _]; subst. inversion G1 as [| |? ? _ G2|]; subst. inversion G2 as [|? ? G3 _]; subst. inversion G3 as [| |? ? _ G4|]; subst.
    rewrite Forall_forall in G4. apply G4. cbn. auto.
  - inversion W as [|? ? G1 _]; subst. inversion G1 as [|? ? _ G2|]; subst. inversion G2 as [|? ? G3 _]; subst. inversion G3 as [|? ? _ G4|]; subst.
    rewrite Forall_forall in G4. apply G4. cbn. auto.
Qed.
(** The other groupings of the same operands are not [grouped]. *)
Example not_grouped : ~ grouped (Node BinaryExpr [Node BinaryExpr [nm; Node BinaryOp [Tok KPlus]; nm]; Node BinaryOp [Tok KStar]; nm]).
Proof.
  intros H. inversion H as [| |? ? Hk|? ? ? ? p Hg Hf Hp _ H1 H2]; subst; [congruence|]. injection Hp as <-.
  specialize (H2 ltac:(eexists _, _, _, _, _; split; [reflexivity|left; reflexivity]) 7 ltac:(eexists _, _, _; split; reflexivity)). lia.
Qed.
