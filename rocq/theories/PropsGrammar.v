(** C55.  Every file of the grammar is parsed, without a diagnostic, to its tree. *)
From Verif Require Import Lexer LexerSpec Parser ParserSpec ParserFile GrammarSpec GrammarFile PropsParser.

(** C55.  If the words of the source are those of items of the grammar, one after another, compiling the source
    gives exactly these items, each the only child of its root, and reports nothing. *)
Theorem C55_grammar_is_accepted :
  forall (err : list N -> nat) (src : list N) (its : list elem),
    its <> [] -> Forall item_tree its -> words err src = flat_map yield its ->
    exists items, compile_up_to err src (length src) [] = Ok items /\
      map (fun i => shape (fst i)) items = map (fun it => [Node Root [it]]) its /\
      Forall (fun i => snd i = []) items.
Proof.
  intros err src its Hne H HK. destruct (grammar_file err src Hne H HK) as (items & E & M). exists items. split; auto. clear - M.
  revert items M. induction its as [|it its IH]; intros [|[t ds] items] M; try discriminate; cbn; [split; constructor|].
  injection M as M1 M2 M3. destruct (IH _ M3) as [A B]. cbn in M1. split; [congruence|constructor; auto].
Qed.
Print Assumptions C55_grammar_is_accepted.

(** C55.  And nothing else is accepted: a source is compiled without a diagnostic exactly if its words are those
    of some items of the grammar, one after another. *)
Theorem C55_accepted_iff_grammar :
  forall (err : list N -> nat) (src : list N),
    (exists items, compile_up_to err src (length src) [] = Ok items /\ Forall (fun i => snd i = []) items) <->
    (exists its, Forall item_tree its /\ words err src = flat_map yield its).
Proof.
  intros err src. split.
  - intros (items & E & H). apply (back_file _ _ E). auto.
  - intros (its & H & HK). destruct its as [|it its].
    + destruct (compile_ok (length src) (parsed_none err src)) as (items & E & _). exists items. split; [exact E|]. apply (back_file _ _ E). auto.
    + destruct (C55_grammar_is_accepted err src (it :: its)) as (items & E & _ & F); auto; [discriminate|]. eauto.
Qed.
Print Assumptions C55_accepted_iff_grammar.

(** C55.  Any way of putting spaces, newlines and comments between the same words gives the same trees. *)
Theorem C55_trivia_is_irrelevant :
  forall (err : list N -> nat) (src src' : list N) (its : list elem),
    its <> [] -> Forall item_tree its -> words err src = flat_map yield its -> words err src' = words err src ->
    exists items items', compile_up_to err src (length src) [] = Ok items /\ compile_up_to err src' (length src') [] = Ok items' /\
      map (fun i => shape (fst i)) items = map (fun i => shape (fst i)) items'.
Proof.
  intros err src src' its Hne H HK HW.
  destruct (C55_grammar_is_accepted err src its Hne H HK) as (items & E & M & _).
  destruct (C55_grammar_is_accepted err src' its Hne H) as (items' & E' & M' & _); [congruence|]. exists items, items'. rewrite M, M'. auto.
Qed.
Print Assumptions C55_trivia_is_irrelevant.

(** C55.  The grammar is unambiguous: the words of a file determine its trees. *)
Theorem C55_grammar_is_unambiguous :
  forall (err : list N -> nat) (src : list N) (its its' : list elem),
    Forall item_tree its -> Forall item_tree its' ->
    words err src = flat_map yield its -> words err src = flat_map yield its' -> its = its'.
Proof.
  intros err src its its' H H' HK HK'. destruct its as [|i its].
  - destruct its' as [|i' its']; auto. exfalso. rewrite HK in HK'. inversion H'; subst. pose proof (item_first H2) as F. apply F. cbn in HK' |- *.
    symmetry in HK'. apply app_eq_nil in HK' as [-> _]. auto.
  - destruct its' as [|i' its'].
    + exfalso. rewrite HK' in HK. inversion H; subst. pose proof (item_first H2) as F. apply F. cbn in HK |- *.
      symmetry in HK. apply app_eq_nil in HK as [-> _]. auto.
    + destruct (C55_grammar_is_accepted err src (i :: its)) as (items & E & M & _); auto; [discriminate|].
      destruct (C55_grammar_is_accepted err src (i' :: its')) as (items' & E' & M' & _); auto; [discriminate|].
      rewrite E in E'. injection E' as <-. rewrite M in M'. clear - M'. remember (i :: its) as a. remember (i' :: its') as b. clear Heqa Heqb.
      revert b M'. induction a as [|x a IH]; intros [|y b] M; try discriminate; auto. injection M as -> M. f_equal. auto.
Qed.
Print Assumptions C55_grammar_is_unambiguous.

(** `let x = a + b * c d;` is such a file, and so are a type with parameters and a match. *)
Definition ex_item : elem := Node ValueItem [Tok KLet; GrammarSpec.name; Tok KEquals; ex_sum; Tok KSemicolon].
Example ex_item_tree : item_tree ex_item.
Proof.
  apply (it_value [] [] ex_sum); [constructor|constructor|]. apply ex_ops. unfold ex_sum. eapply op_bin; [reflexivity|lia| |].
  - apply op_app, ap_atom, ea_name.
  - eapply op_bin; [reflexivity|lia| |]; apply op_app; [apply ap_atom, ea_name|]. apply ap_app; [apply ap_atom|]; apply ea_name.
Qed.
Example ex_words : words (fun _ => 1) ex_src = flat_map yield [ex_item].
Proof. vm_compute. reflexivity. Qed.
Example ex_accepted : exists items, compile_up_to (fun _ => 1) ex_src (length ex_src) [] = Ok items /\
      map (fun i => shape (fst i)) items = [[Node Root [ex_item]]] /\ Forall (fun i => snd i = []) items.
Proof. apply (C55_grammar_is_accepted (fun _ => 1) ex_src [ex_item]); [discriminate| |apply ex_words]. constructor; [apply ex_item_tree|constructor]. Qed.
Example ex_type : item_tree (Node TypeItem [Tok KExport; Tok KType; GrammarSpec.name; Node TypeParams [GrammarSpec.name]; Tok KEquals;
  Node TypeCase [GrammarSpec.name]; Node TypeCase [Tok KPipe; GrammarSpec.name; Node TypeField [Node NamedType [GrammarSpec.name]]; Node RecField [Tok KRec]]; Tok KSemicolon]).
Proof.
  apply (it_type [Tok KExport] [Node TypeParams (repeat GrammarSpec.name 1)] [] [] (Node TypeCase [GrammarSpec.name])
    [Node TypeCase ([Tok KPipe] ++ GrammarSpec.name :: [Node TypeField [Node NamedType [GrammarSpec.name]]; Node RecField [Tok KRec]])]); try constructor.
  - apply (tc_case [] []). constructor.
  - apply tc_case. repeat constructor.
  - constructor.
Qed.
Example ex_match_tree : ex (Node MatchExpr [Tok KMatch; Node NameExpr [GrammarSpec.name]; Tok KWith;
  Node MatchCase [Tok KPipe; GrammarSpec.name; Node MatchVars [GrammarSpec.name]; Tok KArrow; Node LambdaExpr [Tok KBackslash; GrammarSpec.name; Tok KArrow; Node NumberExpr [Tok KNumber]]]; Tok KEnd]).
Proof.
  apply (ex_match (Node NameExpr [GrammarSpec.name]) [Node MatchCase (Tok KPipe :: [GrammarSpec.name] ++ [Node MatchVars (repeat GrammarSpec.name 1); Tok KArrow; _])]).
  - apply ex_ops, op_app, ap_atom, ea_name.
  - constructor; [|constructor]. apply mc_case; [constructor|]. apply ex_lam, ex_ops, op_app, ap_atom, ea_number.
Qed.
(** `let x = ;` is reported: no items have these words. *)
Example ex_rejected : ~ exists its, Forall item_tree its /\ words (fun _ => 1) [108;101;116;32;120;32;61;32;59]%N = flat_map yield its.
Proof.
  intros H. apply C55_accepted_iff_grammar in H as (items & E & H). vm_compute in E. injection E as <-. inversion H. discriminate.
Qed.
