(** Properties of the lexer: C24.  [lexes s ts] (LexerSpec.v): [ts] is the longest-match tokenisation of
    [s]; [err] stands for how many characters the lexer crate gives to an error token. *)
From Verif Require Import Lexer LexerSpec LexerProofs.

(** C24.  Every source lexes, by longest match with keywords before names. *)
Theorem C24_lexing_is_longest_match :
  forall (err : list N -> nat) (s : list N), lexes s (lex err s).
Proof. exact lex_spec. Qed.
Print Assumptions C24_lexing_is_longest_match.

(** C24.  The token texts are non-empty and concatenate to the source. *)
Theorem C24_tokens_tile_the_source :
  forall (err : list N -> nat) (s : list N),
    concat (map snd (lex err s)) = s /\ Forall (fun t => snd t <> []) (lex err s).
Proof. intros err s. apply lexes_tile, lex_spec. Qed.
Print Assumptions C24_tokens_tile_the_source.

(** C24.  A keyword token is exactly a maximal word that is a keyword; any other word is a name. *)
Theorem C24_keywords_are_whole_words :
  forall (err : list N -> nat) (s : list N) (before : list token) (k : kind) (t : list N) (after : list token),
    lex err s = before ++ (k, t) :: after -> is_keyword k = true \/ k = KName ->
    match concat (map snd after) with c :: _ => is_word c = false | [] => True end /\
    (is_keyword k = true -> In (t, k) keywords) /\
    (k = KName -> forall k', ~ In (t, k') keywords).
Proof. intros err s before k t after E. pose proof (lex_spec err s) as H. rewrite E in H. eapply lexes_words; eauto. Qed.
Print Assumptions C24_keywords_are_whole_words.

(** C24.  The tokenisation of a source is unique as long as no error token occurs. *)
Theorem C24_tokenisation_is_unique :
  forall (err : list N -> nat) (s : list N) (ts : list token),
    ~ In KError (map fst ts) -> lexes s ts -> ts = lex err s.
Proof. intros err s ts He H. eapply lexes_det; eauto using lex_spec. Qed.
Print Assumptions C24_tokenisation_is_unique.

(** `let letx=--a` then a newline and a lone double quote (an unterminated string). *)
Example lex_ex : lex (fun _ => 1)
    [108;101;116;32;108;101;116;120;61;45;45;97;10;34]%N =
  [(KLet, [108;101;116]); (KSpace, [32]); (KName, [108;101;116;120]); (KEquals, [61]); (KComment, [45;45;97]);
   (KNewline, [10]); (KError, [34])]%N.
Proof. reflexivity. Qed.
(** `1->>==?a|>`. *)
Example lex_ex2 : map fst (lex (fun _ => 1) [49;45;62;62;61;61;63;97;124;62]%N) =
  [KNumber; KArrow; KGreaterEq; KEquals; KHole; KArgPipe].
Proof. reflexivity. Qed.
