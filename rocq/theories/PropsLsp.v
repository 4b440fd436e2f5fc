(** Properties C28-C30: editor positions and semantic tokens. *)
From Verif Require Import LspSpec LspProofs.

(** C28.  Offset -> editor position gives the line and UTF-16 column of the specification ([text_before]
    says the offset is a character boundary and [p] the text before it), in every translator state
    reachable by any sequence of earlier conversions. *)
Theorem C28_to_lsp_correct :
  forall s qs t pos p,
    session s for_source qs = Some t -> text_before s pos p ->
    exists t', to_lsp s t pos = Some (t', lsp_position p).
Proof. exact to_lsp_position. Qed.
Print Assumptions C28_to_lsp_correct.

(** C28.  ... and converting back, with the same or any other translator for the text, recovers the
    offset. *)
Theorem C28_round_trip :
  forall s qs t pos p,
    session s for_source qs = Some t -> text_before s pos p ->
    exists t1 line ch,
      to_lsp s t pos = Some (t1, (line, ch)) /\
      forall qs' t2, session s for_source qs' = Some t2 ->
                     exists t3, to_ticc s t2 line ch = Some (t3, pos).
Proof. exact round_trip. Qed.
Print Assumptions C28_round_trip.

(** C28.  Different offsets have different editor positions. *)
Theorem C28_positions_injective :
  forall s p p' off off', text_before s off p -> text_before s off' p' ->
    lsp_position p = lsp_position p' -> off = off'.
Proof. exact lsp_position_inj. Qed.
Print Assumptions C28_positions_injective.

(** "aé\n𝄞b": bytes 1 2 1 4 1; the offset 8 (before "b") is line 1, column 2 (UTF-16). *)
Definition ex_text : list N := [97; 233; 10; 119070; 98]%N.
Example C28_hypotheses_met :
  session ex_text for_source [QTicc 5 5; QLsp 3] <> None /\
  text_before ex_text 8 [97; 233; 10; 119070]%N /\ lsp_position [97; 233; 10; 119070]%N = (1, 2).
Proof. split; [discriminate|]. split; [|reflexivity]. exists [98%N]. split; reflexivity. Qed.

(** C29, the part that holds: every editor position is answered, with a character boundary of the text
    (never a panic); positions inside the text do not depend on the history; and once the whole text has
    been scanned, a column past the end of a line is clamped to that line's end. *)
Theorem C29_total_partial :
  forall s qs t line ch, session s for_source qs = Some t ->
    exists t' pos p, to_ticc s t line ch = Some (t', pos) /\ text_before s pos p.
Proof. exact to_ticc_never_panics. Qed.
Print Assumptions C29_total_partial.
Theorem C29_in_range_partial :
  forall s qs t pos p, session s for_source qs = Some t -> text_before s pos p ->
    exists t', to_ticc s t (fst (lsp_position p)) (snd (lsp_position p)) = Some (t', pos).
Proof. exact to_ticc_position. Qed.
Print Assumptions C29_in_range_partial.
Theorem C29_clamped_when_scanned_partial :
  forall s qs t p q ch, session s for_source qs = Some t -> complete t = true ->
    s = p ++ q -> (q = [] \/ exists r, q = newline :: r) -> utf16_len (last_line p) <= ch ->
    exists t', to_ticc s t (fst (lsp_position p)) ch = Some (t', bytes_len p).
Proof. exact clamp_complete_session. Qed.
Print Assumptions C29_clamped_when_scanned_partial.
Example C29_hypotheses_met :
  exists t, session ex_text for_source [QTicc 5 5] = Some t /\ complete t = true /\
  ex_text = [97; 233]%N ++ newline :: [119070; 98]%N /\ utf16_len (last_line [97; 233]%N) <= 7.
Proof. eexists. split; [reflexivity|]. split; [reflexivity|]. split; [reflexivity|]. vm_compute. lia. Qed.

(** C29 as stated is false: column 100 of line 0 of "ab\ncd" means offset 2 (the end of line 0) to a
    translator that has been asked about line 1 before, but offset 5 (the end of line 1) to a fresh one. *)
Theorem C29_clamping_depends_on_history_refuted :
  exists s line ch qs t,
    session s for_source qs = Some t /\
    option_map snd (to_ticc s t line ch) = Some 2 /\
    option_map snd (to_ticc s for_source line ch) = Some 5 /\
    nth_error s 2 = Some newline.
Proof. exists [97; 98; 10; 99; 100]%N, 0, 100, [QTicc 1 0]. eexists. repeat split. Qed.
Print Assumptions C29_clamping_depends_on_history_refuted.

(** C30.  For tokens in source order, the relative encoding is produced without underflow and a client
    decoding it by the LSP rules sees exactly the position, UTF-16 length and type of every token. *)
Theorem C30_semantic_tokens_decode :
  forall s ts ps, ordered s [] ts ps ->
    exists out, get_semantic_tokens s ts = Some out /\
      decode_tokens (0, 0) out =
      map (fun '((p, txt), (_, _, k)) => (lsp_position p, utf16_len txt, k)) (combine ps ts).
Proof. exact semantic_tokens_spec. Qed.
Print Assumptions C30_semantic_tokens_decode.
Example C30_hypotheses_met :
  ordered ex_text [] [(0, 3, 2); (8, 9, 6)] [([], [97; 233]); ([97; 233; 10; 119070], [98])]%N /\
  get_semantic_tokens ex_text [(0, 3, 2); (8, 9, 6)] = Some [mkSt 0 0 2 2; mkSt 1 2 1 6].
Proof.
  split; [|reflexivity].
  apply (@ord_cons ex_text [] [] [97; 233]%N [10; 119070; 98]%N 2); [reflexivity|exists []; reflexivity|].
  apply (@ord_cons ex_text [] [97; 233; 10; 119070]%N [98]%N [] 6); [reflexivity|eexists; reflexivity|]. constructor.
Qed.
