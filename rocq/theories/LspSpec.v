(** Specification of editor positions, independent of the translator. *)
From Verif Require Export Lsp.

(** [p] is the text before byte offset [off] of [s] (so [off] is a character boundary of [s]). *)
Definition text_before (s : list char) (off : nat) (p : list char) : Prop :=
  exists q, s = p ++ q /\ bytes_len p = off.

(** The part of [p] after its last newline. *)
Fixpoint last_line (p : list char) : list char :=
  match p with
  | [] => []
  | c :: r => if existsb (fun x => x =? newline)%N r then last_line r
              else if (c =? newline)%N then r else c :: r
  end.
(** LSP position of the end of [p]: lines before it, UTF-16 units since the last newline. *)
Definition lsp_position (p : list char) : nat * nat :=
  (count_occ N.eq_dec p newline, utf16_len (last_line p)).

(** How a language client reads relative semantic tokens (LSP specification,
    textDocument/semanticTokens): each token is relative to the start of the previous one. *)
Fixpoint decode_tokens (prev : nat * nat) (ts : list stoken) : list (nat * nat * nat * nat) :=
  match ts with
  | [] => []
  | t :: r =>
    let p := (fst prev + delta_line t,
              if delta_line t =? 0 then snd prev + delta_start t else delta_start t) in
    (p, st_length t, st_type t) :: decode_tokens p r
  end.
