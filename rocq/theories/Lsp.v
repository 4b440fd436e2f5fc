(** Editor positions and semantic tokens.  Models ticc-lsp/src/utils.rs and semantic_tokens.rs.
    A source text is a list of Unicode scalar values; offsets are UTF-8 byte offsets.  Casts to u32
    (positions beyond 2^32) are not modelled. *)
From Verif Require Export Ir.

Notation char := N (only parsing).
(** Rust [char::len_utf8] and [char::len_utf16]. *)
Definition len_utf8 (c : char) : nat :=
  if (c <? 128)%N then 1 else if (c <? 2048)%N then 2 else if (c <? 65536)%N then 3 else 4.
Definition len_utf16 (c : char) : nat := if (c <? 65536)%N then 1 else 2.
Definition newline : char := 10%N.

(** [str::len] and [encode_utf16().count()]. *)
Definition bytes_len (s : list char) : nat := list_sum (map len_utf8 s).
Definition utf16_len (s : list char) : nat := list_sum (map len_utf16 s).

(** [&s[n..]] and [&s[..n]]: [None] is the panic "not a char boundary / out of range". *)
Fixpoint drop_bytes (n : nat) (s : list char) : option (list char) :=
  match n, s with
  | O, _ => Some s
  | _, [] => None
  | _, c :: r => if len_utf8 c <=? n then drop_bytes (n - len_utf8 c) r else None
  end.
Fixpoint take_bytes (n : nat) (s : list char) : option (list char) :=
  match n, s with
  | O, _ => Some []
  | _, [] => None
  | _, c :: r =>
    if len_utf8 c <=? n then
      match take_bytes (n - len_utf8 c) r with Some p => Some (c :: p) | None => None end
    else None
  end.
(** [&s[a..b]] *)
Definition slice (a b : nat) (s : list char) : option (list char) :=
  if a <=? b then
    match drop_bytes a s with Some r => take_bytes (b - a) r | None => None end
  else None.

(** utils.rs:4-8 [LocationTranslator] (the source is passed separately). *)
Record translator := mkTr { line_starts : list nat; complete : bool }.
(** utils.rs:11-17 [for_source]. *)
Definition for_source : translator := mkTr [0] false.

(** utils.rs:38-45: the loop looking for the next '\n' in [suffix]; [i] is the byte index. *)
Fixpoint find_nl (i : nat) (suffix : list char) : option nat :=
  match suffix with
  | [] => None
  | c :: r => if (c =? newline)%N then Some i else find_nl (i + len_utf8 c) r
  end.

(** utils.rs:37-47 [find_next_line_position]. *)
Definition find_next (s : list char) (t : translator) : option translator :=
  let lst := last (line_starts t) 0 in
  match drop_bytes lst s with
  | None => None
  | Some suffix =>
    match find_nl 0 suffix with
    | Some i => Some (mkTr (line_starts t ++ [lst + i + 1]) (complete t))
    | None => Some (mkTr (line_starts t) true)
    end
  end.

(** [while !complete && cond { find_next }]; [fuel] bounds the iterations ([length s + 2] suffices:
    proved in LspProofs.v, where running out of fuel would be the [None] result). *)
Fixpoint scan (fuel : nat) (cond : translator -> bool) (s : list char) (t : translator) : option translator :=
  if negb (complete t) && cond t then
    match fuel with
    | O => None
    | S k => match find_next s t with Some t' => scan k cond s t' | None => None end
    end
  else Some t.
Definition scan_fuel (s : list char) : nat := length s + 2.

(** utils.rs:27-35 [line_index].  [binary_search] on the (strictly increasing) starts: the exact index, or
    one before the insertion point; both are the number of starts <= pos, minus one. *)
Definition line_index (s : list char) (t : translator) (pos : nat) : option (translator * nat) :=
  match scan (scan_fuel s) (fun t => last (line_starts t) 0 <=? pos) s t with
  | None => None
  | Some t' => Some (t', length (filter (fun x => x <=? pos) (line_starts t')) - 1)
  end.

(** utils.rs:56-70 [Pos::to_lsp]: (line, UTF-16 column). *)
Definition to_lsp (s : list char) (t : translator) (pos : nat) : option (translator * (nat * nat)) :=
  match line_index s t pos with
  | None => None
  | Some (t', line) =>
    match nth_error (line_starts t') line with
    | None => None
    | Some start =>
      match slice start pos s with
      | None => None
      | Some src => Some (t', (line, utf16_len src))
      end
    end
  end.

(** utils.rs:116-122: the loop over the characters of the line. *)
Fixpoint walk (i cur character : nat) (cs : list char) : option nat :=
  match cs with
  | [] => None
  | c :: r =>
    if character <? cur + len_utf16 c then Some i
    else walk (i + len_utf8 c) (cur + len_utf16 c) character r
  end.

(** utils.rs:100-134 [Position::to_ticc]. *)
Definition to_ticc (s : list char) (t : translator) (line character : nat) : option (translator * nat) :=
  match scan (scan_fuel s) (fun t => length (line_starts t) <=? line) s t with
  | None => None
  | Some t' =>
    match nth_error (line_starts t') line, nth_error (line_starts t') (line + 1) with
    | Some start, nxt =>
      let line_end := match nxt with Some n => n - 1 | None => bytes_len s end in
      match slice start line_end s with
      | None => None
      | Some src =>
        match walk 0 0 character src with
        | Some i => Some (t', start + i)
        | None => Some (t', line_end)
        end
      end
    | None, None => Some (t', bytes_len s)
    | None, Some _ => None
    end
  end.

(** A session: any sequence of conversions with one translator. *)
Inductive query := QLsp (pos : nat) | QTicc (line character : nat).
Definition ask (s : list char) (t : translator) (q : query) : option translator :=
  match q with
  | QLsp pos => option_map fst (to_lsp s t pos)
  | QTicc l c => option_map fst (to_ticc s t l c)
  end.
Fixpoint session (s : list char) (t : translator) (qs : list query) : option translator :=
  match qs with
  | [] => Some t
  | q :: r => match ask s t q with Some t' => session s t' r | None => None end
  end.

(** ** Semantic tokens: semantic_tokens.rs:4-40 *)
(** lsp_types::SemanticToken, without the constant modifiers. *)
Record stoken := mkSt { delta_line : nat; delta_start : nat; st_length : nat; st_type : nat }.

(** semantic_tokens.rs:16-23: advance the current position over the text between two token starts. *)
Definition advance (p : nat * nat) (c : char) : nat * nat :=
  if (c =? newline)%N then (S (fst p), 0) else (fst p, snd p + len_utf16 c).

(** semantic_tokens.rs:13-37: the loop; a token is (start offset, end offset, type).  Subtractions on u32
    panic on underflow (in debug builds): [None]. *)
Definition sub_chk (a b : nat) : option nat := if b <=? a then Some (a - b) else None.
Fixpoint sem_tokens (s : list char) (last_pos cur : nat * nat) (last_start : nat)
         (ts : list (nat * nat * nat)) : option (list stoken) :=
  match ts with
  | [] => Some []
  | (start_off, end_off, kind) :: r =>
    match slice last_start start_off s, slice start_off end_off s with
    | Some between, Some txt =>
      let cur' := fold_left advance between cur in
      match sub_chk (fst cur') (fst last_pos) with
      | None => None
      | Some dl =>
        match sub_chk (snd cur') (if dl =? 0 then snd last_pos else 0) with
        | None => None
        | Some ds =>
          match sem_tokens s cur' cur' start_off r with
          | None => None
          | Some out => Some (mkSt dl ds (utf16_len txt) kind :: out)
          end
        end
      end
    | _, _ => None
    end
  end.
Definition get_semantic_tokens (s : list char) (ts : list (nat * nat * nat)) : option (list stoken) :=
  sem_tokens s (0, 0) (0, 0) 0 ts.
