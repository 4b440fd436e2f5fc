(** What the token patterns of the language match (the literals and regular expressions of
    ticc/src/compiler/lexer.rs:5-99, written out). *)
From Verif Require Import Lexer.

Definition is_keyword (k : kind) : bool :=
  match k with
  | KImport | KFrom | KExport | KLet | KMatch | KWith | KEnd | KIf | KThen | KElse | KType
  | KInt | KBool | KStringTy | KTrue | KFalse | KFold | KRec => true
  | _ => false
  end.

Definition matches (k : kind) (t : list char) : Prop :=
  match k with
  | KName => exists c r, t = c :: r /\ is_alpha c = true /\ Forall (fun d => is_word d = true) r
  | KHole => exists c r, t = 63%N :: c :: r /\ Forall (fun d => is_word d = true) (c :: r)
  | KNumber => exists c r, t = c :: r /\ is_digit c = true /\ Forall (fun d => is_word d = true) r
  | KString => exists m, t = 34%N :: m ++ [34%N] /\ Forall (fun d => d <> 34 /\ d <> 10 /\ d <> 92)%N m
  | KSpace => exists r, t = 32%N :: r /\ Forall (fun d => d = 32%N) r
  | KNewline => t = [10%N] \/ t = [13%N; 10%N]
  | KComment => exists r, t = 45%N :: 45%N :: r /\ Forall (fun d => d <> 10%N) r
  | KError => False
  | _ => In (t, k) keywords \/ In (t, k) symbols
  end.

(** [lexes s ts]: [ts] is the sequence of tokens of [s] by longest match, keywords before names; error
    tokens stand exactly where nothing matches. *)
Inductive lexes : list char -> list token -> Prop :=
| lexes_nil : lexes [] []
| lexes_token s t rest k ts :
    s = t ++ rest -> matches k t ->
    (forall t' rest' k', s = t' ++ rest' -> matches k' t' -> length t' <= length t) ->
    (forall k', matches k' t -> k' = k \/ (k' = KName /\ is_keyword k = true)) ->
    lexes rest ts -> lexes s ((k, t) :: ts)
| lexes_error s t rest ts :
    s = t ++ rest -> t <> [] ->
    (forall t' rest' k', s = t' ++ rest' -> ~ matches k' t') ->
    lexes rest ts -> lexes s ((KError, t) :: ts).
