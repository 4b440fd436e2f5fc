(** The lexer.  Models ticc/src/compiler/lexer.rs. *)
From Coq Require Export List Arith NArith Lia Bool.
Export ListNotations.

(** lexer.rs:5-99 [TokenKind]. *)
Inductive kind : Type :=
| KImport | KFrom | KExport | KLet | KMatch | KWith | KEnd | KIf | KThen | KElse | KType
| KInt | KBool | KStringTy | KTrue | KFalse | KFold | KRec
| KColon | KEquals | KPlus | KMinus | KStar | KSlash | KPercent
| KLess | KLessEq | KGreater | KGreaterEq | KEqEq | KNotEq | KArgPipe
| KLeftParen | KRightParen | KBackslash | KArrow | KPipe | KComma | KDot | KSemicolon
| KName | KHole | KNumber | KString | KSpace | KNewline | KComment | KError.

Definition kind_eq_dec (a b : kind) : {a = b} + {a <> b}.
Proof. decide equality. Defined.
Definition keqb (a b : kind) : bool := if kind_eq_dec a b then true else false.

(** Characters are bytes of the UTF-8 source (the patterns only mention ASCII, and bytes of other
    characters match like any non-ASCII character would). *)
Notation char := N (only parsing).
Definition chr_range (lo hi c : char) : bool := (N.leb lo c && N.leb c hi)%bool.
Definition is_alpha (c : char) : bool := chr_range 65 90 c || chr_range 97 122 c || N.eqb c 95.  (* [a-zA-Z_] *)
Definition is_digit (c : char) : bool := chr_range 48 57 c.
Definition is_word (c : char) : bool := is_alpha c || is_digit c.                                  (* [a-zA-Z0-9_] *)

Fixpoint chars_eqb (a b : list char) : bool :=
  match a, b with [], [] => true | x :: a, y :: b => N.eqb x y && chars_eqb a b | _, _ => false end.

(** lexer.rs:6-41: the keywords. *)
Definition keywords : list (list char * kind) :=
  [([105;109;112;111;114;116]%N, KImport); ([102;114;111;109]%N, KFrom); ([101;120;112;111;114;116]%N, KExport);
   ([108;101;116]%N, KLet); ([109;97;116;99;104]%N, KMatch); ([119;105;116;104]%N, KWith); ([101;110;100]%N, KEnd);
   ([105;102]%N, KIf); ([116;104;101;110]%N, KThen); ([101;108;115;101]%N, KElse); ([116;121;112;101]%N, KType);
   ([105;110;116]%N, KInt); ([98;111;111;108]%N, KBool); ([115;116;114;105;110;103]%N, KStringTy);
   ([116;114;117;101]%N, KTrue); ([102;97;108;115;101]%N, KFalse); ([102;111;108;100]%N, KFold); ([114;101;99]%N, KRec)].
Fixpoint find_kw (w : list char) (l : list (list char * kind)) : option kind :=
  match l with [] => None | (k, t) :: r => if chars_eqb k w then Some t else find_kw w r end.

(** lexer.rs:42-83: the symbols. *)
Definition symbols : list (list char * kind) :=
  [([58]%N, KColon); ([61]%N, KEquals); ([43]%N, KPlus); ([45]%N, KMinus); ([42]%N, KStar); ([47]%N, KSlash); ([37]%N, KPercent);
   ([60]%N, KLess); ([60;61]%N, KLessEq); ([62]%N, KGreater); ([62;61]%N, KGreaterEq); ([61;61]%N, KEqEq); ([33;61]%N, KNotEq);
   ([124;62]%N, KArgPipe); ([40]%N, KLeftParen); ([41]%N, KRightParen); ([92]%N, KBackslash); ([45;62]%N, KArrow);
   ([124]%N, KPipe); ([44]%N, KComma); ([46]%N, KDot); ([59]%N, KSemicolon)].

(** Length of the longest prefix satisfying [p]. *)
Fixpoint span_len (p : char -> bool) (s : list char) : nat :=
  match s with c :: r => if p c then S (span_len p r) else 0 | [] => 0 end.

(** The rest of a string literal after the opening quote: length up to and including the closing quote
    ([^"\n\\]*"). *)
Fixpoint string_len (s : list char) : option nat :=
  match s with
  | [] => None
  | c :: r => if N.eqb c 34 then Some 1
              else if N.eqb c 10 || N.eqb c 92 then None
              else match string_len r with Some n => Some (S n) | None => None end
  end.

Definition starts (p s : list char) : bool := chars_eqb p (firstn (length p) s).
(** The longest symbol that starts [s]. *)
Fixpoint best_symbol (l : list (list char * kind)) (s : list char) : option (nat * kind) :=
  match l with
  | [] => None
  | (t, k) :: r =>
    match best_symbol r s with
    | Some (n, k') => if starts t s && (n <? length t) then Some (length t, k) else Some (n, k')
    | None => if starts t s then Some (length t, k) else None
    end
  end.

(** One step of the generated lexer (lexer.rs:5-99, crate logos): the longest match, as length and kind.
    Keywords win over names of the same length (a literal has priority over the regex).  [None]: nothing
    matches, the error token.  The crate's generated automaton is modelled by this function. *)
Definition scan (s : list char) : option (nat * kind) :=
  match s with
  | [] => None
  | c :: r =>
    if is_alpha c then
      let n := S (span_len is_word r) in
      Some (n, match find_kw (firstn n s) keywords with Some k => k | None => KName end)
    else if is_digit c then Some (S (span_len is_word r), KNumber)
    else if N.eqb c 63 then                                                                         (* ? *)
      match span_len is_word r with O => None | n => Some (S n, KHole) end
    else if N.eqb c 34 then match string_len r with Some n => Some (S n, KString) | None => None end
    else if N.eqb c 32 then Some (S (span_len (N.eqb 32) r), KSpace)
    else if N.eqb c 10 then Some (1, KNewline)
    else if N.eqb c 13 then match r with d :: _ => if N.eqb d 10 then Some (2, KNewline) else None | [] => None end
    else if starts [45;45]%N s then Some (S (S (span_len (fun d => negb (N.eqb d 10)) (tl r))), KComment)
    else best_symbol symbols s
  end.

(** How many characters an error token covers is decided by the crate: [err] is any function, kept
    within 1 and what is left. *)
Definition err_len (err : list char -> nat) (s : list char) : nat := Nat.max 1 (Nat.min (err s) (length s)).

Definition token : Type := (kind * list char)%type.
(** lexer.rs:107-125; [fuel] bounds the number of tokens. *)
Fixpoint lex_fuel (err : list char -> nat) (fuel : nat) (s : list char) : list token :=
  match fuel, s with
  | _, [] => []
  | O, _ => []
  | S f, _ =>
    let '(n, k) := match scan s with Some r => r | None => (err_len err s, KError) end in
    (k, firstn n s) :: lex_fuel err f (skipn n s)
  end.
Definition lex (err : list char -> nat) (s : list char) : list token := lex_fuel err (length s) s.
