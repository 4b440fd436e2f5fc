(** Model of the highlighting, ticc/src/api/tokens.rs. *)
From Verif Require Export Parser Nav.
Set Implicit Arguments.

(** tokens.rs:8-21. *)
Inductive token_kind := TkKeyword | TkType | TkTypeVariable | TkCtor | TkValue | TkFunction | TkOperator | TkPunctuation | TkNumber | TkString | TkComment.
(** tokens.rs:23-27. *)
Definition hl_token := (token_kind * (nat * nat))%type.

(** ticc-syntax/src/cursor.rs:100-150 [descendant_elements]: a node before its children; [STok], [STrivia] and
    [SNode] are the elements. *)
Fixpoint descendants (t : stree) : list stree :=
  t :: match t with SNode _ _ _ _ ch => flat_map descendants ch | _ => [] end.
(** ticc-syntax [Token::span]: the name's text. *)
Definition name_span (n : ident) : nat * nat := (id_at n, id_at n + length (id_text n)).
Definition span_eqb (a b : nat * nat) : bool := (fst a =? fst b) && (snd a =? snd b).
(** tokens.rs:32-35 [def_kinds]: a map is the list of its insertions, the last one counts. *)
Definition def_kinds (items : list nitem) : list (sym * dkind) :=
  flat_map (fun i => map (fun d => (d_sym d, d_kind d)) (ui_defs (ni_unit i))) items.
Fixpoint get_last {K V} (eqb : K -> K -> bool) (l : list (K * V)) (k : K) : option V :=
  match l with [] => None | (x, v) :: r => match get_last eqb r k with Some w => Some w | None => if eqb x k then Some v else None end end.
(** tokens.rs:37-52 [symbol_kinds]. *)
Definition symbol_kinds (items : list nitem) : list ((nat * nat) * dkind) :=
  let ks := def_kinds items in
  flat_map (fun i =>
    flat_map (fun r => match get_last Nat.eqb ks (r_sym r) with Some k => [(name_span (r_name r), k)] | None => [] end) (ui_refs (ni_unit i)) ++
    map (fun d => (name_span (d_name d), d_kind d)) (ui_defs (ni_unit i))) items.
(** tokens.rs:88-143 [convert_token].  A type whose constructors are opaque is a type variable: resolve.rs:190-193,
    218-221, 460-463 set [is_var] and [ctors] together.  Modules are not modelled. *)
Definition convert_token (t : kind) (d : option dkind) : option token_kind :=
  match t with
  | KImport | KFrom | Lexer.KType | KInt | KBool | KStringTy | KRec | KExport | KLet | KMatch | KWith | KEnd | KIf | KThen | KElse
  | KTrue | KFalse | KFold => Some TkKeyword
  | KEquals | KPipe | KComma | KDot | KArrow | KLeftParen | KRightParen | KColon | KSemicolon | KBackslash => Some TkPunctuation
  | KPlus | KMinus | KStar | KSlash | KPercent | KLess | KLessEq | KGreater | KGreaterEq | KEqEq | KNotEq | KArgPipe => Some TkOperator
  | KNumber => Some TkNumber
  | KString => Some TkString
  | KName => Some (match d with
                   | Some (DValue _ _) => TkValue
                   | Some (DCtor _ _) => TkCtor
                   | Some (DType _ CtorOpaque) => TkTypeVariable
                   | Some (DType _ (CtorList _)) => TkType
                   | None => TkValue
                   end)
  | KHole => Some TkValue
  | KError => None
  | KSpace | KNewline | KComment => None (* trivia are not tokens *)
  end.
(** tokens.rs:58-82: an element. *)
Definition element_token (kinds : list ((nat * nat) * dkind)) (e : stree) : list hl_token :=
  match e with
  | SNode _ _ _ _ _ => []
  | STok k sp => match convert_token k (get_last span_eqb kinds sp) with Some h => [(h, sp)] | None => [] end
  | STrivia k sp => match k with KComment => [(TkComment, sp)] | _ => [] end
  end.
(** tokens.rs:29-86 [tokens], after [compile_to_end]: the trees of the items and what they define and refer to. *)
Definition tokens (trees : list stree) (items : list nitem) : list hl_token :=
  flat_map (fun t => flat_map (element_token (symbol_kinds items)) (descendants t)) trees.
