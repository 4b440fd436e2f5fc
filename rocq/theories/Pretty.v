(** The printer of core programs (emit-ir).  Models ticc-core/src/pretty.rs. *)
From Verif Require Export Formatter.
From Verif Require Import Eval Checks.
From Coq Require Ascii String.
Import String.StringSyntax.

(** Literal texts in the model are written as Coq strings. *)
Definition tx (s : String.string) : text := map Ascii.N_of_ascii (String.list_ascii_of_string s).
Local Open Scope string_scope.

(** pretty.rs:21-29 [Prec], in the derived order. *)
Inductive prec := PMin | PCompare | PApply | PAdd | PMul | PAtom.
Definition prec_num (p : prec) : nat :=
  match p with PMin => 0 | PCompare => 1 | PApply => 2 | PAdd => 3 | PMul => 4 | PAtom => 5 end.
(** [a < b] *)
Definition prec_lt (a b : prec) : bool := prec_num a <? prec_num b.
(** pretty.rs:31-42 [Prec::next]. *)
Definition prec_next (p : prec) : prec :=
  match p with PMin => PCompare | PCompare => PApply | PApply => PAdd | PAdd => PMul | PMul | PAtom => PAtom end.

(** pretty.rs:347-380 [expr_prec]. *)
Definition op_prec (o : op) : prec :=
  match o with
  | Add | Subtract => PAdd
  | Multiply | Divide | Modulo => PMul
  | _ => PCompare
  end.
Definition expr_prec (e : expr) : prec :=
  match e with
  | EBool _ | EInt _ | EString _ | EName _ | ECall _ _ | EIntr _ _ | EConstruct _ _ _ => PAtom
  | EOp _ o _ => op_prec o
  | EIf _ _ _ | ELam _ _ | EMatch _ _ | ELet _ _ _ | ELetRec _ _ _ _ => PMin
  | ETrap _ _ => PAtom
  | EPi _ _ => PMin
  | EPiApp _ _ => PAtom
  end.
(** pretty.rs:429-438 [ty_prec]. *)
Definition ty_prec (t : ty) : prec :=
  match t with TBool | TInt | TString | TVar _ => PAtom | TNamed _ _ | TFn _ _ | TAbs _ _ => PApply end.
(** pretty.rs:408-427 [is_atom]. *)
Definition is_atom (e : expr) : bool :=
  match e with
  | EBool _ | EInt _ | EString _ | EName _ | ECall _ _ | EIntr _ _ | ETrap _ _ | EPiApp _ _ => true
  | _ => false
  end.
(** pretty.rs:382-406 [expr_node]: (large, indents). *)
Definition expr_node (e : expr) : bool * bool :=
  match e with
  | EMatch _ _ | ELet _ _ _ | ELetRec _ _ _ _ => (true, false)
  | EIf _ t e => (negb (is_atom t) || negb (is_atom e), true)
  | _ => (false, true)
  end.

(** ir.rs:226-262 [Debug for ByteString]: the same escapes as Eval's printer of string values; 34 is the
    double quote. *)
Definition bytes_debug (s : list N) : text := 34%N :: flat_map show_byte s ++ [34%N].
(** [format!("{:?}")] of a Rust string.  Simplification: only the escapes of the double quote, the backslash
    and newline, carriage return, tab are modelled; other characters are kept as they are. *)
Definition str_debug_char (c : N) : text :=
  if (c =? 34)%N then [92; 34]%N else if (c =? 92)%N then [92; 92]%N
  else if (c =? 10)%N then [92; 110]%N else if (c =? 13)%N then [92; 114]%N
  else if (c =? 9)%N then [92; 116]%N else [c].
Definition str_debug (s : list N) : text := 34%N :: flat_map str_debug_char s ++ [34%N].

(** pretty.rs:76-86 [write_number]: an empty token and then the decimal digits glued to it.
    Simplification: the recursion of [glue_number] yields the digits of [u64::to_string] in the same order. *)
Definition wr_number (x : N) : list call :=
  AddToken [] :: map (fun d => AddSticky [d] Prev) (int_to_string x).
(** pretty.rs:159-172. *)
Definition op_text (o : op) : text :=
  tx match o with
     | Add => "+" | Subtract => "-" | Multiply => "*" | Divide => "/" | Modulo => "*"
     | Less => "<" | LessEq => "<=" | Greater => ">" | GreaterEq => ">=" | Equal => "==" | NotEqual => "!="
     end.
(** pretty.rs:123-130. *)
Definition intr_text (i : intrinsic) : text :=
  tx match i with
     | StringLen => "%stringLen" | StringConcat => "%stringConcat" | StringCharAt => "%stringCharAt"
     | StringSubstring => "%stringSubstring" | StringFromChar => "%stringFromChar" | IntToString => "%intToString"
     end.

Definition parens (b : bool) (cs : list call) : list call :=
  if b then AddSticky (tx "(") Next :: cs ++ [AddSticky (tx ")") Prev] else cs.
(** [[first, rest @ ..]] loops: items separated by a comma. *)
Definition commas (l : list (list call)) : list call :=
  match l with
  | [] => []
  | x :: r => x ++ flat_map (fun y => AddSticky (tx ",") Prev :: y) r
  end.

Section Names.
(** [NameGenerator::names] (ir.rs:119-123): the source name of each id.  Simplification: a total function;
    the Rust code indexes a vector. *)
Variable tbl : nat -> text.
(** ir.rs:147-152, 185-189 [show_debug]: the name, an underscore and the id. *)
Definition show_name (n : name) : text := tbl n ++ tx "_" ++ int_to_string (N.of_nat n).
(** pretty.rs:67-69 [write_name], 71-74 [write_ctor]. *)
Definition wr_name (n : name) : list call := [AddToken (show_name n)].
Definition wr_ctor (n : name) : list call := AddSticky (tx "@") Next :: wr_name n.

(** pretty.rs:293-344 [write_ty]. *)
Definition wr_tyvar (v : tyvar) : list call := AddSticky (tx "t") Next :: wr_number (N.of_nat v).
Fixpoint wr_ty (t : ty) (p : prec) : list call :=
  parens (prec_lt (ty_prec t) p)
    match t with
    | TBool => [AddToken (tx "bool")]
    | TInt => [AddToken (tx "int")]
    | TString => [AddToken (tx "string")]
    | TVar v => wr_tyvar v
    | TNamed n args => wr_name n ++ flat_map (fun t => wr_ty t PAtom) args
    | TFn ps out =>
      AddSticky (tx "(") Next :: commas (map (fun t => wr_ty t PMin) ps) ++
      AddSticky (tx ")") Prev :: AddToken (tx "->") :: wr_ty out PMin
    | TAbs v t => AddToken (tx "for") :: wr_tyvar v ++ AddToken (tx ".") :: wr_ty t PMin
    end.

(** pretty.rs:287-291 [write_lambda_param]. *)
Definition wr_param (p : name * ty) : list call :=
  wr_name (fst p) ++ AddToken (tx ":") :: wr_ty (snd p) PMin.

(** pretty.rs:92-285 [write_expr]. *)
Definition is_let (e : expr) : bool := match e with ELet _ _ _ | ELetRec _ _ _ _ => true | _ => false end.
Definition is_lam (e : expr) : bool := match e with ELam _ _ => true | _ => false end.
Fixpoint wr_expr (e : expr) (p : prec) : list call :=
  StartNode (fst (expr_node e)) (snd (expr_node e)) ::
  (if is_let e then [AddNewline] else []) ++
  parens (prec_lt (expr_prec e) p)
    match e with
    | EBool true => [AddToken (tx "true")]
    | EBool false => [AddToken (tx "false")]
    | EInt x => wr_number x
    | EString s => [AddToken (bytes_debug s)]
    | EName n => wr_name n
    | ECall f args =>
      wr_expr f PApply ++ AddSticky (tx "(") Both :: commas (map (fun a => wr_expr a PMin) args) ++
      [AddSticky (tx ")") Prev]
    | EIntr i args =>
      AddToken (intr_text i) :: AddSticky (tx "(") Both :: commas (map (fun a => wr_expr a PMin) args) ++
      [AddSticky (tx ")") Prev]
    | EIf a b c =>
      AddToken (tx "if") :: wr_expr a PApply ++ AddToken (tx "then") :: AddLargeNewline ::
      wr_expr b PMin ++ AddLargeNewline :: AddToken (tx "else") :: AddLargeNewline :: wr_expr c PMin
    | EOp a o b =>
      wr_expr a (prec_next (op_prec o)) ++ AddToken (op_text o) :: wr_expr b (prec_next (op_prec o))
    | ELam ps b =>
      AddSticky (tx "\(") Next :: commas (map wr_param ps) ++
      AddSticky (tx ")") Prev :: AddToken (tx "->") :: (if is_lam b then [] else [AddLargeNewline]) ++
      wr_expr b PMin
    | EMatch d bs =>
      AddToken (tx "match") :: wr_expr d PApply ++ AddToken (tx "with") ::
      flat_map (fun br =>
        StartNode false true :: AddNewline :: AddToken (tx "|") :: wr_ctor (fst (fst br)) ++
        flat_map wr_name (snd (fst br)) ++ AddToken (tx "->") :: wr_expr (snd br) PMin ++ [FinishNode]) bs ++
      [AddNewline; AddToken (tx "end")]
    | EConstruct c tys xs =>
      wr_ctor c ++
      match tys with
      | [] => []
      | _ => AddSticky (tx "[") Both :: commas (map (fun t => wr_ty t PMin) tys) ++ [AddSticky (tx "]") Prev]
      end ++
      AddSticky (tx "(") Both :: commas (map (fun a => wr_expr a PMin) xs) ++ [AddSticky (tx ")") Prev]
    | ELet x v e =>
      AddToken (tx "let") :: wr_name x ++ StartNode false true :: AddToken (tx "=") :: wr_expr v PMin ++
      AddSticky (tx ";") Prev :: FinishNode :: AddNewline :: wr_expr e PMin
    | ELetRec x t v e =>
      AddToken (tx "let") :: AddToken (tx "rec") :: wr_name x ++ AddToken (tx ":") :: wr_ty t PMin ++
      StartNode false true :: AddToken (tx "=") :: wr_expr v PMin ++
      AddSticky (tx ";") Prev :: FinishNode :: AddNewline :: wr_expr e PMin
    | ETrap msg t =>
      AddSticky (tx "#trap(") Next :: AddToken (str_debug msg) :: AddSticky (tx ",") Prev :: wr_ty t PMin ++
      [AddSticky (tx ")") Prev]
    | EPi v e => AddToken (tx "Pi") :: wr_tyvar v ++ AddToken (tx "->") :: wr_expr e PMin
    | EPiApp e t => wr_expr e PApply ++ AddSticky (tx "[") Both :: wr_ty t PMin ++ [AddSticky (tx "]") Prev]
    end ++ [FinishNode].

(** pretty.rs:50-66 [write_def]. *)
Definition wr_def (d : valdef) : list call :=
  StartNode true true ::
  match vd_export d with
  | Some x => [AddSticky (tx "export(") Next; AddToken (str_debug x); AddSticky (tx ")") Prev]
  | None => []
  end ++
  AddToken (tx "let") :: wr_name (vd_name d) ++ AddToken (tx ":") :: wr_ty (vd_ty d) PMin ++
  AddToken (tx "=") :: wr_expr (vd_value d) PMin ++ [AddSticky (tx ";") Prev; AddNewline; FinishNode].

(** pretty.rs:4-19 [pretty_print]; [None] is a panic of the formatter. *)
Fixpoint pretty_defs (result : text) (ds : list valdef) : option text :=
  match ds with
  | [] => Some result
  | d :: r =>
    match format_calls (wr_def d) with
    | Some t => pretty_defs ((match result with [] => [] | _ => result ++ [nl] end) ++ t) r
    | None => None
    end
  end.
Definition pretty_print (p : program) : option text := pretty_defs [] (p_defs p).
End Names.
