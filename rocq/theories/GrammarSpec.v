(** The grammar of the language, as trees without trivia: what the parser is supposed to accept and the tree it is
    supposed to build.  Nothing here refers to the parsing functions. *)
From Verif Require Import Lexer Parser ParserSpec.

Definition name : elem := Node NameNode [Tok KName].
(** x, or m.x *)
Inductive path : list elem -> Prop :=
| path_one : path [name]
| path_in : path [name; Tok KDot; name].

(** ** Types: arrows to the right, arguments of a named type are atoms *)
Inductive ty : elem -> Prop :=
| ty_simple t : simple t -> ty t
| ty_fn a b : simple a -> ty b -> ty (Node FnType [a; Tok KArrow; b])
with simple : elem -> Prop :=
| si_atom t : tyatom t -> simple t
| si_args l ts : path l -> Forall tyatom ts -> simple (Node NamedType (l ++ ts))
with tyatom : elem -> Prop :=
| ta_int : tyatom (Node IntType [Tok KInt])
| ta_bool : tyatom (Node BoolType [Tok KBool])
| ta_string : tyatom (Node StringType [Tok KStringTy])
| ta_name l : path l -> tyatom (Node NamedType l)
| ta_paren t : ty t -> tyatom (Node ParenType [Tok KLeftParen; t; Tok KRightParen]).

Inductive annot : list elem -> Prop :=
| an_none : annot []
| an_some t : ty t -> annot [Tok KColon; t].

(** ** Expressions: [ops m]: an expression whose operators outside parentheses are of level [m] or more *)
Inductive ex : elem -> Prop :=
| ex_ops e : ops 0 e -> ex e
| ex_let ann v e : annot ann -> ex v -> ex e ->
    ex (Node LetExpr (Tok KLet :: name :: ann ++ [Tok KEquals; v; Tok KSemicolon; e]))
| ex_match d cs : ex d -> Forall mcase cs ->
    ex (Node MatchExpr (Tok KMatch :: d :: Tok KWith :: cs ++ [Tok KEnd]))
| ex_if c t e : ex c -> ex t -> ex e ->
    ex (Node IfExpr [Tok KIf; c; Tok KThen; t; Tok KElse; e])
| ex_lam e : ex e -> ex (Node LambdaExpr [Tok KBackslash; name; Tok KArrow; e])
| ex_fold e : ex e -> ex (Node LambdaExpr [Tok KBackslash; Tok KFold; name; Tok KArrow; e])
with mcase : elem -> Prop :=
| mc_case l n e : path l -> ex e ->
    mcase (Node MatchCase (Tok KPipe :: l ++ [Node MatchVars (repeat name n); Tok KArrow; e]))
with ops : nat -> elem -> Prop :=
| op_app m e : app_ e -> ops m e
| op_bin m op p a b : level op = Some p -> m <= p -> ops p a -> ops (S p) b ->
    ops m (Node BinaryExpr [a; Node BinaryOp [Tok op]; b])
with app_ : elem -> Prop :=
| ap_atom e : exatom e -> app_ e
| ap_app f a : app_ f -> exatom a -> app_ (Node ApplyExpr [f; a])
with exatom : elem -> Prop :=
| ea_paren e : ex e -> exatom (Node ParenExpr [Tok KLeftParen; e; Tok KRightParen])
| ea_true : exatom (Node BoolExpr [Tok KTrue])
| ea_false : exatom (Node BoolExpr [Tok KFalse])
| ea_number : exatom (Node NumberExpr [Tok KNumber])
| ea_string : exatom (Node StringExpr [Tok KString])
| ea_name : exatom (Node NameExpr [name])
| ea_in : exatom (Node NamespacedNameExpr [name; Tok KDot; name])
| ea_hole : exatom (Node HoleExpr [Tok KHole]).

(** ** Items *)
Inductive optional (l : list elem) : list elem -> Prop :=
| opt_none : optional l []
| opt_some : optional l l.
Inductive field : elem -> Prop :=
| fi_rec : field (Node RecField [Tok KRec])
| fi_type t : tyatom t -> field (Node TypeField [t]).
Inductive tcase (pipe : list elem) : elem -> Prop :=
| tc_case fs : Forall field fs -> tcase pipe (Node TypeCase (pipe ++ name :: fs)).
Inductive params : list elem -> Prop :=
| pa_none : params []
| pa_some n : params [Node TypeParams (repeat name (S n))].
(** Names with commas between them, and possibly after the last. *)
Inductive commas : list elem -> Prop :=
| co_none : commas []
| co_last : commas [name]
| co_more l : commas l -> commas (name :: Tok KComma :: l).
Inductive exposed : list elem -> Prop :=
| xp_none : exposed []
| xp_some l : commas l -> exposed [Node ExposedList (Tok KLeftParen :: l ++ [Tok KRightParen])].
Inductive item_tree : elem -> Prop :=
| it_value x ann e : optional [Tok KExport] x -> annot ann -> ex e ->
    item_tree (Node ValueItem (x ++ Tok KLet :: name :: ann ++ [Tok KEquals; e; Tok KSemicolon]))
| it_type x ps y pipe c cs : optional [Tok KExport] x -> params ps -> optional [Tok KExport] y -> optional [Tok KPipe] pipe ->
    tcase pipe c -> Forall (tcase [Tok KPipe]) cs ->
    item_tree (Node TypeItem (x ++ Tok KType :: name :: ps ++ Tok KEquals :: y ++ c :: cs ++ [Tok KSemicolon]))
| it_import n l : optional [name] n -> exposed l ->
    item_tree (Node ImportItem (Tok KImport :: n ++ l ++ [Tok KFrom; Tok KString; Tok KSemicolon])).

(** The words of a source: its tokens without spaces, newlines and comments. *)
Definition words (err : list N -> nat) (src : list N) : list kind :=
  map fst (filter (fun t => negb (trivia (fst t))) (lex err src)).
