(** What the parser is supposed to do: trees tile the source, operators are grouped by precedence. *)
From Verif Require Import Parser.

(** A tree as the parser's events describe it, before trivia and positions. *)
Inductive elem : Type :=
| Tok (k : kind)
| Err (span : nat * nat)
| Node (k : skind) (l : list elem).

(** The tokens of a tree, in order. *)
Fixpoint yield (e : elem) : list kind :=
  match e with Tok k => [k] | Err _ => [] | Node _ l => flat_map yield l end.

(** Precedence levels, loosest first: 1 `|>`; 3 comparisons; 7 `+ -`; 9 `* / %`. *)
Definition level (op : kind) : option nat :=
  match op with
  | KArgPipe => Some 1
  | KLess | KLessEq | KGreater | KGreaterEq | KEqEq | KNotEq => Some 3
  | KPlus | KMinus => Some 7
  | KStar | KSlash | KPercent => Some 9
  | _ => None
  end.

(** [top_level e p]: [e] is a binary expression whose operator has level [p]. *)
Definition top_level (e : elem) (p : nat) : Prop :=
  exists l op r, e = Node BinaryExpr (l :: Node BinaryOp [Tok op] :: r) /\ level op = Some p.
(** A binary expression whose right operand was found. *)
Definition has_right (e : elem) : Prop := exists l o r k ch, e = Node BinaryExpr (l :: o :: r) /\ In (Node k ch) r.

(** Grouping by precedence, left-associative: what binds in the right operand binds strictly tighter than
    the operator, what binds in the left operand binds at least as tight (unless the left operand is
    itself an error, an operator without a right operand).  A right operand is missing only where there
    is nothing or a bad token in its place. *)
Inductive grouped : elem -> Prop :=
| g_tok k : grouped (Tok k)
| g_err s : grouped (Err s)
| g_node k l : k <> BinaryExpr -> Forall grouped l -> grouped (Node k l)
| g_binary kl cl op r p :
    grouped (Node kl cl) -> Forall grouped r -> level op = Some p ->
    (exists k ch, r = [Node k ch]) \/ r = [] \/ r = [Tok KError] ->
    (forall x, In x r -> forall q, top_level x q -> p < q) ->
    (has_right (Node kl cl) -> forall q, top_level (Node kl cl) q -> p <= q) ->
    grouped (Node BinaryExpr (Node kl cl :: Node BinaryOp [Tok op] :: r)).

(** Every binary expression has both operands. *)
Inductive whole : elem -> Prop :=
| w_tok k : whole (Tok k)
| w_node k l : k <> BinaryExpr -> Forall whole l -> whole (Node k l)
| w_binary kl cl op kr cr :
    whole (Node kl cl) -> whole (Node kr cr) ->
    whole (Node BinaryExpr [Node kl cl; Node BinaryOp [Tok op]; Node kr cr]).

(** [tiles p ts toks q]: the leaves of the trees [ts], in order, are the tokens [toks], laid out without
    gap or overlap from position [p] to [q]; the full span of every node is exactly that of its leaves,
    and its span lies inside. *)
Inductive tiles : nat -> list stree -> list token -> nat -> Prop :=
| tl_nil p : tiles p [] [] p
| tl_tok p k t ts toks q :
    trivia k = false -> tiles (p + length t) ts toks q ->
    tiles p (STok k (p, p + length t) :: ts) ((k, t) :: toks) q
| tl_trivia p k t ts toks q :
    trivia k = true -> tiles (p + length t) ts toks q ->
    tiles p (STrivia k (p, p + length t) :: ts) ((k, t) :: toks) q
| tl_node p id k s e ch toks1 m ts toks2 q :
    tiles p ch toks1 m -> p <= s -> s <= e -> e <= m -> tiles m ts toks2 q ->
    tiles p (SNode id k (s, e) (p, m) ch :: ts) (toks1 ++ toks2) q.

(** The ids of the nodes of a tree, in preorder. *)
Fixpoint ids (t : stree) : list nat :=
  match t with SNode id _ _ _ ch => id :: flat_map ids ch | _ => [] end.

(** The syntax tree with trivia, positions and ids dropped; errors are not nodes. *)
Fixpoint shape (t : stree) : list elem :=
  match t with
  | SNode _ k _ _ ch => [Node k (flat_map shape ch)]
  | STok k _ => [Tok k]
  | STrivia _ _ => []
  end.
Fixpoint no_err (e : elem) : list elem :=
  match e with Err _ => [] | Tok k => [Tok k] | Node k l => [Node k (flat_map no_err l)] end.

(** The operands and operators of a binary expression, in source order: the first operand, then each
    operator with the operand after it. *)
Fixpoint operands (e : elem) : elem * list (kind * elem) :=
  match e with
  | Node BinaryExpr [l; Node BinaryOp [Tok op]; r] =>
    let '(a, xs) := operands l in let '(b, ys) := operands r in (a, xs ++ (op, b) :: ys)
  | _ => (e, [])
  end.

(** [parsed err src items]: the items of [src] parsed one after another, each from where the last ended. *)
Inductive parsed (err : list N -> nat) (src : list N) : list (stree * list (nat * nat)) -> Prop :=
| parsed_none : parsed err src []
| parsed_more items it :
    parsed err src items -> compiled_length items < length src ->
    parse_one_item err (skipn (compiled_length items) src) (compiled_length items) = Ok it ->
    parsed err src (items ++ [it]).

(** [requested err src offs items]: [items] is what a unit holds after requests to compile up to each of
    [offs], in order. *)
Inductive requested (err : list N -> nat) (src : list N) : list nat -> list (stree * list (nat * nat)) -> Prop :=
| req_none : requested err src [] []
| req_more offs items off items' :
    requested err src offs items -> compile_up_to err src off items = Ok items' ->
    requested err src (offs ++ [off]) items'.
