(** Specification for C56 and for the warnings of C42: what each name of a program defines. *)
From Verif Require Export NavSpec Lexer.
Set Implicit Arguments.

(** A definition: of a type, a type variable, a constructor or a value. *)
Inductive role := RType | RTypeVariable | RCtor | RValue.
(** A name that is defined, what it is, and whether it can be imported from other files. *)
Definition definition := (ident * (role * bool))%type.
Definition inner (r : role) (l : list ident) : list definition := map (fun d => (d, (r, false))) l.

(** The names an annotation defines are type variables. *)
Definition ann_roles (ann : option xty) (a : around) : list definition := inner RTypeVariable (snd (fst (opt_names_of ann a))).
Fixpoint expr_roles (e : xexpr) (a : around) : list definition :=
  match e with
  | XName _ | XBoolean _ | XNumber _ | XStr _ | XHole _ => []
  | XApply x y | XBinary x _ y | XPipe x y => expr_roles x a ++ expr_roles y a
  | XLet n ann v e => ann_roles ann a ++ expr_roles v (snd (opt_names_of ann a)) ++ inner RValue [n] ++ expr_roles e (with_value n a)
  | XMatch d cases =>
    expr_roles d a ++
    (fix go (l : list (ident * list ident * xexpr)) : list definition :=
       match l with
       | [] => []
       | ((_, xs), b) :: r => inner RValue xs ++ expr_roles b (fold_left (fun a x => with_value x a) xs a) ++ go r
       end) cases
  | XIf x y z => expr_roles x a ++ expr_roles y a ++ expr_roles z a
  | XLam _ n b => inner RValue [n] ++ expr_roles b (with_value n a)
  | XParens e => expr_roles e a
  end.
Definition item_roles (x : xitem) (a : around) : list definition :=
  match x with
  | XType n export export_cases ps cs => inner RTypeVariable ps ++ map (fun c => (c, (RCtor, export_cases))) (case_names cs) ++ [(n, (RType, export))]
  | XValue n export ann body =>
    ann_roles ann a ++ [(n, (RValue, export))] ++ match body with inl _ => [] | inr e => expr_roles e (snd (opt_names_of ann a)) end
  end.
Fixpoint roles_of_items (xs : list xitem) (a : around) : list (list definition) :=
  match xs with [] => [] | x :: r => item_roles x a :: roles_of_items r (after_item x a) end.
(** The definitions of each item of a unit, and all of them. *)
Definition item_definitions (ps : list placed) : list (list definition) := roles_of_items (map pl_item ps) (mkAround [] [] []).
Definition definitions (ps : list placed) : list definition := concat (item_definitions ps).
Definition span (n : ident) : nat * nat := (id_at n, id_at n + length (id_text n)).

(** The tokens of a text with their places, the first one at [p]. *)
Fixpoint tokens_at (p : nat) (ts : list token) : list (kind * (nat * nat)) :=
  match ts with [] => [] | (k, t) :: r => (k, (p, p + length t)) :: tokens_at (p + length t) r end.
