(** Specification for C57: the type of a definition as the source gives it, as it is shown to the user. *)
From Verif Require Export NavSpec.
Set Implicit Arguments.

Definition arrow_text : list N := [32;45;62;32]%N.
Definition in_parens (b : bool) (l : list N) : list N := if b then [40%N] ++ l ++ [41%N] else l.
(** Where a type stands: alone or right of an arrow, left of an arrow, or as an argument. *)
Inductive place := Alone | LeftOfArrow | Argument.
Definition fn_parens (p : place) : bool := match p with Alone => false | _ => true end.
Definition app_parens {A} (p : place) (args : list A) : bool := match p, args with Argument, _ :: _ => true | _, _ => false end.
Definition int_text : list N := [105;110;116]%N.
Definition bool_text : list N := [98;111;111;108]%N.
Definition string_text : list N := [115;116;114;105;110;103]%N.
(** A type of the source, with one space between words and no parentheses it does not need; a type whose name stands for
    nothing is a question mark. *)
Fixpoint ty_written (a : around) (p : place) (t : xty) : list N :=
  match t with
  | XInt => int_text | XBool => bool_text | XString => string_text
  | XFn x y => in_parens (fn_parens p) (ty_written a LeftOfArrow x ++ arrow_text ++ ty_written a Alone y)
  | XNamed n args =>
    match closest (ar_types a) n with
    | None => [63%N]
    | Some _ => in_parens (app_parens p args) (id_text n ++ (fix go (l : list xty) : list N := match l with [] => [] | t :: r => [32%N] ++ ty_written a Argument t ++ go r end) args)
    end
  | XParen t => ty_written a p t
  end.
(** An annotation: its type variables are names too. *)
Fixpoint ann_written (p : place) (t : xty) (a : around) : list N :=
  match t with
  | XInt => int_text | XBool => bool_text | XString => string_text
  | XFn x y => in_parens (fn_parens p) (ann_written LeftOfArrow x a ++ arrow_text ++ ann_written Alone y (snd (ann_names_of x a)))
  | XNamed n args =>
    match closest (ar_types a) n, args with
    | Some _, _ =>
      in_parens (app_parens p args) (id_text n ++
        (fix go (l : list xty) (a : around) : list N := match l with [] => [] | t :: r => [32%N] ++ ann_written Argument t a ++ go r (snd (ann_names_of t a)) end) args a)
    | None, [] => if small_letter (id_text n) then id_text n else [63%N]
    | None, _ => [63%N]
    end
  | XParen t => ann_written p t a
  end.
(** The kind of a type with [n] parameters. *)
Definition star_text (n : nat) : list N := [42%N] ++ concat (repeat (arrow_text ++ [42%N]) n).
(** A constructor is a function from its fields to its type; a [rec] field is of that type. *)
Definition whole_written (p : place) (n : ident) (ps : list ident) : list N := in_parens (app_parens p ps) (id_text n ++ flat_map (fun x => [32%N] ++ id_text x) ps).
Definition ctor_written (a : around) (n : ident) (ps : list ident) (fs : list (option xty)) : list N :=
  fold_right (fun f r => match f with Some t => ty_written a LeftOfArrow t | None => whole_written LeftOfArrow n ps end ++ arrow_text ++ r) (whole_written Alone n ps) fs.

(** A definition and its type, if the source gives it; otherwise it is inferred. *)
Definition declaration := (ident * option (list N))%type.
Definition a_type_variable (n : ident) : declaration := (n, Some (star_text 0)).
Definition opt_written (ann : option xty) (a : around) : option (list N) := match ann with Some t => Some (ann_written Alone t a) | None => None end.
Definition opt_declared (ann : option xty) (a : around) : list declaration := map a_type_variable (snd (fst (opt_names_of ann a))).
Definition inferred (n : ident) : declaration := (n, None).
Fixpoint expr_declared (e : xexpr) (a : around) : list declaration :=
  match e with
  | XName _ | XBoolean _ | XNumber _ | XStr _ | XHole _ => []
  | XApply x y | XBinary x _ y | XPipe x y => expr_declared x a ++ expr_declared y a
  | XLet n ann v e =>
    opt_declared ann a ++ expr_declared v (snd (opt_names_of ann a)) ++ [(n, opt_written ann a)] ++ expr_declared e (with_value n a)
  | XMatch d cases =>
    expr_declared d a ++
    (fix go (l : list (ident * list ident * xexpr)) : list declaration :=
       match l with
       | [] => []
       | ((_, xs), b) :: r => map inferred xs ++ expr_declared b (fold_left (fun a x => with_value x a) xs a) ++ go r
       end) cases
  | XIf x y z => expr_declared x a ++ expr_declared y a ++ expr_declared z a
  | XLam _ n b => [inferred n] ++ expr_declared b (with_value n a)
  | XParens e => expr_declared e a
  end.
Fixpoint cases_declared (a : around) (ty : ident) (ps : list ident) (seen : list ident) (cs : list (ident * list (option xty))) : list declaration :=
  match cs with
  | [] => []
  | (n, fs) :: r =>
    match closest seen n with Some _ => cases_declared a ty ps seen r | None => (n, Some (ctor_written a ty ps fs)) :: cases_declared a ty ps (n :: seen) r end
  end.
Definition item_declared (x : xitem) (a : around) : list declaration :=
  match x with
  | XType n _ _ ps cs =>
    map a_type_variable ps ++ cases_declared (fold_left (fun a p => with_type p a) ps a) n ps [] cs ++ [(n, Some (star_text (length ps)))]
  | XValue n _ ann body =>
    opt_declared ann a ++ [(n, opt_written ann a)] ++ match body with inl _ => [] | inr e => expr_declared e (snd (opt_names_of ann a)) end
  end.
Fixpoint declared_of_items (xs : list xitem) (a : around) : list declaration :=
  match xs with [] => [] | x :: r => item_declared x a ++ declared_of_items r (after_item x a) end.
Definition declared (ps : list placed) : list declaration := declared_of_items (map pl_item ps) (mkAround [] [] []).
