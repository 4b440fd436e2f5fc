(** Specification for C54: what a name would refer to if it were written at a position. *)
From Verif Require Export NavSpec.
From Coq Require Import NArith.
Set Implicit Arguments.

(** Another text for the name that starts at [p]. *)
Section Fill.
  Variable p : nat.
  Variable text : list N.
  Definition fill (n : ident) : ident := if id_at n =? p then mkIdent text p else n.
  Fixpoint fill_ty (t : xty) : xty :=
    match t with
    | XInt | XBool | XString => t
    | XFn a b => XFn (fill_ty a) (fill_ty b)
    | XNamed n args => XNamed (fill n) (map fill_ty args)
    | XParen t => XParen (fill_ty t)
    end.
  Fixpoint fill_expr (e : xexpr) : xexpr :=
    match e with
    | XName n => XName (fill n)
    | XApply a b => XApply (fill_expr a) (fill_expr b)
    | XBinary a o b => XBinary (fill_expr a) o (fill_expr b)
    | XPipe a b => XPipe (fill_expr a) (fill_expr b)
    | XLet n ann v e => XLet (fill n) (option_map fill_ty ann) (fill_expr v) (fill_expr e)
    | XMatch d cs => XMatch (fill_expr d) (map (fun c => (fill (fst (fst c)), map fill (snd (fst c)), fill_expr (snd c))) cs)
    | XIf a b c => XIf (fill_expr a) (fill_expr b) (fill_expr c)
    | XBoolean _ | XNumber _ | XStr _ | XHole _ => e
    | XLam f n b => XLam f (fill n) (fill_expr b)
    | XParens e => XParens (fill_expr e)
    end.
  Definition fill_item (x : xitem) : xitem :=
    match x with
    | XType n ex ec ps cs => XType (fill n) ex ec (map fill ps) (map (fun c => (fill (fst c), map (option_map fill_ty) (snd c))) cs)
    | XValue n ex ann body => XValue (fill n) ex (option_map fill_ty ann) (match body with inl b => inl b | inr e => inr (fill_expr e) end)
    end.
End Fill.

(** All names of an item, and those in the place of a use. *)
Fixpoint ty_idents (t : xty) : list ident :=
  match t with
  | XInt | XBool | XString => []
  | XFn a b => ty_idents a ++ ty_idents b
  | XNamed n args => n :: flat_map ty_idents args
  | XParen t => ty_idents t
  end.
Definition opt_idents (t : option xty) : list ident := match t with Some t => ty_idents t | None => [] end.
(** [defs]: with those that are defined. *)
Fixpoint expr_idents (defs : bool) (e : xexpr) : list ident :=
  let d (l : list ident) := if defs then l else [] in
  match e with
  | XName n => [n]
  | XApply a b | XBinary a _ b | XPipe a b => expr_idents defs a ++ expr_idents defs b
  | XLet n ann v e => opt_idents ann ++ expr_idents defs v ++ d [n] ++ expr_idents defs e
  | XMatch x cs => expr_idents defs x ++ flat_map (fun c => fst (fst c) :: d (snd (fst c)) ++ expr_idents defs (snd c)) cs
  | XIf a b c => expr_idents defs a ++ expr_idents defs b ++ expr_idents defs c
  | XBoolean _ | XNumber _ | XStr _ | XHole _ => []
  | XLam _ n b => d [n] ++ expr_idents defs b
  | XParens e => expr_idents defs e
  end.
Definition item_idents (defs : bool) (x : xitem) : list ident :=
  let d (l : list ident) := if defs then l else [] in
  match x with
  | XType n _ _ ps cs => d ps ++ flat_map (fun c => flat_map opt_idents (snd c) ++ d [fst c]) cs ++ d [n]
  | XValue n _ ann body => opt_idents ann ++ d [n] ++ match body with inl _ => [] | inr e => expr_idents defs e end
  end.
(** Two names do not touch. *)
Definition apart (l : list ident) : Prop :=
  NoDup (map id_at l) /\ forall a b pos, In a l -> In b l -> on a pos = true -> on b pos = true -> a = b.

(** The definitions around an item. *)
Definition around_after (ps : list placed) : around := fold_left (fun a p => after_item (pl_item p) a) ps (mkAround [] [] []).
(** Written in place of the name at [p] in [x], [t] refers to a definition. *)
Definition refers (x : xitem) (a : around) (p : nat) (t : list N) : Prop :=
  exists d, In (mkIdent t p, d) (fst (item_names_of (fill_item p t x) a)).
(** Alphabetical order. *)
Inductive before : list N -> list N -> Prop :=
| before_nil x l : before [] (x :: l)
| before_here x y a b : (x < y)%N -> before (x :: a) (y :: b)
| before_there x a b : before a b -> before (x :: a) (x :: b).
