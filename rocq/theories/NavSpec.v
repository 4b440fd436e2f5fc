(** Specification for C53: which definition each name of a program refers to, by the names alone. *)
From Verif Require Export Nav.
Set Implicit Arguments.

(** Names that are used, with the definition, and names that are defined, both in the order of the text of
    expressions and types. *)
Definition found := (list (ident * ident) * list ident)%type.
Definition nothing : found := ([], []).
Definition use (n d : ident) : found := ([(n, d)], []).
Definition define (d : ident) : found := ([], [d]).
Definition both (a b : found) : found := (fst a ++ fst b, snd a ++ snd b).
Notation "a +++ b" := (both a b) (at level 60, right associativity).

(** The definitions around a name, nearest first. *)
Record around := mkAround { ar_values : list ident; ar_types : list ident; ar_ctors : list ident }.
Definition closest (l : list ident) (n : ident) : option ident := find (fun d => text_eqb (id_text d) (id_text n)) l.
Definition look (l : list ident) (n : ident) : found := match closest l n with Some d => use n d | None => nothing end.
Definition with_value (d : ident) (a : around) : around := mkAround (d :: ar_values a) (ar_types a) (ar_ctors a).
Definition with_type (d : ident) (a : around) : around := mkAround (ar_values a) (d :: ar_types a) (ar_ctors a).
Definition with_ctor (d : ident) (a : around) : around := mkAround (d :: ar_values a) (ar_types a) (d :: ar_ctors a).

Fixpoint ty_names_of (a : around) (t : xty) : found :=
  match t with
  | XInt | XBool | XString => nothing
  | XFn x y => ty_names_of a x +++ ty_names_of a y
  | XNamed n args =>
    look (ar_types a) n +++ (fix go (l : list xty) : found := match l with [] => nothing | t :: r => ty_names_of a t +++ go r end) args
  | XParen t => ty_names_of a t
  end.
(** The first letter is one of a to z. *)
Definition small_letter (t : list N) : bool := match t with c :: _ => existsb (N.eqb c) (map N.of_nat (seq 97 26)) | [] => false end.
(** In an annotation a lower case name that is not a type is defined where it occurs first. *)
Fixpoint ann_names_of (t : xty) (a : around) : found * around :=
  match t with
  | XInt | XBool | XString => (nothing, a)
  | XFn x y => let '(f, a1) := ann_names_of x a in let '(g, a2) := ann_names_of y a1 in (f +++ g, a2)
  | XNamed n args =>
    let '(f, a1) := match closest (ar_types a) n with
                    | Some d => (use n d, a)
                    | None => if small_letter (id_text n) && match args with [] => true | _ => false end then (define n, with_type n a) else (nothing, a)
                    end in
    let '(g, a2) := (fix go (l : list xty) (a : around) : found * around :=
                       match l with [] => (nothing, a) | t :: r => let '(f, a1) := ann_names_of t a in let '(g, a2) := go r a1 in (f +++ g, a2) end) args a1 in
    (f +++ g, a2)
  | XParen t => ann_names_of t a
  end.
Definition opt_names_of (ann : option xty) (a : around) : found * around := match ann with Some t => ann_names_of t a | None => (nothing, a) end.
Fixpoint expr_names_of (e : xexpr) (a : around) : found :=
  match e with
  | XName n => look (ar_values a) n
  | XApply x y | XBinary x _ y | XPipe x y => expr_names_of x a +++ expr_names_of y a
  | XLet n ann v e =>
    fst (opt_names_of ann a) +++ expr_names_of v (snd (opt_names_of ann a)) +++ define n +++ expr_names_of e (with_value n a)
  | XMatch d cases =>
    expr_names_of d a +++
    (fix go (l : list (ident * list ident * xexpr)) : found :=
       match l with
       | [] => nothing
       | ((n, xs), b) :: r => look (ar_ctors a) n +++ ([], xs) +++ expr_names_of b (fold_left (fun a x => with_value x a) xs a) +++ go r
       end) cases
  | XIf x y z => expr_names_of x a +++ expr_names_of y a +++ expr_names_of z a
  | XBoolean _ | XNumber _ | XStr _ | XHole _ => nothing
  | XLam _ n b => define n +++ expr_names_of b (with_value n a)
  | XParens e => expr_names_of e a
  end.
Fixpoint fields_names_of (a : around) (fs : list (option xty)) : found :=
  match fs with [] => nothing | None :: r => fields_names_of a r | Some t :: r => ty_names_of a t +++ fields_names_of a r end.
(** A second constructor of the same name does not define it. *)
Fixpoint cases_names_of (a : around) (seen : list ident) (cs : list (ident * list (option xty))) : found :=
  match cs with
  | [] => nothing
  | (n, fs) :: r =>
    fields_names_of a fs +++ match closest seen n with Some _ => cases_names_of a seen r | None => define n +++ cases_names_of a (n :: seen) r end
  end.
Definition case_names (cs : list (ident * list (option xty))) : list ident := snd (cases_names_of (mkAround [] [] []) [] cs).
Definition item_names_of (x : xitem) (a : around) : found :=
  match x with
  | XType n _ _ ps cs => ([], ps) +++ cases_names_of (fold_left (fun a p => with_type p a) ps a) [] cs +++ define n
  | XValue n _ ann body =>
    fst (opt_names_of ann a) +++ define n +++ match body with inl _ => nothing | inr e => expr_names_of e (snd (opt_names_of ann a)) end
  end.
(** What an item defines for those after it. *)
Definition after_item (x : xitem) (a : around) : around :=
  match x with
  | XType n _ _ _ cs => with_type n (fold_left (fun a k => with_ctor k a) (case_names cs) a)
  | XValue n _ _ _ => with_value n a
  end.
Fixpoint names_of_items (xs : list xitem) (a : around) : list found :=
  match xs with [] => [] | x :: r => item_names_of x a :: names_of_items r (after_item x a) end.
Definition names_of (ps : list placed) : list found := names_of_items (map pl_item ps) (mkAround [] [] []).
(** All uses and all definitions of a unit. *)
Definition uses (ps : list placed) : list (ident * ident) := flat_map fst (names_of ps).
Definition binders (ps : list placed) : list ident := flat_map snd (names_of ps).

(** Names are in their items, which end with a semicolon, and two names do not touch. *)
Fixpoint in_items (start : nat) (ps : list placed) (fs : list found) : Prop :=
  match ps, fs with
  | [], [] => True
  | p :: ps', f :: fs' =>
    start < pl_end p /\
    (forall n, In n (map fst (fst f) ++ snd f) -> start <= id_at n /\ id_at n + length (id_text n) < pl_end p) /\
    in_items (pl_end p) ps' fs'
  | _, _ => False
  end.
Record laid_out (ps : list placed) : Prop := mkLaidOut {
  lo_items : in_items 0 ps (names_of ps);
  lo_once : NoDup (map fst (uses ps) ++ binders ps);
  lo_apart : forall a b pos, In a (map fst (uses ps) ++ binders ps) -> In b (map fst (uses ps) ++ binders ps) -> on a pos = true -> on b pos = true -> a = b }.

(** The names that refer to a definition. *)
Definition users (ps : list placed) (d : ident) : list ident := map fst (filter (fun u => id_at (snd u) =? id_at d) (uses ps)).
