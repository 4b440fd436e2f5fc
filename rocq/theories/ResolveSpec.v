(** Specification for C52: lexical scoping.  A program with names and one with symbols in their place agree if
    every name stands for the symbol of the nearest enclosing definition of that name. *)
From Verif Require Export Resolve.
Set Implicit Arguments.

(** [env] lists the definitions in scope, innermost first. *)
Definition nearest (env : names) (n : ident) (s : sym) : Prop :=
  exists inner outer, env = inner ++ (id_text n, s) :: outer /\ ~ In (id_text n) (map fst inner).

Fixpoint ty_as (types : names) (t : xty) (r : irty) : Prop :=
  match t, r with
  | XInt, IrInt | XBool, IrBool | XString, IrString => True
  | XFn a b, IrFn a' b' => ty_as types a a' /\ ty_as types b b'
  | XNamed n args, IrNamed s args' =>
    nearest types n s /\
    (fix go (l : list xty) (l' : list irty) : Prop :=
       match l, l' with [], [] => True | t :: r, t' :: r' => ty_as types t t' /\ go r r' | _, _ => False end) args args'
  | XParen t, _ => ty_as types t r
  | _, _ => False
  end.
(** The names in a type from left to right, and whether they have arguments. *)
Fixpoint occurring (t : xty) : list (list N * bool) :=
  match t with
  | XInt | XBool | XString => []
  | XFn a b => occurring a ++ occurring b
  | XNamed n args => (id_text n, match args with [] => false | _ => true end) :: flat_map occurring args
  | XParen t => occurring t
  end.
(** A name occurs, and first of all without arguments. *)
Definition first_bare (t : xty) (v : list N) : Prop :=
  exists before after, occurring t = before ++ (v, false) :: after /\ ~ In v (map fst before).
(** A name that starts with one of the letters a to z. *)
Definition lower_case (v : list N) : Prop := exists c r, v = c :: r /\ (97 <= c <= 122)%N.
(** The type variables of an annotation are the lower case names in it that are not types; in the definition itself
    they are in scope. *)
Definition ann_as (types : names) (ann : option xty) (r : option (list sym * irty)) (inside : names) : Prop :=
  match ann, r with
  | None, None => inside = types
  | Some t, Some (vars, t') =>
    exists vnames, length vnames = length vars /\ NoDup vnames /\
      Forall (fun v => lower_case v /\ ~ In v (map fst types) /\ first_bare t v) vnames /\
      inside = rev (combine vnames vars) ++ types /\ ty_as inside t t'
  | _, _ => False
  end.
Fixpoint expr_as (values types ctors : names) (e : xexpr) (r : rexpr) : Prop :=
  match e, r with
  | XName n, RName s => nearest values n s
  | XApply a b, RApply a' b' | XPipe a b, RPipe a' b' => expr_as values types ctors a a' /\ expr_as values types ctors b b'
  | XBinary a o b, RBinary a' o' b' => o = o' /\ expr_as values types ctors a a' /\ expr_as values types ctors b b'
  | XLet n ann v e, RLet s ann' v' e' =>
    exists inside, ann_as types ann ann' inside /\ expr_as values inside ctors v v' /\ expr_as ((id_text n, s) :: values) types ctors e e'
  | XMatch d cs, RMatch d' cs' =>
    expr_as values types ctors d d' /\
    (fix go (l : list (ident * list ident * xexpr)) (l' : list (sym * list sym * rexpr)) : Prop :=
       match l, l' with
       | [], [] => True
       | ((n, xs), b) :: r, ((s, vs), b') :: r' =>
         (nearest ctors n s /\ length vs = length xs /\ expr_as (rev (combine (map id_text xs) vs) ++ values) types ctors b b') /\ go r r'
       | _, _ => False
       end) cs cs'
  | XIf a b c, RIf a' b' c' => expr_as values types ctors a a' /\ expr_as values types ctors b b' /\ expr_as values types ctors c c'
  | XBoolean b, RBoolean b' => b = b'
  | XNumber n, RNumber n' => n = n'
  | XStr s, RStr s' => s = s'
  | XLam f n b, RLam f' s b' => f = f' /\ expr_as ((id_text n, s) :: values) types ctors b b'
  | XParens e, RParen e' => expr_as values types ctors e e'
  | XHole t, RHole t' => t = t'
  | _, _ => False
  end.
(** Fields, constructors, and items; the constructors of a type have different names. *)
Definition fields_as (types : names) : list (option xty) -> list (option irty) -> Prop :=
  Forall2 (fun f r => match f, r with None, None => True | Some t, Some t' => ty_as types t t' | _, _ => False end).
Definition item_as (values types ctors : names) (x : xitem) (r : ritem) : Prop :=
  match x, r with
  | XType n _ _ ps cs, RTy s ps' cs' =>
    length ps' = length ps /\ NoDup (map (fun c => id_text (fst c)) cs) /\
    Forall2 (fun c c' => fields_as (rev (combine (map id_text ps) ps') ++ types) (snd c) (snd c')) cs cs'
  | XValue n ex ann body, RVal s ann' ex' body' =>
    ex' = (if ex then Some (id_text n) else None) /\
    exists inside, ann_as types ann ann' inside /\
      match body, body' with inl b, inl b' => b = b' | inr e, inr e' => expr_as values inside ctors e e' | _, _ => False end
  | _, _ => False
  end.
(** What an item adds to the scope of those after it. *)
Definition item_values (x : xitem) (r : ritem) : names :=
  match x, r with
  | XType _ _ _ _ cs, RTy _ _ cs' => rev (combine (map (fun c => id_text (fst c)) cs) (map fst cs'))
  | XValue n _ _ _, RVal s _ _ _ => [(id_text n, s)]
  | _, _ => []
  end.
Definition item_types (x : xitem) (r : ritem) : names :=
  match x, r with XType n _ _ _ _, RTy s _ _ => [(id_text n, s)] | _, _ => [] end.
Definition item_ctors (x : xitem) (r : ritem) : names :=
  match x with XType _ _ _ _ _ => item_values x r | _ => [] end.
Fixpoint program_as (values types ctors : names) (xs : list xitem) (rs : list ritem) : Prop :=
  match xs, rs with
  | [], [] => True
  | x :: xs', r :: rs' =>
    item_as values types ctors x r /\ program_as (item_values x r ++ values) (item_types x r ++ types) (item_ctors x r ++ ctors) xs' rs'
  | _, _ => False
  end.
