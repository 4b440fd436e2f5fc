(** Model of name resolution, ticc/src/compiler/resolve.rs and compiler.rs:14-101, and of the navigation
    queries that read its result, api.rs:11-57 and api/navigation.rs.

    The syntax is complete (a missing part is a parse error, and then there is nothing to resolve).  Imports and
    names with a namespace are left out.  The resolver writes definitions and references to lists and the later
    phases find them by node; here it also returns the tree with symbols in place of names, which is what they
    find.  A name that is not found is an error: the flag is [false] and a hole, or the error type, takes its place. *)
From Verif Require Export Typeck.
Set Implicit Arguments.

(** A name token: its text and the position it starts at (ticc-syntax [Span]: to the end of the text). *)
Record ident := mkIdent { id_text : list N; id_at : nat }.

(** compiler/syntax.rs [node::Type], [node::Expr], [node::Item] before resolution. *)
Inductive xty : Type :=
| XInt | XBool | XString
| XFn (a b : xty)
| XNamed (n : ident) (args : list xty)
| XParen (t : xty).
Inductive xexpr : Type :=
| XName (n : ident)
| XApply (f a : xexpr)
| XBinary (a : xexpr) (o : op) (b : xexpr)
| XPipe (a f : xexpr)
| XLet (n : ident) (ann : option xty) (v e : xexpr)
| XMatch (d : xexpr) (cases : list (ident * list ident * xexpr))
| XIf (c t e : xexpr)
| XBoolean (b : bool)
| XNumber (n : N)
| XStr (s : bytes)
| XLam (fold : bool) (n : ident) (b : xexpr)
| XParens (e : xexpr)
| XHole (text : bytes).
Inductive xitem : Type :=
| XType (n : ident) (export export_cases : bool) (params : list ident) (cases : list (ident * list (option xty)))
| XValue (n : ident) (export : bool) (ann : option xty) (body : builtin + xexpr).

(** compiler/ir.rs:53-61, 64-74, 104-109. *)
Inductive vis := Local | Module | Export.
Record rdef := mkRdef { d_sym : sym; d_kind : dkind; d_vis : vis; d_name : ident }.
Record rref := mkRref { r_sym : sym; r_name : ident }.

(** compiler.rs:14-20 [Scope]; a map is the list of its insertions, latest first, and a scope with a parent
    (28-33) starts with the entries of the parent. *)
Definition names := list (list N * sym).
Record scope := mkScope { sc_values : names; sc_types : names; sc_ctors : names }.
Definition text_eqb (a b : list N) : bool := if list_eq_dec N.eq_dec a b then true else false.
(** compiler.rs:62-90. *)
Fixpoint lookup_text (l : names) (t : list N) : option sym :=
  match l with [] => None | (t', s) :: r => if text_eqb t' t then Some s else lookup_text r t end.
Definition add_value (t : list N) (s : sym) (c : scope) : scope := mkScope ((t, s) :: sc_values c) (sc_types c) (sc_ctors c).
Definition add_type (t : list N) (s : sym) (c : scope) : scope := mkScope (sc_values c) ((t, s) :: sc_types c) (sc_ctors c).
Definition add_ctor (t : list N) (s : sym) (c : scope) : scope := mkScope ((t, s) :: sc_values c) (sc_types c) ((t, s) :: sc_ctors c).
(** compiler.rs:35-60 [add_item] for the definitions of an item ([include_local] is [false]). *)
Definition add_def (c : scope) (d : rdef) : scope :=
  match d_vis d with
  | Local => c
  | _ => match d_kind d with
         | DValue _ _ => add_value (id_text (d_name d)) (d_sym d) c
         | DCtor _ _ => add_ctor (id_text (d_name d)) (d_sym d) c
         | DType _ _ => add_type (id_text (d_name d)) (d_sym d) c
         end
  end.
Definition add_defs (c : scope) (ds : list rdef) : scope := fold_left add_def ds c.

Section Resolver.
  (** ir.rs:18-26 [Symbol::fresh]: the [n]-th symbol made for this unit (other units may be compiled at the same
      time and make symbols in between). *)
  Variable sy : nat -> sym.

  (** resolve.rs:36-77, the sink. *)
  Record rstate := mkRstate { st_next : nat; st_defs : list rdef; st_refs : list rref; st_ok : bool }.
  Definition rm (A : Type) := rstate -> A * rstate.
  Definition rret {A} (a : A) : rm A := fun s => (a, s).
  Definition rbind {A B} (m : rm A) (f : A -> rm B) : rm B := fun s => let '(a, s1) := m s in f a s1.
  Local Notation "x <<- m ;; k" := (rbind m (fun x => k)) (at level 61, m at next level, right associativity).
  Definition fresh : rm sym := fun s => (sy (st_next s), mkRstate (S (st_next s)) (st_defs s) (st_refs s) (st_ok s)).
  Definition record_def (d : rdef) : rm unit := fun s => (tt, mkRstate (st_next s) (st_defs s ++ [d]) (st_refs s) (st_ok s)).
  Definition record_ref (r : rref) : rm unit := fun s => (tt, mkRstate (st_next s) (st_defs s) (st_refs s ++ [r]) (st_ok s)).
  Definition record_error : rm unit := fun s => (tt, mkRstate (st_next s) (st_defs s) (st_refs s) false).

  Definition def_new (s : sym) (k : dkind) (v : vis) (n : ident) : rdef := mkRdef s k v n.
  Definition type_var : dkind := DType 0 CtorOpaque.

  (** resolve.rs:306-393 [resolve_type]. *)
  Fixpoint resolve_type (c : scope) (t : xty) : rm irty :=
    match t with
    | XInt => rret IrInt | XBool => rret IrBool | XString => rret IrString
    | XFn a b => a' <<- resolve_type c a ;; b' <<- resolve_type c b ;; rret (IrFn a' b')
    | XNamed n args =>
      s <<- match lookup_text (sc_types c) (id_text n) with
            | Some s => _ <<- record_ref (mkRref s n) ;; rret (Some s)
            | None => _ <<- record_error ;; rret None
            end ;;
      args' <<- (fix go (l : list xty) : rm (list irty) :=
                   match l with [] => rret [] | t :: r => t' <<- resolve_type c t ;; r' <<- go r ;; rret (t' :: r') end) args ;;
      rret match s with Some s => IrNamed s args' | None => IrError end
    | XParen t => resolve_type c t
    end.
  (** 461: the first character of the name is a lower case letter. *)
  Definition lower (t : list N) : bool := match t with c :: _ => (97 <=? c)%N && (c <=? 122)%N | [] => false end.
  (** resolve.rs:395-493 [resolve_type_with_vars]: also the scope with the type variables, and these. *)
  Fixpoint resolve_type_vars (t : xty) (c : scope) (vars : list sym) : rm (irty * scope * list sym) :=
    match t with
    | XInt => rret (IrInt, c, vars) | XBool => rret (IrBool, c, vars) | XString => rret (IrString, c, vars)
    | XFn a b =>
      p <<- resolve_type_vars a c vars ;; let '(a', c1, v1) := p in
      q <<- resolve_type_vars b c1 v1 ;; let '(b', c2, v2) := q in rret (IrFn a' b', c2, v2)
    | XNamed n args =>
      p <<- match lookup_text (sc_types c) (id_text n) with
            | Some s => _ <<- record_ref (mkRref s n) ;; rret (Some s, c, vars)
            | None =>
              if lower (id_text n) && match args with [] => true | _ => false end then
                s <<- fresh ;; _ <<- record_def (def_new s type_var Local n) ;;
                rret (Some s, add_type (id_text n) s c, vars ++ [s])
              else _ <<- record_error ;; rret (None, c, vars)
            end ;;
      let '(s, c1, v1) := p in
      q <<- (fix go (l : list xty) (c : scope) (vars : list sym) : rm (list irty * scope * list sym) :=
               match l with
               | [] => rret ([], c, vars)
               | t :: r =>
                 p <<- resolve_type_vars t c vars ;; let '(t', c1, v1) := p in
                 q <<- go r c1 v1 ;; let '(r', c2, v2) := q in rret (t' :: r', c2, v2)
               end) args c1 v1 ;;
      let '(args', c2, v2) := q in
      rret (match s with Some s => IrNamed s args' | None => IrError end, c2, v2)
    | XParen t => resolve_type_vars t c vars
    end.
  Definition resolve_ann (ann : option xty) (c : scope) : rm (option (list sym * irty) * scope) :=
    match ann with
    | None => rret (None, c)
    | Some t => p <<- resolve_type_vars t c [] ;; let '(t', c', vars) := p in rret (Some (vars, t'), c')
    end.

  (** resolve.rs:727-741: the variables of a pattern. *)
  Fixpoint resolve_vars (xs : list ident) (c : scope) : rm (list sym * scope) :=
    match xs with
    | [] => rret ([], c)
    | x :: r =>
      s <<- fresh ;; _ <<- record_def (def_new s (DValue [] IrInfer) Local x) ;;
      p <<- resolve_vars r (add_value (id_text x) s c) ;; rret (s :: fst p, snd p)
    end.
  (** resolve.rs:710-722: the constructor of a pattern. *)
  Definition resolve_ctor (c : scope) (n : ident) : rm (option sym) :=
    match lookup_text (sc_ctors c) (id_text n) with
    | Some s => _ <<- record_ref (mkRref s n) ;; rret (Some s)
    | None => _ <<- record_error ;; rret None
    end.
  (** resolve.rs:525-672 [resolve_expr] and 674-745 [resolve_match_case]. *)
  Fixpoint resolve_expr (e : xexpr) (c : scope) : rm rexpr :=
    match e with
    | XName n =>                                                   (* 527-540 *)
      match lookup_text (sc_values c) (id_text n) with
      | Some s => _ <<- record_ref (mkRref s n) ;; rret (RName s)
      | None => _ <<- record_error ;; rret (RHole [])
      end
    | XApply f a => f' <<- resolve_expr f c ;; a' <<- resolve_expr a c ;; rret (RApply f' a')
    | XBinary a o b => a' <<- resolve_expr a c ;; b' <<- resolve_expr b c ;; rret (RBinary a' o b')
    | XPipe a f => a' <<- resolve_expr a c ;; f' <<- resolve_expr f c ;; rret (RPipe a' f')
    | XLet n ann v e =>                                            (* 587-612 *)
      p <<- resolve_ann ann c ;;
      v' <<- resolve_expr v (snd p) ;;
      s <<- fresh ;; _ <<- record_def (def_new s (ann_def (fst p)) Local n) ;;
      e' <<- resolve_expr e (add_value (id_text n) s c) ;;
      rret (RLet s (fst p) v' e')
    | XMatch d cases =>                                            (* 613-620 *)
      d' <<- resolve_expr d c ;;
      cs <<- (fix go (l : list (ident * list ident * xexpr)) : rm (list (sym * list sym * rexpr)) :=
                match l with
                | [] => rret []
                | ((n, xs), b) :: r =>
                  k <<- resolve_ctor c n ;;
                  p <<- resolve_vars xs c ;;
                  b' <<- resolve_expr b (snd p) ;;
                  r' <<- go r ;;
                  rret (match k with Some s => ((s, fst p), b') :: r' | None => r' end)
                end) cases ;;
      rret (RMatch d' cs)
    | XIf a b d => a' <<- resolve_expr a c ;; b' <<- resolve_expr b c ;; d' <<- resolve_expr d c ;; rret (RIf a' b' d')
    | XBoolean b => rret (RBoolean b)
    | XNumber n => rret (RNumber n)
    | XStr s => rret (RStr s)
    | XLam fold n b =>                                             (* 646-665 *)
      s <<- fresh ;; _ <<- record_def (def_new s (DValue [] IrInfer) Local n) ;;
      b' <<- resolve_expr b (add_value (id_text n) s c) ;; rret (RLam fold s b')
    | XParens e => e' <<- resolve_expr e c ;; rret (RParen e')
    | XHole t => rret (RHole t)
    end.

  (** resolve.rs:177-202: the parameters of a type. *)
  Fixpoint resolve_params (ps : list ident) (c : scope) : rm (list sym * scope) :=
    match ps with
    | [] => rret ([], c)
    | p :: r =>
      s <<- fresh ;; _ <<- record_def (def_new s type_var Local p) ;;
      q <<- resolve_params r (add_type (id_text p) s c) ;; rret (s :: fst q, snd q)
    end.
  Fixpoint resolve_fields (c : scope) (fs : list (option xty)) : rm (list (option irty)) :=
    match fs with
    | [] => rret []
    | None :: r => r' <<- resolve_fields c r ;; rret (None :: r')
    | Some t :: r => t' <<- resolve_type c t ;; r' <<- resolve_fields c r ;; rret (Some t' :: r')
    end.
  (** resolve.rs:233-304 [resolve_type_case], for every case; [seen] are the names so far. *)
  Fixpoint resolve_cases (v : vis) (ty : sym) (ps : list sym) (c : scope) (seen : list (list N)) (cs : list (ident * list (option xty)))
    : rm (list (sym * list (option irty))) :=
    match cs with
    | [] => rret []
    | (n, fs) :: r =>
      fs' <<- resolve_fields c fs ;;
      if existsb (text_eqb (id_text n)) seen then
        _ <<- record_error ;; resolve_cases v ty ps c seen r
      else
        s <<- fresh ;; _ <<- record_def (def_new s (DCtor (mkDctor ty ps fs') (ctor_fn_ty ty ps fs')) v n) ;;
        r' <<- resolve_cases v ty ps c (id_text n :: seen) r ;; rret ((s, fs') :: r')
    end.
  (** resolve.rs:80-92 [resolve_item], 177-231, 495-523. *)
  Definition resolve_item (i : xitem) (c : scope) : rm ritem :=
    match i with
    | XType n export export_cases params cases =>
      s <<- fresh ;;
      p <<- resolve_params params c ;;
      cs <<- resolve_cases (if export_cases then Export else Module) s (fst p) (snd p) [] cases ;;
      _ <<- record_def (def_new s (DType (length (fst p)) (CtorList (map fst cs))) (if export then Export else Module) n) ;;
      rret (RTy s (fst p) cs)
    | XValue n export ann body =>
      p <<- resolve_ann ann c ;;
      s <<- fresh ;;
      _ <<- record_def (def_new s (ann_def (fst p)) (if export then Export else Module) n) ;;
      b <<- match body with
            | inl b => rret (inl b)
            | inr e => e' <<- resolve_expr e (snd p) ;; rret (inr e')
            end ;;
      rret (RVal s (fst p) (if export then Some (id_text n) else None) b)
    end.

  (** compiler/ir.rs:8-16 [Item], after resolution. *)
  Record unit_item := mkUnitItem { ui_tree : ritem; ui_defs : list rdef; ui_refs : list rref; ui_ok : bool }.
  (** lib.rs:113-131: items one after the other, the scope growing. *)
  Fixpoint resolve_items (next : nat) (c : scope) (xs : list xitem) : list unit_item :=
    match xs with
    | [] => []
    | x :: r =>
      let '(t, s) := resolve_item x c (mkRstate next [] [] true) in
      mkUnitItem t (st_defs s) (st_refs s) (st_ok s) :: resolve_items (st_next s) (add_defs c (st_defs s)) r
    end.
  Definition resolve_unit (xs : list xitem) : list unit_item := resolve_items 0 (mkScope [] [] []) xs.
End Resolver.
