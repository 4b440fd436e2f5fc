(** Model of completions, ticc/src/api/completion.rs:12-70, over the resolver (compiler/resolve.rs, with the sink of
    completion.rs:40-70) and the items of a unit as in Nav.v.  Modules and names with a namespace are left out.

    Completion puts an identifier at the position (22-26), parses the item again and looks at the scope the resolver has
    where it meets that identifier; the parsed item is given here.  Of a scope it looks only at the names, so the
    symbols are left out. *)
From Coq Require Import NArith.
From Verif Require Export Nav.
Set Implicit Arguments.

(** resolve.rs:14-20 [NameUsage], without modules. *)
Inductive usage := UType | UValue | UCtor.
(** The names of a scope and its parents (compiler.rs:14-20). *)
Record kscope := mkKscope { k_values : list (list N); k_types : list (list N); k_ctors : list (list N) }.
Definition k_value (t : list N) (k : kscope) : kscope := mkKscope (t :: k_values k) (k_types k) (k_ctors k).
Definition k_type (t : list N) (k : kscope) : kscope := mkKscope (k_values k) (t :: k_types k) (k_ctors k).
Definition names_in (c : scope) : kscope := mkKscope (map fst (sc_values c)) (map fst (sc_types c)) (map fst (sc_ctors c)).
(** The calls of [on_name]. *)
Definition met := list (ident * usage * kscope).

(** resolve.rs:306-393, [on_name] at 359. *)
Fixpoint met_type (k : kscope) (t : xty) : met :=
  match t with
  | XInt | XBool | XString => []
  | XFn a b => met_type k a ++ met_type k b
  | XNamed n args => (n, UType, k) :: (fix go (l : list xty) : met := match l with [] => [] | t :: r => met_type k t ++ go r end) args
  | XParen t => met_type k t
  end.
Definition member (l : list (list N)) (t : list N) : bool := existsb (text_eqb t) l.
(** resolve.rs:395-493, [on_name] at 449. *)
Fixpoint met_type_vars (t : xty) (k : kscope) : met * kscope :=
  match t with
  | XInt | XBool | XString => ([], k)
  | XFn a b => let '(m, k1) := met_type_vars a k in let '(m', k2) := met_type_vars b k1 in (m ++ m', k2)
  | XNamed n args =>
    let k1 := if member (k_types k) (id_text n) then k
              else if lower (id_text n) && match args with [] => true | _ => false end then k_type (id_text n) k else k in
    let '(m, k2) := (fix go (l : list xty) (k : kscope) : met * kscope :=
                       match l with [] => ([], k) | t :: r => let '(m, k1) := met_type_vars t k in let '(m', k2) := go r k1 in (m ++ m', k2) end) args k1 in
    ((n, UType, k) :: m, k2)
  | XParen t => met_type_vars t k
  end.
Definition met_ann (ann : option xty) (k : kscope) : met * kscope := match ann with None => ([], k) | Some t => met_type_vars t k end.
(** resolve.rs:525-745, [on_name] at 532 and 712. *)
Fixpoint met_expr (e : xexpr) (k : kscope) : met :=
  match e with
  | XName n => [(n, UValue, k)]
  | XApply a b | XBinary a _ b | XPipe a b => met_expr a k ++ met_expr b k
  | XLet n ann v e => fst (met_ann ann k) ++ met_expr v (snd (met_ann ann k)) ++ met_expr e (k_value (id_text n) k)
  | XMatch d cases =>
    met_expr d k ++
    (fix go (l : list (ident * list ident * xexpr)) : met :=
       match l with
       | [] => []
       | ((n, xs), b) :: r => (n, UCtor, k) :: met_expr b (fold_left (fun k x => k_value (id_text x) k) xs k) ++ go r
       end) cases
  | XIf a b c => met_expr a k ++ met_expr b k ++ met_expr c k
  | XBoolean _ | XNumber _ | XStr _ | XHole _ => []
  | XLam _ n b => met_expr b (k_value (id_text n) k)
  | XParens e => met_expr e k
  end.
Fixpoint met_fields (k : kscope) (fs : list (option xty)) : met :=
  match fs with [] => [] | None :: r => met_fields k r | Some t :: r => met_type k t ++ met_fields k r end.
(** resolve.rs:177-304, 495-523. *)
Definition met_item (x : xitem) (k : kscope) : met :=
  match x with
  | XType _ _ _ ps cs => flat_map (fun c => met_fields (fold_left (fun k p => k_type (id_text p) k) ps k) (snd c)) cs
  | XValue _ _ ann body =>
    fst (met_ann ann k) ++ match body with inl _ => [] | inr e => met_expr e (snd (met_ann ann k)) end
  end.

(** completion.rs:66-67: sorted by the name, then equal neighbours merged. *)
Fixpoint text_cmp (a b : list N) : comparison :=
  match a, b with
  | [], [] => Eq | [], _ :: _ => Lt | _ :: _, [] => Gt
  | x :: a, y :: b => match N.compare x y with Eq => text_cmp a b | c => c end
  end.
Fixpoint insert (t : list N) (l : list (list N)) : list (list N) :=
  match l with [] => [t] | x :: r => match text_cmp x t with Gt => t :: l | _ => x :: insert t r end end.
Definition sort (l : list (list N)) : list (list N) := fold_left (fun l t => insert t l) l [].
Fixpoint dedup (l : list (list N)) : list (list N) :=
  match l with
  | [] => []
  | x :: r => match dedup r with y :: r' => if text_eqb x y then y :: r' else x :: y :: r' | [] => [x] end
  end.
(** completion.rs:57-63. *)
Definition k_names (u : usage) (k : kscope) : list (list N) := match u with UType => k_types k | UValue => k_values k | UCtor => k_ctors k end.
(** completion.rs:47-70: the last call of [on_name] for a name on the position stays. *)
Definition offered (x : xitem) (k : kscope) (pos : nat) : option (list (list N)) :=
  fold_left (fun r e => let '(n, u, k) := e in if on n pos then Some (dedup (sort (k_names u k))) else r) (met_item x k) None.

(** completion.rs:16-19: the first item the position is in or at the end of, by its index. *)
Fixpoint find_item (pos : nat) (l : list nitem) (index : nat) : option nat :=
  match l with [] => None | i :: r => if (ni_start i <=? pos) && (pos <=? ni_end i) then Some index else find_item pos r (S index) end.
(** completion.rs:12-33 [completions_at]; [again] is the item with the identifier at the position, parsed again. *)
Definition completions_at (sy : nat -> sym) (ps : list placed) (again : nat -> xitem) (pos : nat) (v : nav) : nav * option (list (list N)) :=
  let v := nav_up_to sy ps pos v in
  (v, match find_item pos (nv_items v) 0 with
      | None => None
      | Some i =>
        let c := fold_left (fun c i => add_defs c (ui_defs (ni_unit i))) (firstn i (nv_items v)) (mkScope [] [] []) in
        offered (again i) (names_in c) pos
      end).
