(** Model of the information about a name, ticc/src/api/info.rs and the type printer of ticc/src/api.rs. *)
From Verif Require Export TypeckProg Nav.
Set Implicit Arguments.

Section Print.
  Variable name : sym -> list N.
  (** api.rs:55-113 [TypePrinter::print_type_prec]; the pieces pushed to the string are concatenated. *)
  Fixpoint hover_type (prec : nat) (t : irty) : list N :=
    match t with
    | IrInt => [105;110;116]%N
    | IrBool => [98;111;111;108]%N
    | IrString => [115;116;114;105;110;103]%N
    | IrNamed s args =>
      let parens := (2 <=? prec) && (0 <? length args) in
      (if parens then [40%N] else []) ++ name s ++
      (fix go (l : list irty) : list N := match l with [] => [] | t :: r => 32%N :: hover_type 2 t ++ go r end) args ++
      (if parens then [41%N] else [])
    | IrFn a b =>
      (if 1 <=? prec then [40%N] else []) ++ hover_type 1 a ++ [32;45;62;32]%N ++ hover_type 0 b ++ (if 1 <=? prec then [41%N] else [])
    | IrError => [63%N]
    | IrInfer => [95%N]
    | IrFolded a b => [123%N] ++ hover_type 0 a ++ [32;61;62;32]%N ++ hover_type 0 b ++ [125%N]
    end.
End Print.
(** api.rs:115-127 [lookup_name]; the cache only saves the search. *)
Definition hover_name (items : list nitem) (s : sym) : list N :=
  match find_def items s with Some d => id_text (d_name d) | None => [63;63;63]%N end.
(** typeck.rs:72-78: after an item is checked, its definitions without a declared type have the types found,
    [ts]. *)
Definition value_type (ts : sym -> irty) (s : sym) (t : irty) : irty := match t with IrInfer => ts s | _ => t end.
(** info.rs:20-44: what is said about a definition after its name; 30-36 for types.  Modules are not modelled. *)
Definition kind_doc (ts : sym -> irty) (items : list nitem) (d : rdef) : list N :=
  match d_kind d with
  | DValue _ t => hover_type (hover_name items) 0 (value_type ts (d_sym d) t)
  | DCtor _ t => hover_type (hover_name items) 0 t
  | DType n _ => fold_left (fun k _ => k ++ [32;45;62;32;42]%N) (seq 0 n) [42%N]
  end.
(** api.rs:39-42 [find_def_or_ref_at]: the symbol and the name under the position. *)
Definition symbol_at (l : list nitem) (pos : nat) : option (sym * ident) :=
  match find_ref_at l pos with
  | Some r => Some (r_sym r, r_name r)
  | None => match find_def_at l pos with Some d => Some (d_sym d, d_name d) | None => None end
  end.
(** info.rs:4-7 [Info]. *)
Definition info := ((nat * nat) * list N)%type.
(** info.rs:14-50 [def_info]. *)
Definition def_info (ts : sym -> irty) (items : list nitem) (pos : nat) : option info :=
  match symbol_at items pos with
  | None => None
  | Some (s, n) =>
    match find_def items s with
    | None => None
    | Some d => Some ((id_at n, id_at n + length (id_text n)), id_text (d_name d) ++ [58;32]%N ++ kind_doc ts items d)
    end
  end.
(** info.rs:9-12 [info_at] where a name is; [expr_info], for the other positions, is not modelled. *)
Definition info_at (sy : nat -> sym) (ts : sym -> irty) (ps : list placed) (pos : nat) (v : nav) : nav * option info :=
  let v := nav_up_to sy ps (pos + 1) v in (v, def_info ts (nv_items v) pos).
