(** Model of how a compilation unit is compiled on demand, ticc/src/lib.rs:99-137: a query compiles the items
    up to the position it asks about (api/navigation.rs:5, 19, 35, api/info.rs:11, api/completion.rs:12,
    api/errors.rs:7, codegen.rs:29), and the items compiled before are kept.  A position is the number of items
    up to it; items are given after parsing and resolution, which do not look at types. *)
From Verif Require Export Typeck.
Set Implicit Arguments.

(** What the type checker leaves of an item: the item with types or [None] if it has errors, and the
    definitions with the types it found (typeck.rs:68-74). *)
Definition found_types (types : list (sym * irty)) (p : sym * dkind) : sym * dkind :=
  match p with
  | (x, DValue vars IrInfer) => match assoc x types with Some t => (x, DValue vars t) | None => p end
  | _ => p
  end.
Record compiled := mkCompiled { cu_result : option (item * list (sym * irty)); cu_defs : defset }.
(** lib.rs:121-128, one item.  [defs] are the definitions of earlier items. *)
Definition compile_item (k : nat) (defs : defset) (r : ritem) : out compiled :=
  res <~ check_item k defs r ;;
  match r with
  | RVal x ann _ (inr e) =>
    t <~ type_check k defs x ann e ;;
    Done (mkCompiled res (map (found_types (snd (fst t))) (item_defs r)))
  | _ => Done (mkCompiled res (item_defs r))
  end.
(** lib.rs:115-131, the loop: an item is added to [defs] before its types are found, and not changed there. *)
Fixpoint compile_loop (k : nat) (defs : defset) (rs : list ritem) : out (list compiled) :=
  match rs with
  | [] => Done []
  | r :: rest => c <~ compile_item k defs r ;; cs <~ compile_loop k (item_defs r ++ defs) rest ;; Done (c :: cs)
  end.
(** lib.rs:103-133 [compile_up_to]: [n] items are wanted, those in [cs] are there. *)
Definition compile_up_to (k n : nat) (rs : list ritem) (cs : list compiled) : out (list compiled) :=
  if n <=? length cs then Done cs else
  new <~ compile_loop k (flat_map cu_defs (rev cs)) (firstn (n - length cs) (skipn (length cs) rs)) ;;
  Done (cs ++ new).
(** The queries asked of a unit in turn. *)
Fixpoint queries (k : nat) (rs : list ritem) (ns : list nat) (cs : list compiled) : out (list compiled) :=
  match ns with [] => Done cs | n :: ns => cs' <~ compile_up_to k n rs cs ;; queries k rs ns cs' end.
(** lib.rs:99-101 [compile_to_end] after the queries [ns]; what diagnostics and code generation look at. *)
Definition compiled_after (k : nat) (rs : list ritem) (ns : list nat) : out (list (option (item * list (sym * irty)))) :=
  cs <~ queries k rs (ns ++ [length rs]) [] ;; Done (map cu_result cs).
