(** Model of the navigation queries, ticc/src/api.rs:11-57 and api/navigation.rs, over the items of a unit as
    lib.rs:103-137 compiles them, only as far as a query needs. *)
From Verif Require Export Resolve.
Set Implicit Arguments.

(** An item of the source and the position it ends at; the next one starts there (parser.rs:16-42). *)
Record placed := mkPlaced { pl_item : xitem; pl_end : nat }.
(** compiler/ir.rs:8-16: a compiled item with its span. *)
Record nitem := mkNitem { ni_start : nat; ni_end : nat; ni_unit : unit_item }.
(** The compiled items, and the number of symbols made. *)
Record nav := mkNav { nv_items : list nitem; nv_next : nat }.
Definition nav_new : nav := mkNav [] 0.

(** lib.rs:135-137 [compiled_length]. *)
Definition compiled_length (l : list nitem) : nat := match rev l with i :: _ => ni_end i | [] => 0 end.
Section Queries.
  Variable sy : nat -> sym.
  (** lib.rs:113-131: the loop; [at] is the length compiled so far. *)
  Fixpoint compile_from (offset : nat) (ps : list placed) (at_ : nat) (c : scope) (next : nat) : nav :=
    match ps with
    | [] => mkNav [] next
    | p :: r =>
      if offset <=? at_ then mkNav [] next
      else
        let '(t, s) := resolve_item sy (pl_item p) c (mkRstate next [] [] true) in
        let i := mkNitem at_ (pl_end p) (mkUnitItem t (st_defs s) (st_refs s) (st_ok s)) in
        let v := compile_from offset r (pl_end p) (add_defs c (st_defs s)) (st_next s) in
        mkNav (i :: nv_items v) (nv_next v)
    end.
  (** lib.rs:103-133 [compile_up_to]; the scope is built from the items compiled before. *)
  Definition nav_up_to (ps : list placed) (offset : nat) (v : nav) : nav :=
    let len := compiled_length (nv_items v) in
    if offset <=? len then v
    else
      let c := fold_left (fun c i => add_defs c (ui_defs (ni_unit i))) (nv_items v) (mkScope [] [] []) in
      let w := compile_from offset (skipn (length (nv_items v)) ps) len c (nv_next v) in
      mkNav (nv_items v ++ nv_items w) (nv_next w).
  (** 99-101 [compile_to_end]: to the length of the source, which is the end of the last item. *)
  Definition nav_to_end (ps : list placed) (v : nav) : nav :=
    nav_up_to ps (match rev ps with p :: _ => pl_end p | [] => 0 end) v.
End Queries.

(** Positions on a name, both ends included. *)
Definition on (n : ident) (pos : nat) : bool := (id_at n <=? pos) && (pos <=? id_at n + length (id_text n)).
(** An item a position is in. *)
Definition inside (i : nitem) (pos : nat) : bool := negb ((pos <? ni_start i) || (ni_end i <=? pos)).
Section Find.
  Context {A : Type} (f : nitem -> option A).
  Fixpoint first_some (l : list nitem) : option A := match l with [] => None | i :: r => match f i with Some a => Some a | None => first_some r end end.
End Find.
(** api.rs:11-23 [find_ref_at]. *)
Definition find_ref_at (l : list nitem) (pos : nat) : option rref :=
  first_some (fun i => if inside i pos then find (fun r => on (r_name r) pos) (ui_refs (ni_unit i)) else None) l.
(** api.rs:25-37 [find_def_at]. *)
Definition find_def_at (l : list nitem) (pos : nat) : option rdef :=
  first_some (fun i => if inside i pos then find (fun d => on (d_name d) pos) (ui_defs (ni_unit i)) else None) l.
(** api.rs:39-42 [find_def_or_ref_at]; only the symbol is used. *)
Definition find_def_or_ref_at (l : list nitem) (pos : nat) : option sym :=
  match find_ref_at l pos with Some r => Some (r_sym r) | None => match find_def_at l pos with Some d => Some (d_sym d) | None => None end end.
(** api.rs:44-53 [find_def]. *)
Definition find_def (l : list nitem) (s : sym) : option rdef :=
  first_some (fun i => find (fun d => d_sym d =? s) (ui_defs (ni_unit i))) l.
(** navigation.rs:4-13 [find_definition]. *)
Definition find_definition (sy : nat -> sym) (ps : list placed) (pos : nat) (v : nav) : nav * option ident :=
  let v := nav_up_to sy ps (pos + 1) v in
  (v, match find_ref_at (nv_items v) pos with
      | Some r => option_map d_name (find_def (nv_items v) (r_sym r))
      | None => option_map d_name (find_def_at (nv_items v) pos)
      end).
(** navigation.rs:22-25: the definition of a symbol and the item it is in. *)
Definition find_def_item (l : list nitem) (s : sym) : option (nitem * rdef) :=
  first_some (fun i => option_map (pair i) (find (fun d => d_sym d =? s) (ui_defs (ni_unit i)))) l.
(** navigation.rs:26-45: the names of the references to a symbol. *)
Definition refs_to (s : sym) (l : list rref) : list ident := map r_name (filter (fun r => r_sym r =? s) l).
(** navigation.rs:19-47 [find_references]. *)
Definition find_references (sy : nat -> sym) (ps : list placed) (pos : nat) (v : nav) : nav * option (list ident) :=
  let v := nav_up_to sy ps (pos + 1) v in
  match find_def_or_ref_at (nv_items v) pos with
  | None => (v, None)
  | Some s =>
    match find_def_item (nv_items v) s with
    | None => (v, None)
    | Some (i, d) =>
      match d_vis d with
      | Local => (v, Some (refs_to s (ui_refs (ni_unit i))))
      | _ => let v := nav_to_end sy ps v in (v, Some (refs_to s (flat_map (fun i => ui_refs (ni_unit i)) (nv_items v))))
      end
    end
  end.
