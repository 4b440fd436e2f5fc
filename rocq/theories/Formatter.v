(** The source formatter's layout engine.  Models formatter/src/lib.rs. *)
From Verif Require Export Ir.

Definition text := list N.
Definition nl : N := 10%N.
Definition sp : N := 32%N.

(** lib.rs:1-17 [Sticky]. *)
Inductive sticky := Both | Prev | Next | NoStick.
Definition to_prev (s : sticky) : bool := match s with Both | Prev => true | _ => false end.
Definition to_next (s : sticky) : bool := match s with Both | Next => true | _ => false end.

(** lib.rs:105-109 [FormatNode] and 149-154 [Element].  A node keeps its children newest first (the Rust
    [Vec] in reverse), so that the last child is the head. *)
Inductive elem : Type :=
| ETok (t : text) (s : sticky)
| ENode (large indents finished : bool) (children : list elem)
| ENewline
| ELarge.

(** lib.rs:29-41 [FormatBuilder::new]. *)
Definition new_builder : elem := ENode false false false [].

(** lib.rs:42-56 [current_node] applied to an update: the innermost unfinished last node. *)
Fixpoint on_current (f : elem -> elem) (e : elem) : elem :=
  match e with
  | ENode l i fin (c :: r) =>
    match c with
    | ENode _ _ false _ => ENode l i fin (on_current f c :: r)
    | _ => f e
    end
  | _ => f e
  end.
Definition push_child (c : elem) (e : elem) : elem :=
  match e with ENode l i fin ch => ENode l i fin (c :: ch) | _ => e end.
Definition set_finished (e : elem) : elem :=
  match e with ENode l i _ ch => ENode l i true ch | _ => e end.

(** The public calls: lib.rs:58-95. *)
Inductive call :=
| AddToken (t : text)
| AddSticky (t : text) (s : sticky)
| AddNewline
| AddLargeNewline
| AddWhitespace (ws : text)
| StartNode (large indents : bool)
| FinishNode.

Definition do_call (b : elem) (c : call) : elem :=
  match c with
  | AddToken t => on_current (push_child (ETok t NoStick)) b             (* 58-61 *)
  | AddSticky t s => on_current (push_child (ETok t s)) b                (* 63-66 *)
  | AddNewline => on_current (push_child ENewline) b                     (* 68-70 *)
  | AddLargeNewline => on_current (push_child ELarge) b                  (* 72-74 *)
  | AddWhitespace ws =>                                                  (* 76-83 *)
    if existsb (fun c => N.eqb c nl) ws then on_current (push_child ENewline) b else b
  | StartNode l i => on_current (push_child (ENode l i false [])) b      (* 85-91 *)
  | FinishNode => on_current set_finished b                              (* 93-95 *)
  end.
Definition build (cs : list call) : elem := fold_left do_call cs new_builder.

(** lib.rs:112-119 [mark_large]: a node is large if it or a descendant is. *)
Fixpoint mark_large (e : elem) : elem :=
  match e with
  | ENode l i fin ch =>
    let ch' := map mark_large ch in
    ENode (l || existsb (fun c => match c with ENode l' _ _ _ => l' | _ => false end) ch') i fin ch'
  | _ => e
  end.

(** lib.rs:156-169 [IndentNode], [RawBuilder]; the node stack has its top first. *)
Record inode := mkIn { in_indent : nat; in_has_tokens : bool; in_has_newline : bool }.
Record raw := mkRaw { r_out : text; r_stack : list inode; r_has_newline : bool;
                      r_needs_indent : bool; r_needs_space : bool }.
(** lib.rs:172-180. *)
Definition raw_new : raw := mkRaw [] [mkIn 0 true true] true false false.

(** lib.rs:196-204: indentation of the innermost node that has tokens. *)
Fixpoint find_indent (st : list inode) : option nat :=
  match st with
  | [] => None
  | n :: r => if in_has_tokens n then Some (in_indent n) else find_indent r
  end.

(** lib.rs:182-214 [add_token]; [None] is a panic (the assertion, or an [unwrap]). *)
Definition raw_token (t : text) (s : sticky) (r : raw) : option raw :=
  if negb (r_needs_space r) || negb (r_needs_indent r) then
    let out1 := if r_needs_space r && negb (to_prev s) then r_out r ++ [sp] else r_out r in
    match (if r_needs_indent r then
             match find_indent (r_stack r) with
             | Some k => Some (out1 ++ repeat sp (4 * k))
             | None => None
             end
           else Some out1) with
    | None => None
    | Some out2 =>
      match r_stack r with
      | [] => None
      | n :: st => Some (mkRaw (out2 ++ t) (mkIn (in_indent n) true (in_has_newline n) :: st)
                               false false (negb (to_next s)))
      end
    end
  else None.

(** lib.rs:216-224 [add_newline]. *)
Definition raw_newline (r : raw) : option raw :=
  if r_has_newline r then Some r
  else match r_stack r with
       | [] => None
       | n :: st => Some (mkRaw (r_out r ++ [nl]) (mkIn (in_indent n) (in_has_tokens n) true :: st)
                                true true false)
       end.

(** lib.rs:121-146 [format] and 226-238 [RawBuilder::node]. *)
Definition raw_enter (r : raw) : option raw :=
  match r_stack r with
  | [] => None
  | p :: _ => Some (mkRaw (r_out r)
                 (mkIn (in_indent p + (if in_has_newline p then 1 else 0)) false false :: r_stack r)
                 (r_has_newline r) (r_needs_indent r) (r_needs_space r))
  end.
Definition raw_leave (r : raw) : raw :=
  mkRaw (r_out r) (tl (r_stack r)) (r_has_newline r) (r_needs_indent r) (r_needs_space r).
Definition obind {A B} (o : option A) (f : A -> option B) : option B :=
  match o with Some a => f a | None => None end.
Fixpoint fmt (large : bool) (e : elem) (r : raw) : option raw :=
  match e with
  | ETok t s => raw_token t s r
  | ENewline => raw_newline r
  | ELarge => if large then raw_newline r else Some r
  | ENode l ind _ ch =>
    (* children are stored newest first: formatted from the back *)
    let body := fold_right (fun c k r => obind (k r) (fmt l c)) Some ch in
    if ind then option_map raw_leave (obind (raw_enter r) body) else body r
  end.

(** lib.rs:97-102 [finish]. *)
Definition finish (b : elem) : option text :=
  match mark_large b with
  | ENode l _ _ ch => option_map r_out (fmt l (ENode l false false ch) raw_new)
  | _ => None
  end.
Definition format_calls (cs : list call) : option text := finish (build cs).
