(** The parser.  Models ticc/src/compiler/parser.rs, parser/expr.rs, parser/type_.rs, parser/item.rs,
    the tree builder ticc-syntax/src/lib.rs:233-328 and the item loop ticc/src/lib.rs:103-137.
    Texts are lists of bytes; positions are byte offsets (u32 in the code, unbounded here).  Error
    messages are not modelled, only the span of each error.  The native call stack is unbounded. *)
From Verif Require Export Lexer.

(** ticc-syntax/src/lib.rs:7-43 [SyntaxKind]. *)
Inductive skind : Type :=
| ImportItem | ExposedList | TypeItem | ValueItem | TypeParams | TypeCase
| IntType | BoolType | StringType | FnType | NamedType | ParenType | ErrType | RecField | TypeField
| NameExpr | NamespacedNameExpr | ApplyExpr | BinaryExpr | LetExpr | MatchExpr | IfExpr
| BoolExpr | NumberExpr | StringExpr | LambdaExpr | ParenExpr | HoleExpr | MatchCase | MatchVars | BinaryOp
| NameNode | ErrorNode | Root.

(** parser.rs:43-52 [Event].  The diagnostic is its span. *)
Inductive event : Type :=
| EStart (k : skind) (forward_parent : option nat)
| EErr (span : nat * nat)
| ETok (k : kind)
| EFinish
| EHole.                                                                    (* Placeholder *)

(** parser.rs:70-76. *)
Inductive hint : Type := HItem | HType | HExpr | HOperator.

(** parser.rs:316-370 [classify_token]: the token kinds of ticc-syntax are those of the lexer minus the
    three trivia kinds, under the same names, so one type serves for both. *)
Definition trivia (k : kind) : bool := match k with KSpace | KNewline | KComment => true | _ => false end.

(** parser.rs:452-502 [starts_with_token]. *)
Definition hint_starts (h : hint) (k : kind) : bool :=
  match h, k with
  | HItem, (KType | KExport | KLet) => true
  | HType, (KInt | KBool | KStringTy | KRec | KLeftParen | KName) => true
  | HExpr, (KLet | KMatch | KIf | KTrue | KFalse | KLeftParen | KBackslash | KName | KHole | KNumber | KString) => true
  | HOperator, (KPlus | KMinus | KStar | KSlash | KPercent | KLess | KLessEq | KGreater | KGreaterEq | KEqEq
               | KNotEq | KArgPipe) => true
  | _, _ => false
  end.

(** parser.rs:54-62 [Parser].  [off] is the source position of the first token of [toks]; [cur] is the
    end of [current_pos] (a span of length 0). *)
Record pstate := mkP {
  sol : bool;                    (* at_start_of_line *)
  toks : list token;
  off : nat;
  cur : nat;
  evs : list event;
  hints : list hint;
  expd : list kind               (* expected_tokens *)
}.

(** Every Rust panic is [Panic]; [Fuel] is the model's own bound, shown never to be reached. *)
Inductive res (A : Type) : Type := Ok (a : A) | Panic | Fuel.
Arguments Ok {A}. Arguments Panic {A}. Arguments Fuel {A}.
Definition M (A : Type) : Type := pstate -> res (A * pstate).
Definition ret {A} (a : A) : M A := fun p => Ok (a, p).
Definition bind {A B} (m : M A) (f : A -> M B) : M B :=
  fun p => match m p with Ok (a, p') => f a p' | Panic => Panic | Fuel => Fuel end.
Definition panic {A} : M A := fun _ => Panic.
Definition fuel_out {A} : M A := fun _ => Fuel.
Declare Scope par_scope.
Delimit Scope par_scope with par.
Open Scope par_scope.
Notation "x <- m ;; f" := (bind m (fun x => f)) (at level 61, m at next level, right associativity) : par_scope.
Notation "m ;; f" := (bind m (fun _ => f)) (at level 61, right associativity) : par_scope.

Definition set_evs (p : pstate) (e : list event) : pstate :=
  mkP (sol p) (toks p) (off p) (cur p) e (hints p) (expd p).

(** parser.rs:92-94. *)
Definition hint_ (h : hint) : M unit :=
  fun p => Ok (tt, mkP (sol p) (toks p) (off p) (cur p) (evs p) (hints p ++ [h]) (expd p)).

(** parser.rs:96-107 [peek]: trivia in front is dropped. *)
Fixpoint skip_trivia (s : bool) (o : nat) (ts : list token) : bool * nat * list token :=
  match ts with
  | (k, t) :: r => if trivia k then skip_trivia (keqb k KNewline) (o + length t) r else (s, o, ts)
  | [] => (s, o, [])
  end.
Definition head_kind (ts : list token) : option kind := match ts with (k, _) :: _ => Some k | [] => None end.
Definition peek : M (option kind) := fun p =>
  let '(s, o, ts) := skip_trivia (sol p) (off p) (toks p) in
  Ok (head_kind ts, mkP s ts o (cur p) (evs p) (hints p) (expd p)).

(** parser.rs:109-121 [bump_any]. *)
Definition bump_any : M unit :=
  peek ;;
  fun p => match toks p with
  | [] => Panic                                                  (* assert!(!self.at_eof()) *)
  | (k, t) :: r =>
    if trivia k then Panic
    else Ok (tt, mkP (keqb k KNewline) r (off p + length t) (off p + length t) (evs p ++ [ETok k]) [] [])
  end.

Definition is_kind (o : option kind) (k : kind) : bool := match o with Some k' => keqb k' k | None => false end.
(** parser.rs:123-128 [at]. *)
Definition at_ (k : kind) : M bool :=
  (fun p => Ok (tt, if keqb k KError then p
                    else mkP (sol p) (toks p) (off p) (cur p) (evs p) (hints p) (expd p ++ [k]))) ;;
  o <- peek ;;
  ret (is_kind o k).
(** parser.rs:130-132. *)
Definition at_eof : M bool := o <- peek ;; ret (match o with None => true | Some _ => false end).
(** parser.rs:134-137. *)
Definition bump (k : kind) : M unit := b <- at_ k ;; if b then bump_any else panic.

(** parser.rs:145-150 [start]: the marker is its position. *)
Definition start : M nat := fun p => Ok (length (evs p), set_evs p (evs p ++ [EHole])).
Fixpoint set_nth {A} (l : list A) (i : nat) (a : A) : list A :=
  match l, i with [], _ => [] | _ :: l, O => a :: l | x :: l, S i => x :: set_nth l i a end.
(** parser.rs:245-258 [Marker::complete].  That every marker is completed (lines 261-267) is visible in the
    text of the functions below. *)
Definition complete (m : nat) (k : skind) : M nat := fun p =>
  match nth_error (evs p) m with
  | Some EHole => Ok (m, set_evs p (set_nth (evs p) m (EStart k None) ++ [EFinish]))
  | _ => Panic
  end.
(** parser.rs:270-281 [CompletedMarker::precede]. *)
Definition precede (m : nat) : M nat :=
  x <- start ;;
  fun p => match nth_error (evs p) m with
  | Some (EStart k None) => Ok (x, set_evs p (set_nth (evs p) m (EStart k (Some x))))
  | _ => Panic
  end.

(** parser.rs:139-143. *)
Definition bump_name : M unit := m <- start ;; bump KName ;; complete m NameNode ;; ret tt.

(** parser.rs:174-219 [emit_error].  Sorting and removing duplicates only affect the message. *)
Definition emit_error : M unit :=
  o <- peek ;;
  (fun p => if is_kind o KError then Ok (tt, p)
            else let e := filter (fun t => forallb (fun h => negb (hint_starts h t)) (hints p)) (expd p) in
                 match hints p, e with
                 | [], [] => Panic                               (* no expectations *)
                 | _, _ => Ok (tt, mkP (sol p) (toks p) (off p) (cur p) (evs p) (hints p) e)
                 end) ;;
  peek ;;
  (fun p => Ok (tt, set_evs p (evs p ++ [EErr (match toks p with
                                               | (_, t) :: _ => (off p, off p + length t)
                                               | [] => (cur p, cur p) end)]))) ;;
  b <- at_ KError ;;
  if b then bump KError else ret tt.

(** parser.rs:152-158 [expect]; 160-166 [expect_name]. *)
Definition expect (k : kind) : M unit := b <- at_ k ;; if b then bump k else emit_error.
Definition expect_name : M unit := b <- at_ KName ;; if b then bump_name else emit_error.

(** parser.rs:221-230 [error_recover]. *)
Definition error_recover (h : hint) : M unit :=
  emit_error ;;
  o <- peek ;;
  match o with
  | Some k => if hint_starts h k then ret tt
              else m <- start ;; bump_any ;; complete m ErrorNode ;; ret tt
  | None => ret tt
  end.

(** A [while] loop whose condition and body are one step that says whether to go on. *)
Fixpoint while_ (n : nat) (body : M bool) : M unit :=
  match n with
  | O => fuel_out
  | S n => b <- body ;; if b then while_ n body else ret tt
  end.
(** The same, threading a value. *)
Fixpoint while_with {A} (n : nat) (body : A -> M (option A)) (a : A) : M A :=
  match n with
  | O => fuel_out
  | S n => o <- body a ;; match o with Some a' => while_with n body a' | None => ret a end
  end.

(** parser.rs:232-242 [error_recover_item]. *)
Definition recovers (s : bool) (k : kind) : bool := match k with KExport | KType => true | KLet => s | _ => false end.
Definition error_recover_item (n : nat) : M unit :=
  emit_error ;;
  m <- start ;;
  while_ n (o <- peek ;;
            match o with
            | Some k => fun p => if recovers (sol p) k then Ok (false, p) else (bump k ;; ret true) p
            | None => ret false
            end) ;;
  complete m ErrorNode ;; ret tt.

(** Types.  type_.rs:3-20 [type_], 22-36 [non_fn_type], 38-76 [atom_type]. *)
Definition dotted : M unit := b <- at_ KDot ;; if b then bump KDot ;; expect_name else ret tt.
Fixpoint type_ (n : nat) : M unit :=
  match n with
  | O => fuel_out
  | S n =>
    hint_ HType ;;
    o <- non_fn_type n ;;
    match o with
    | None => error_recover HType
    | Some m =>
      b <- at_ KArrow ;;
      if b then m <- precede m ;; bump KArrow ;; type_ n ;; complete m FnType ;; ret tt
      else ret tt
    end
  end
with non_fn_type (n : nat) : M (option nat) :=
  match n with
  | O => fuel_out
  | S n =>
    b <- at_ KName ;;
    if b then
      m <- start ;; bump_name ;; dotted ;;
      while_ n (o <- atom_type n ;; ret (match o with Some _ => true | None => false end)) ;;
      m <- complete m NamedType ;; ret (Some m)
    else atom_type n
  end
with atom_type (n : nat) : M (option nat) :=
  match n with
  | O => fuel_out
  | S n =>
    hint_ HType ;;
    b <- at_ KInt ;; if b then m <- start ;; bump KInt ;; m <- complete m IntType ;; ret (Some m) else
    b <- at_ KBool ;; if b then m <- start ;; bump KBool ;; m <- complete m BoolType ;; ret (Some m) else
    b <- at_ KStringTy ;; if b then m <- start ;; bump KStringTy ;; m <- complete m StringType ;; ret (Some m) else
    b <- at_ KName ;;
    if b then m <- start ;; bump_name ;; dotted ;; m <- complete m NamedType ;; ret (Some m) else
    b <- at_ KLeftParen ;;
    if b then
      m <- start ;; bump KLeftParen ;; type_ n ;; expect KRightParen ;; m <- complete m ParenType ;; ret (Some m)
    else
    b <- at_ KRec ;;
    if b then emit_error ;; m <- start ;; bump KRec ;; m <- complete m ErrType ;; ret (Some m)
    else ret None
  end.

(** expr.rs:146-165 [binding_power]. *)
Definition binding_power (k : kind) : option (nat * nat) :=
  match k with
  | KPlus | KMinus => Some (7, 8)
  | KStar | KSlash | KPercent => Some (9, 10)
  | KLess | KLessEq | KGreater | KGreaterEq | KEqEq | KNotEq => Some (3, 4)
  | KArgPipe => Some (1, 2)
  | _ => None
  end.

(** `if p.at(Colon) { p.bump(Colon); type_(p) }` (expr.rs:10-13, item.rs:51-54). *)
Definition annotation (n : nat) : M unit := b <- at_ KColon ;; if b then bump KColon ;; type_ n else ret tt.

(** `while p.at(Ident) { p.bump_name() }` (expr.rs:62-64, item.rs:84-86). *)
Definition names (n : nat) : M unit := while_ n (b <- at_ KName ;; if b then bump_name ;; ret true else ret false).

(** Expressions.  expr.rs:3-51 [expr], 53-69 [match_case], 71-92 [op_expr], 94-105 [apply_expr],
    107-144 [atom_expr]. *)
Fixpoint expr (n : nat) : M unit :=
  match n with
  | O => fuel_out
  | S n =>
    hint_ HExpr ;;
    b <- at_ KLet ;;
    if b then
      m <- start ;; bump KLet ;; expect_name ;; annotation n ;; expect KEquals ;; expr n ;;
      expect KSemicolon ;; expr n ;; complete m LetExpr ;; ret tt
    else
    b <- at_ KMatch ;;
    if b then
      m <- start ;; bump KMatch ;; expr n ;; expect KWith ;;
      while_ n (b <- at_ KPipe ;; if b then match_case n ;; ret true else ret false) ;;
      expect KEnd ;; complete m MatchExpr ;; ret tt
    else
    b <- at_ KIf ;;
    if b then
      m <- start ;; bump KIf ;; expr n ;; expect KThen ;; expr n ;; expect KElse ;; expr n ;;
      complete m IfExpr ;; ret tt
    else
    b <- at_ KBackslash ;;
    if b then
      m <- start ;; bump KBackslash ;;
      (b <- at_ KFold ;; if b then bump KFold else ret tt) ;;
      expect_name ;; expect KArrow ;; expr n ;; complete m LambdaExpr ;; ret tt
    else op_expr n 0
  end
with match_case (n : nat) : M unit :=
  match n with
  | O => fuel_out
  | S n =>
    m <- start ;; bump KPipe ;; expect_name ;; dotted ;;
    v <- start ;; names n ;; complete v MatchVars ;;
    expect KArrow ;; expr n ;; complete m MatchCase ;; ret tt
  end
with op_expr (n : nat) (min : nat) : M unit :=
  match n with
  | O => fuel_out
  | S n =>
    hint_ HExpr ;;
    o <- apply_expr n ;;
    match o with
    | None => ret tt
    | Some m =>
      hint_ HOperator ;;
      while_with n (fun m =>
        o <- peek ;;
        match match o with Some k => binding_power k | None => None end with
        | None => ret None
        | Some (power, rp) =>
          if power <? min then ret None
          else
            b <- precede m ;; op <- start ;; bump_any ;; complete op BinaryOp ;; op_expr n rp ;;
            m <- complete b BinaryExpr ;; hint_ HOperator ;; ret (Some m)
        end) m ;;
      ret tt
    end
  end
with apply_expr (n : nat) : M (option nat) :=
  match n with
  | O => fuel_out
  | S n =>
    o <- atom_expr n ;;
    match o with
    | None => emit_error ;; ret None
    | Some m =>
      m <- while_with n (fun m =>
        o <- atom_expr n ;;
        match o with
        | Some _ => m <- precede m ;; m <- complete m ApplyExpr ;; ret (Some m)
        | None => ret None
        end) m ;;
      ret (Some m)
    end
  end
with atom_expr (n : nat) : M (option nat) :=
  match n with
  | O => fuel_out
  | S n =>
    hint_ HExpr ;;
    b <- at_ KLeftParen ;;
    if b then
      m <- start ;; bump KLeftParen ;; expr n ;; expect KRightParen ;; m <- complete m ParenExpr ;; ret (Some m)
    else
    b <- (b <- at_ KTrue ;; if b then ret true else at_ KFalse) ;;
    if b then m <- start ;; bump_any ;; m <- complete m BoolExpr ;; ret (Some m) else
    b <- at_ KNumber ;;
    if b then m <- start ;; bump_any ;; m <- complete m NumberExpr ;; ret (Some m) else
    b <- at_ KString ;;
    if b then m <- start ;; bump_any ;; m <- complete m StringExpr ;; ret (Some m) else
    b <- at_ KName ;;
    if b then
      m <- start ;; bump_name ;;
      b <- at_ KDot ;;
      if b then bump KDot ;; expect_name ;; m <- complete m NamespacedNameExpr ;; ret (Some m)
      else m <- complete m NameExpr ;; ret (Some m)
    else
    b <- at_ KHole ;;
    if b then m <- start ;; bump KHole ;; m <- complete m HoleExpr ;; ret (Some m)
    else ret None
  end.

(** Items.  item.rs:47-59 [value_item]. *)
Definition value_item (n m : nat) : M unit :=
  expect KLet ;; expect_name ;; annotation n ;; expect KEquals ;; expr n ;; expect KSemicolon ;;
  complete m ValueItem ;; ret tt.
(** item.rs:78-88 [type_params]. *)
Definition type_params (n : nat) : M unit :=
  b <- at_ KName ;;
  if b then m <- start ;; names n ;; complete m TypeParams ;; ret tt else ret tt.
(** item.rs:90-109 [type_case]. *)
Definition type_case (n : nat) (pipe_optional : bool) : M unit :=
  m <- start ;;
  (b <- (if pipe_optional then at_ KPipe else ret true) ;; if b then expect KPipe else ret tt) ;;
  expect_name ;;
  while_ n (
    b <- at_ KRec ;;
    if b then m <- start ;; bump KRec ;; complete m RecField ;; ret true
    else
      o <- atom_type n ;;
      match o with
      | Some m => m <- precede m ;; complete m TypeField ;; ret true
      | None => ret false
      end) ;;
  complete m TypeCase ;; ret tt.
(** item.rs:61-76 [type_item]. *)
Definition type_item (n m : nat) : M unit :=
  bump KType ;; expect_name ;; type_params n ;; expect KEquals ;;
  (b <- at_ KExport ;; if b then bump KExport else ret tt) ;;
  type_case n true ;;
  while_ n (b <- at_ KPipe ;; if b then type_case n false ;; ret true else ret false) ;;
  expect KSemicolon ;; complete m TypeItem ;; ret tt.
(** item.rs:111-123 [exposed_list]. *)
Definition exposed_list (n : nat) : M unit :=
  m <- start ;; bump KLeftParen ;;
  while_ n (
    b <- at_ KRightParen ;;
    if b then ret false
    else
      expect_name ;;
      b <- at_ KComma ;;
      if b then bump KComma ;; ret true else ret false) ;;
  expect KRightParen ;; complete m ExposedList ;; ret tt.
(** item.rs:3-45 [item]. *)
Definition item (n : nat) : M unit :=
  hint_ HItem ;;
  b <- at_ KExport ;;
  if b then
    m <- start ;; bump KExport ;;
    b <- at_ KLet ;;
    if b then value_item n m else
    b <- at_ KType ;;
    if b then type_item n m else
    complete m ErrorNode ;; error_recover_item n
  else
  b <- at_ KLet ;;
  if b then m <- start ;; value_item n m else
  b <- at_ KType ;;
  if b then m <- start ;; type_item n m else
  b <- at_ KImport ;;
  if b then
    m <- start ;; bump KImport ;;
    (b <- at_ KName ;; if b then bump_name else ret tt) ;;
    (b <- at_ KLeftParen ;; if b then exposed_list n else ret tt) ;;
    expect KFrom ;; expect KString ;; expect KSemicolon ;; complete m ImportItem ;; ret tt
  else error_recover_item n.

(** parser.rs:284-314 [reorder_forward_parents].  [chain] follows the forward parents from [i], clearing
    them; the result lists the positions visited, last first. *)
Fixpoint chain_from (n : nat) (es : list event) (i : nat) (acc : list nat) : res (list event * list nat) :=
  match n with
  | O => Fuel
  | S n =>
    match nth_error es i with
    | Some (EStart k (Some j)) => chain_from n (set_nth es i (EStart k None)) j (i :: acc)
    | Some (EStart k None) => Ok (es, i :: acc)
    | Some _ => Ok (es, acc)                                                (* while let fails *)
    | None => Panic                                                         (* index out of bounds *)
    end
  end.
Definition take_event (a : list event * list event) (i : nat) : list event * list event :=
  let '(es, out) := a in (set_nth es i EHole, out ++ [nth i es EHole]).
Definition reorder_step (a : list event * list event) (i : nat) : res (list event * list event) :=
  let '(es, out) := a in
  match nth i es EHole with
  | EHole => Ok (es, out)
  | EStart _ (Some _) =>
    match chain_from (S (length es)) es i [] with
    | Ok (es, idx) => Ok (fold_left take_event idx (es, out))
    | Panic => Panic
    | Fuel => Fuel
    end
  | _ => Ok (take_event (es, out) i)
  end.
Fixpoint reorder_loop (a : list event * list event) (is_ : list nat) : res (list event * list event) :=
  match is_ with
  | [] => Ok a
  | i :: is_ => match reorder_step a i with Ok a => reorder_loop a is_ | Panic => Panic | Fuel => Fuel end
  end.
Definition reorder (es : list event) : res (list event) :=
  match reorder_loop (es, []) (List.seq 0 (length es)) with
  | Ok (es', out) => if length es' =? length out then Ok out else Panic     (* assert_eq! *)
  | Panic => Panic
  | Fuel => Fuel
  end.

(** ticc-syntax/src/lib.rs:141-176: the tree.  Spans are (start, end). *)
Inductive stree : Type :=
| SNode (id : nat) (k : skind) (span full : nat * nat) (children : list stree)
| STok (k : kind) (span : nat * nat)
| STrivia (k : kind) (span : nat * nat).

(** lib.rs:233-328 [SyntaxBuilder]: nodes in progress, innermost first, each with its start position and
    its children so far. *)
Record builder := mkB { bstack : list (nat * skind * nat * list stree); bpos : nat }.
(** lib.rs:251-259. *)
Definition start_node (b : builder) (id : nat) (k : skind) : builder := mkB ((id, k, bpos b, []) :: bstack b) (bpos b).
(** lib.rs:261-279. *)
Definition add_leaf (b : builder) (mk : nat * nat -> stree) (len : nat) : res builder :=
  match bstack b with
  | (id, k, s, ch) :: r => Ok (mkB ((id, k, s, ch ++ [mk (bpos b, bpos b + len)]) :: r) (bpos b + len))
  | [] => Panic
  end.
Definition full_of (t : stree) : nat * nat := match t with SNode _ _ _ f _ => f | STok _ s => s | STrivia _ s => s end.
Definition span_of (t : stree) : option (nat * nat) :=
  match t with SNode _ _ s _ _ => Some s | STok _ s => Some s | STrivia _ _ => None end.
Fixpoint first_span (ch : list stree) : option (nat * nat) :=
  match ch with [] => None | t :: r => match span_of t with Some s => Some s | None => first_span r end end.
(** lib.rs:298-327 [finish_node_internal]. *)
Definition finish_internal (id : nat) (k : skind) (s : nat) (ch : list stree) : stree :=
  let full_end := match rev ch with t :: _ => snd (full_of t) | [] => s end in
  let span_start := match first_span ch with Some sp => fst sp | None => s end in
  let span_end := match first_span (rev ch) with Some sp => snd sp | None => s end in
  SNode id k (span_start, span_end) (s, full_end) ch.
(** lib.rs:281-285 [finish_node], 287-296 [finish]. *)
Definition finish_node (b : builder) : res builder :=
  match bstack b with
  | (id, k, s, ch) :: (id', k', s', ch') :: r =>
    Ok (mkB ((id', k', s', ch' ++ [finish_internal id k s ch]) :: r) (bpos b))
  | _ => Panic
  end.
Definition finish (b : builder) : res stree :=
  match bstack b with [(id, k, s, ch)] => Ok (finish_internal id k s ch) | _ => Panic end.

(** parser.rs:372-447 [events_to_node].  [held] is the vector `trivia`. *)
Record nstate := mkN {
  nb : builder; ntoks : list token; held : list token; next_id : nat; since : nat; errors : list (nat * nat) }.
Fixpoint split_trivia (ts : list token) : list token * list token :=
  match ts with
  | (k, t) :: r => if trivia k then let '(a, b) := split_trivia r in ((k, t) :: a, b) else ([], ts)
  | [] => ([], [])
  end.
(** Trivia after a token: up to and including the first newline, and the rest (lines 403-413). *)
Fixpoint split_line (ts : list token) : list token * list token :=
  match ts with
  | (k, t) :: r => if keqb k KNewline then ([(k, t)], r) else let '(a, b) := split_line r in ((k, t) :: a, b)
  | [] => ([], [])
  end.
Fixpoint add_trivias (b : builder) (ts : list token) : res builder :=
  match ts with
  | [] => Ok b
  | (k, t) :: r => match add_leaf b (STrivia k) (length t) with Ok b => add_trivias b r | Panic => Panic | Fuel => Fuel end
  end.
Definition rbind {A B} (r : res A) (f : A -> res B) : res B := match r with Ok a => f a | Panic => Panic | Fuel => Fuel end.
Definition node_step (e : event) (s : nstate) : res nstate :=
  match e with
  | EStart k _ => Ok (mkN (start_node (nb s) (next_id s) k) (ntoks s) (held s) (S (next_id s)) (since s) (errors s))
  | ETok k =>
    rbind (add_trivias (nb s) (held s)) (fun b =>
    match ntoks s with
    | [] => Panic                                                           (* lexer.next().unwrap() *)
    | (k', t) :: r =>
      if trivia k' then Panic
      else if negb (keqb k' k) then Panic                                   (* assert_eq!(actual_kind, kind) *)
      else
        rbind (add_leaf b (STok k) (length t)) (fun b =>
        let '(tr, r) := split_trivia r in
        let '(now, later) := split_line tr in
        rbind (add_trivias b now) (fun b =>
        Ok (mkN b r later (next_id s) (S (since s)) (errors s))))
    end)
  | EFinish => rbind (finish_node (nb s)) (fun b => Ok (mkN b (ntoks s) (held s) (next_id s) (since s) (errors s)))
  | EHole => Panic
  | EErr d => Ok (mkN (nb s) (ntoks s) (held s) (next_id s) 0 (if 2 <=? since s then errors s ++ [d] else errors s))
  end.
Fixpoint node_steps (es : list event) (s : nstate) : res nstate :=
  match es with [] => Ok s | e :: es => rbind (node_step e s) (node_steps es) end.
Definition events_to_node (es : list event) (start_pos : nat) (ts : list token) (eat_all : bool) : res (stree * list (nat * nat)) :=
  let '(tr, r) := split_trivia ts in
  rbind (node_steps es (mkN (start_node (mkB [] start_pos) 0 Root) r tr 1 2 [])) (fun s =>
  rbind (if eat_all then
           rbind (add_trivias (nb s) (held s)) (fun b =>
           if existsb (fun t => negb (trivia (fst t))) (ntoks s) then Panic else add_trivias b (ntoks s))
         else Ok (nb s)) (fun b =>
  rbind (finish b) (fun t => Ok (t, errors s)))).

(** parser.rs:16-41 [parse_one_item]: the tree and the diagnostics' spans.  The bound on steps is
    computed from the number of tokens; it is shown never to be reached. *)
Definition parse_one_item (err : list N -> nat) (source : list N) (start_pos : nat) : res (stree * list (nat * nat)) :=
  let ts := lex err source in
  let p := mkP true ts start_pos start_pos [] [] [] in
  match (e <- at_eof ;; (if e then ret tt else item (10 * length ts + 20)) ;; at_eof) p with
  | Ok (eat_all, p) => rbind (reorder (evs p)) (fun es => events_to_node es start_pos ts eat_all)
  | Panic => Panic
  | Fuel => Fuel
  end.

(** ticc/src/lib.rs:135-137 [compiled_length] and 103-133 [compile_up_to], the parsing part: items already
    there are kept, new ones are parsed from where they end. *)
Definition compiled_length (items : list (stree * list (nat * nat))) : nat :=
  match rev items with (t, _) :: _ => snd (full_of t) | [] => 0 end.
Fixpoint compile_loop (n : nat) (err : list N -> nat) (src : list N) (offset : nat) (items : list (stree * list (nat * nat)))
  : res (list (stree * list (nat * nat))) :=
  match n with
  | O => Fuel
  | S n =>
    let compiled := compiled_length items in
    if (offset <=? compiled) || (compiled =? length src) then Ok items
    else rbind (parse_one_item err (skipn compiled src) compiled) (fun it => compile_loop n err src offset (items ++ [it]))
  end.
Definition compile_up_to (err : list N -> nat) (src : list N) (offset : nat) (items : list (stree * list (nat * nat))) :=
  if offset <=? compiled_length items then Ok items
  else compile_loop (S (length src)) err src offset items.
