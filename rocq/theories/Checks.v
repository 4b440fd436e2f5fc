(** Static checks and result printing: ticc/src/compiler/numck.rs, ticc/src/compiler/matchck.rs,
    ticc/src/lint/unused.rs, ticc/src/interpreter.rs, ticc-core/src/ir.rs (ByteString Debug). *)
From Verif Require Import Eval Vm.

(** ** Number literals *)

(** Characters are Unicode scalar values.  [char::to_digit(10)]: only the ASCII digits. *)
Definition to_digit10 (c : N) : option N :=
  if ((48 <=? c) && (c <=? 57))%N then Some (c - 48)%N else None.

(** numck.rs:28-31. *)
Inductive parse_error := Overflow | InvalidDigit.
Inductive parse_res := PNum (n : N) | PErr (e : parse_error).

(** numck.rs:37-42: the loop of [parse_int]; [checked_mul]/[checked_add] fail at 2^64. *)
Fixpoint parse_loop (acc : N) (s : list N) : parse_res :=
  match s with
  | [] => PNum acc
  | c :: r =>
    match to_digit10 c with
    | None => PErr InvalidDigit
    | Some d =>
      if (acc * 10 <? W64)%N then
        if (acc * 10 + d <? W64)%N then parse_loop (acc * 10 + d) r else PErr Overflow
      else PErr Overflow
    end
  end.
(** numck.rs:33-43 [parse_int]; [None] is the failed assertion on line 34. *)
Definition parse_int (s : list N) : option parse_res :=
  match s with [] => None | _ => Some (parse_loop 0 s) end.

(** numck.rs:6-26 [check_numbers] on one literal: the diagnostic, if any. *)
Definition check_number (s : list N) : option parse_error :=
  match parse_int s with Some (PErr e) => Some e | _ => None end.

(** Rust's [str::parse::<u64>()] as used at codegen/gen_core.rs:455 (core library
    [from_str_radix]): an optional leading '+', then the same digit loop; empty or a lone sign is an
    error.  [None] is the error ([unwrap] panics). *)
Definition rust_parse_u64 (s : list N) : option N :=
  let digits := match s with 43%N :: r => r | _ => s end in
  match digits with
  | [] => None
  | _ => match parse_loop 0 digits with PNum n => Some n | PErr _ => None end
  end.

(** ** Match checking *)

(** The parts of compiler/ir.rs [Type] that matchck.rs:28-57 looks at. *)
Inductive mty := MNamed (s : name) | MFolded (t : mty) | MError | MOther.
(** compiler/ir.rs [Ctors]. *)
Inductive mctors := CtorList (l : list name) | CtorOpaque.

(** The diagnostics of matchck.rs; [DUnreachable i] carries the index of the case it points at,
    [DMissing] the constructors the message is built from (the message names the first two, or the
    first and the number of the others). *)
Inductive mdiag := DCannotMatch | DUnreachable (i : nat) | DMissing (l : list name).

(** matchck.rs:28-57: the type whose constructors are matched; [inr] gives the diagnostics of an
    early return. *)
Definition match_symbol (t : mty) : name + list mdiag :=
  match t with
  | MNamed s => inl s
  | MFolded (MNamed s) => inl s
  | MFolded MError => inr []
  | MFolded _ => inr [DCannotMatch]
  | MError => inr []
  | MOther => inr [DCannotMatch]
  end.

(** matchck.rs:73-87: the loop over the cases.  A case is [None] when its constructor is missing from
    the syntax or was not resolved ([?] on lines 75, 76).  Returns the diagnostics and the
    constructors not covered, or only the diagnostics on an early return. *)
Fixpoint check_cases (all missing : list name) (i : nat) (cases : list (option name))
  : list mdiag * option (list name) :=
  match cases with
  | [] => ([], Some missing)
  | None :: _ => ([], None)
  | Some c :: r =>
    if existsb (Nat.eqb c) all then
      let d := if existsb (Nat.eqb c) missing then [] else [DUnreachable i] in
      let '(ds, m) := check_cases all (filter (fun x => negb (Nat.eqb x c)) missing) (S i) r in
      (d ++ ds, m)
    else check_cases all missing (S i) r
  end.

(** matchck.rs:18-132 [check].  [discr_ty] is [None] when the scrutinee is missing or untyped;
    [defs] is the lookup of type definitions (line 58-71; a symbol that is not a type is
    [unreachable!], here [None]). *)
Definition check_match (defs : name -> option mctors) (discr_ty : option mty) (cases : list (option name))
  : option (list mdiag) :=
  match discr_ty with
  | None => Some []
  | Some t =>
    match match_symbol t with
    | inr ds => Some ds
    | inl s =>
      match defs s with
      | None => None
      | Some CtorOpaque => Some [DCannotMatch]
      | Some (CtorList all) =>
        let '(ds, m) := check_cases all all 0 cases in
        Some (ds ++ match m with Some (c :: l) => [DMissing (c :: l)] | _ => [] end)
      end
    end
  end.

(** ** Unused definitions *)

(** compiler/ir.rs [DefKind], [Visibility], [Def]: what lint/unused.rs looks at.  [ud_name] is the
    source text of the definition's span. *)
Inductive ukind := KValue | KCtor | KType (is_var : bool) | KModule.
Record udef := mkUDef { ud_sym : name; ud_kind : ukind; ud_export : bool; ud_name : list N }.
(** compiler/ir.rs [Item]: definitions and the symbols of its references. *)
Record uitem := mkUItem { ui_defs : list udef; ui_refs : list name }.

(** lint/unused.rs:11-19: symbols inserted into [used] by the first loop. *)
Definition item_used (it : uitem) : list name :=
  ui_refs it ++
  flat_map (fun d => (match ud_kind d with KType true => [ud_sym d] | _ => [] end) ++
                     (if ud_export d then [ud_sym d] else [])) (ui_defs it).
(** lint/unused.rs:14-17. *)
Definition item_type (it : uitem) : option name :=
  match find (fun d => match ud_kind d with KType false => true | _ => false end) (ui_defs it) with
  | Some d => Some (ud_sym d) | None => None
  end.
(** lint/unused.rs:25-29: constructor -> type, oldest first. *)
Definition item_deps (it : uitem) : list (name * name) :=
  match item_type it with
  | None => []
  | Some t => flat_map (fun d => match ud_kind d with KCtor => [(ud_sym d, t)] | _ => [] end) (ui_defs it)
  end.
(** lint/unused.rs:32-33. *)
Definition used_set (items : list uitem) : list name :=
  let used := flat_map item_used items in
  let deps := rev (flat_map item_deps items) in
  used ++ flat_map (fun s => match lookup s deps with Some t => [t] | None => [] end) used.
(** lint/unused.rs:35-49: the reported definitions, in order. *)
Definition unused (items : list uitem) : list udef :=
  filter (fun d =>
    match ud_kind d with
    | KModule => false
    | _ => negb (existsb (Nat.eqb (ud_sym d)) (used_set items)) &&
           negb (match ud_name d with c :: _ => N.eqb c 95 | [] => false end)
    end) (flat_map ui_defs items).

(** ** Printing of results *)

(** ir.rs:228-234 [hex_digit]. *)
Definition hex_digit (n : N) : N := if (n <? 10)%N then (48 + n)%N else (97 + (n - 10))%N.
(** ir.rs:237-255: one byte. *)
Definition show_byte (b : N) : list N :=
  if ((32 <=? b) && (b <=? 126))%N then [b]
  else if N.eqb b 13 then [92; 114]%N
  else if N.eqb b 10 then [92; 110]%N
  else [92; 120; hex_digit (b / 16); hex_digit (b mod 16)]%N.
(** ir.rs:226-258. *)
Definition show_bytes (s : bytes) : list N := 34%N :: flat_map show_byte s ++ [34%N].

(** interpreter.rs:93-125 [write_value]; [names] is [original_name]. *)
Definition true_text : list N := [116; 114; 117; 101]%N.
Definition false_text : list N := [102; 97; 108; 115; 101]%N.
Definition fn_text : list N := [92; 95; 32; 45; 62; 32; 95]%N.
Fixpoint write_value (names : name -> list N) (atom : bool) (v : obs) : list N :=
  match v with
  | OInt i => int_to_string i
  | OBool true => true_text
  | OBool false => false_text
  | OString s => show_bytes s
  | OComp c fs =>
    let paren := atom && negb (length fs =? 0) in
    (if paren then [40%N] else []) ++ names c ++
    flat_map (fun f => 32%N :: write_value names true f) fs ++
    (if paren then [41%N] else [])
  | OFn => if atom then 40%N :: fn_text ++ [41%N] else fn_text
  end.

(** interpreter.rs:17-40 [do_eval]: the printed exports. [runner] is the runner applied to the
    (already optimized) program. *)
Definition export_list (p : program) : list (bytes * name) :=
  flat_map (fun d => match vd_export d with Some n => [(n, vd_name d)] | None => [] end) (p_defs p).
Definition do_eval (names : name -> list N) (runner : program -> list expr -> res (list obs)) (p : program)
  : res (list N) :=
  vs <- runner p (map (fun e => EName (snd e)) (export_list p)) ;;
  Ok (flat_map (fun nv => fst (fst nv) ++ [32; 61; 32]%N ++ write_value names false (snd nv) ++ [10%N])
               (combine (export_list p) vs)).

(** ** Running main *)

Definition main_text : bytes := [109; 97; 105; 110]%N.
(** interpreter.rs:58-66. *)
Definition is_main_ty (t : ty) : bool :=
  match t with TFn [TString] TString => true | _ => false end.
Definition is_main (d : valdef) : bool :=
  match vd_export d with
  | Some n => if list_eq_dec N.eq_dec n main_text then true else false
  | None => false
  end.
Inductive main_res := MainName (n : name) | MainInvalid | MainNone.
(** interpreter.rs:54-73: scans the definitions from the last one, overwriting [main]. *)
Fixpoint scan_main (acc : option name) (ds : list valdef) : main_res :=
  match ds with
  | [] => match acc with Some n => MainName n | None => MainNone end
  | d :: r =>
    if is_main d then
      if is_main_ty (vd_ty d) then scan_main (Some (vd_name d)) r else MainInvalid
    else scan_main acc r
  end.
Definition find_main (p : program) : main_res := scan_main None (rev (p_defs p)).

(** interpreter.rs:51-91 [do_eval_main] (the verifier call is left out). *)
Inductive main_outcome := MainOut (s : bytes) | MainTrap (m : bytes) | MainErrInvalid | MainErrNone | MainPanic | MainRunning.
Definition do_eval_main (runner : program -> list expr -> res (list obs)) (p : program) (input : bytes) : main_outcome :=
  match find_main p with
  | MainInvalid => MainErrInvalid
  | MainNone => MainErrNone
  | MainName m =>
    match runner p [ECall (EName m) [EString input]] with
    | Ok [OString s] => MainOut s
    | Ok _ => MainPanic
    | Trap msg => MainTrap msg
    | Panic => MainPanic
    | OutOfFuel => MainRunning
    end
  end.

(** import.rs:5-28 [collect_exports] restricted to values: later insertions into the map win, so the
    definition an importer sees under a name is the last exported one. *)
Definition visible_export (p : program) (n : bytes) : option valdef :=
  find (fun d => match vd_export d with
                 | Some m => if list_eq_dec N.eq_dec m n then true else false
                 | None => false end) (rev (p_defs p)).
