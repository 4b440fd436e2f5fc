(** Model of module resolution in the command line driver (ticc/src/main.rs 60-82, 209-306) together with
    the part of the compiler that asks for modules (ticc/src/compiler/resolve.rs 90-126).

    Everything the compiler does with a module apart from asking for its imports is kept abstract: a text
    has a list of import names (in source order, the names of the builtin std modules left out:
    resolve.rs 98 answers those without the resolver), and whether it has errors of its own is any function
    of the text and of what the imports returned. *)
From Coq Require Import List String Ascii Bool Arith Lia.
Import ListNotations.

(** std::path components.  [CCur] occurs only in front of a relative path and [CRoot] only in front of an
    absolute one; that is the form in which PathBuf values are compared (Path::eq compares components). *)
Inductive comp := CRoot | CCur | CUp | CName (s : string).
Definition path := list comp.

Definition comp_eq_dec (a b : comp) : {a = b} + {a <> b}.
Proof. decide equality. apply string_dec. Defined.
Definition path_eq_dec : forall p q : path, {p = q} + {p <> q} := list_eq_dec comp_eq_dec.

(** str::split('/') on an import name: main.rs 249.  [split_slash] of the empty name is one empty segment. *)
Fixpoint split_slash (s : string) : list string :=
  match s with
  | EmptyString => [EmptyString]
  | String c s' =>
      if Ascii.eqb c "/"%char then EmptyString :: split_slash s'
      else match split_slash s' with
           | [] => [String c EmptyString]
           | w :: ws => String c w :: ws
           end
  end.

(** PathBuf::push of one segment without a slash in it, seen on components: main.rs 250.  The empty segment
    and a dot after other components change nothing in the components; a dot in front stays. *)
Definition push (p : path) (seg : string) : path :=
  if String.eqb seg "" then p
  else if String.eqb seg "." then match p with [] => [CCur] | _ => p end
  else if String.eqb seg ".." then p ++ [CUp]
  else p ++ [CName seg].

(** PathBuf::pop: drops the last component, but never the root: main.rs 248. *)
Definition pop (p : path) : path :=
  match p with
  | [CRoot] => p
  | _ => removelast p
  end.

(** ChildResolver::relative_lookup: main.rs 246-253. *)
Definition rel (p : path) (name : string) : path :=
  fold_left push (split_slash name) (pop p).

Section Driver.
  Variable text : Type.
  (** The names a text imports. *)
  Variable imports : text -> list string.
  (** std::fs::read_to_string: any file system that does not change while the driver runs.  A path is read
      through its components (a trailing slash or dot makes no difference in the model). *)
  Variable read : path -> option text.

  (** A compiled module: its text and what each of its imports returned (CompleteUnit; resolve.rs 98-126). *)
  Inductive unit :=
  | Unit (t : text) (outs : list outcome)
  with outcome :=
  | OUnit (u : unit)       (* Ok(unit) *)
  | OCycle                 (* Err(ImportError::ImportCycle) *)
  | OIo.                   (* Err(ImportError::Io) *)

  (** Whether analysing a text whose imports returned [outs] finds errors other than failed imports. *)
  Variable own_errors : text -> list outcome -> bool.

  Definition failed (o : outcome) : bool :=
    match o with OUnit _ => false | _ => true end.

  (** diagnostics.iter().any(|d| d.severity == Error): main.rs 299; a failed import is an error:
      resolve.rs 102-125. *)
  Definition has_errors (u : unit) : bool :=
    match u with Unit t outs => existsb failed outs || own_errors t outs end.

  (** Props: main.rs 215-219.  The cache maps paths to units and [first] is the first module found to have
      errors. *)
  Record props := { cache : list (path * unit); first : option (path * unit) }.
  Definition no_props : props := {| cache := []; first := None |}.

  Fixpoint find_cache (c : list (path * unit)) (p : path) : option unit :=
    match c with
    | [] => None
    | (q, u) :: c' => if path_eq_dec q p then Some u else find_cache c' p
    end.

  (** The imports of one module in order: the items of a text are compiled one after another
      (ticc/src/lib.rs 103-133), each import item asking the resolver once (resolve.rs 98).
      [look] is the resolver of this module; [None] is running out of fuel. *)
  Fixpoint each (look : string -> props -> option (outcome * props)) (names : list string) (st : props)
    : option (list outcome * props) :=
    match names with
    | [] => Some ([], st)
    | n :: ns =>
        match look n st with
        | None => None
        | Some (o, st1) =>
            match each look ns st1 with
            | None => None
            | Some (os, st2) => Some (o :: os, st2)
            end
        end
    end.

  (** <ChildResolver as ModuleResolver>::lookup: main.rs 255-305.  [chain] is the path of this resolver
      followed by those of its parents (main.rs 257-266 walks it), [fuel] bounds the nesting of lookups. *)
  Fixpoint lookup (fuel : nat) (p : path) (parents : list path) (name : string) (st : props)
    : option (outcome * props) :=
    match fuel with
    | O => None
    | S fuel' =>
        let q := rel p name in
        if in_dec path_eq_dec q (p :: parents) then Some (OCycle, st)
        else match find_cache (cache st) q with
        | Some u => Some (OUnit u, st)
        | None =>
            match read q with
            | None => Some (OIo, st)
            | Some t =>
                match each (lookup fuel' q (p :: parents)) (imports t) st with
                | None => None
                | Some (outs, st1) =>
                    let u := Unit t outs in
                    Some (OUnit u,
                          {| cache := (q, u) :: cache st1;
                             first := if has_errors u
                                      then match first st1 with Some e => Some e | None => Some (q, u) end
                                      else first st1 |})
                end
            end
        end
    end.

  (** What a run of the driver shows: main.rs 48-82.  [Rejected p u]: the errors of module [u] at path [p]
      are printed and the process exits with 1.  [Compiled u]: compilation goes on with the root unit. *)
  Inductive result :=
  | CannotOpen
  | Rejected (p : path) (u : unit)
  | Compiled (u : unit).

  Definition driver (fuel : nat) (root : path) : option result :=
    match read root with
    | None => Some CannotOpen
    | Some t =>
        match each (lookup fuel root []) (imports t) no_props with
        | None => None
        | Some (outs, st) =>
            let u := Unit t outs in
            Some (match first st with
                  | Some (q, v) => Rejected q v
                  | None => if has_errors u then Rejected root u else Compiled u
                  end)
        end
    end.
End Driver.

Arguments Unit {text} t outs.
Arguments OUnit {text} u.
Arguments OCycle {text}.
Arguments OIo {text}.
Arguments CannotOpen {text}.
Arguments Rejected {text} p u.
Arguments Compiled {text} u.
