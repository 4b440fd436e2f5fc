(** Specification for C44: what it means for generated code to agree with the source.

    [tag] says which constructor of the generated program stands for which constructor of the source (twice:
    as a plain value and as the body of a fold sees it).  [represents] says that a relation between source
    values and core values is the representation of values it should be: numbers, booleans and strings are
    themselves, a constructor value is the tagged list of the representations of its fields, functions are
    functions, and applying related functions to related arguments has related outcomes with the same bound on
    nested calls. *)
From Verif Require Export SrcSem GenSpec.
Set Implicit Arguments.

Definition agree {A B} (R : A -> B -> Prop) (r : res A) (r' : res B) : Prop :=
  match r, r' with
  | Ok v, Ok v' => R v v'
  | Trap m, Trap m' => m = m'
  | Panic, Panic => True
  | OutOfFuel, OutOfFuel => True
  | _, _ => False
  end.

(** The constructors of a program. *)
Definition constructors (root : list item) : list sym :=
  flat_map (fun i => match i with ITy _ _ cases => map fst cases | _ => [] end) (flat root).

Record represents (root : list item) (tag : bool -> sym -> name) (R : sval -> value -> Prop) : Prop := mkRepresents {
  rp_tag : forall f1 c1 f2 c2, In c1 (constructors root) -> In c2 (constructors root) -> tag f1 c1 = tag f2 c2 -> f1 = f2 /\ c1 = c2;
  rp_int : forall i v, R (WInt i) v <-> v = VInt i;
  rp_bool : forall b v, R (WBool b) v <-> v = VBool b;
  rp_str : forall s v, R (WStr s) v <-> v = VStr s;
  rp_con : forall f c fs v, R (WCon f c fs) v <-> In c (constructors root) /\ exists fs', v = VComp (tag f c) fs' /\ Forall2 R fs fs';
  rp_fun : forall f v, is_fun f = true -> R f v -> exists cenv self ps body, v = VFn cenv self ps body;
  rp_apply : forall o n f f' v v', R f f' -> R v v' ->
      agree R (sapply o (types_of (flat root)) n f v) (call_o o n f' [v']) }.

(** The environments after running all items: every value of the program has a name in the generated
    program, bound to a representation of it. *)
Definition env_agrees (root : list item) (N : sym -> name) (R : sval -> value -> Prop) (en : senv) (en' : env) : Prop :=
  forall x, In x (values (flat root)) -> exists v v', lookup x en = Some v /\ lookup (N x) en' = Some v' /\ R v v'.
