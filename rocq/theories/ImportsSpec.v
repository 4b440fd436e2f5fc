(** Specification of module resolution, independent of the resolver: files are found by their place in a
    directory tree and an import name is read as a path from the importing file's directory. *)
From Coq Require Import List String Bool Arith Lia.
From Coq Require Import Relations.
From Verif Require Import Imports.
Import ListNotations.

(** A place in the directory tree: the names of the directories from the root down, then the file's. *)
Definition place := list string.

(** Going one step from a place: up, or down into a name. *)
Definition go (d : place) (c : comp) : place :=
  match c with
  | CRoot => []
  | CCur => d
  | CUp => removelast d
  | CName s => d ++ [s]
  end.

(** The place a path denotes when the process runs in directory [cwd]. *)
Definition place_of (cwd : place) (p : path) : place := fold_left go p cwd.

(** The path ends in a name (and not in a dot-dot, say, which is always a directory). *)
Definition ends_in_name (p : path) : bool :=
  match last p CUp with CName _ => true | _ => false end.

(** How one segment of an import name is meant. *)
Definition seg_comp (s : string) : comp :=
  if String.eqb s "" then CCur
  else if String.eqb s "." then CCur
  else if String.eqb s ".." then CUp
  else CName s.

(** The place an import name denotes in a file at place [f]. *)
Definition import_place (f : place) (name : string) : place :=
  fold_left go (map seg_comp (split_slash name)) (removelast f).

Section Graph.
  Variable text : Type.
  Variable imports : text -> list string.
  (** The files there are. *)
  Variable files : list (place * text).

  Definition place_eq_dec : forall a b : place, {a = b} + {a <> b} := list_eq_dec string_dec.

  Fixpoint file_at (fs : list (place * text)) (f : place) : option text :=
    match fs with
    | [] => None
    | (g, t) :: fs' => if place_eq_dec g f then Some t else file_at fs' f
    end.

  (** Reading a path in a process running in [cwd] (no symbolic links). *)
  Definition read_tree (cwd : place) (p : path) : option text :=
    if ends_in_name p then file_at files (place_of cwd p) else None.

  (** File [f] imports file [g] (both exist). *)
  Definition imports_file (f g : place) : Prop :=
    exists t n, file_at files f = Some t /\ In n (imports t) /\ g = import_place f n /\
                file_at files g <> None.

  (** [f] is the root file or imported, directly or not, by it. *)
  Definition in_program (root f : place) : Prop := clos_refl_trans place imports_file root f.

  (** Some file of the program imports itself, directly or through others. *)
  Definition import_cycle (root : place) : Prop :=
    exists f, in_program root f /\ clos_trans place imports_file f f.

  (** No file is (also) a directory with files in it. *)
  Definition proper_tree : Prop :=
    forall f g, file_at files f <> None -> file_at files g <> None ->
                forall d, g = f ++ d -> d = [].

  (** No import name goes up. *)
  Definition no_up : Prop :=
    forall f t n, file_at files f = Some t -> In n (imports t) -> ~ In ".."%string (split_slash n).

  (** A unit that is what its file says all the way down: the text is that of the file and every import
      gave the unit of the file it names. *)
  Inductive faithful : place -> unit text -> Prop :=
  | Faithful f t outs :
      file_at files f = Some t ->
      Forall2 (fun n o => exists u, o = OUnit u /\ faithful (import_place f n) u) (imports t) outs ->
      faithful f (Unit t outs).
End Graph.
