(** Model of the language server's files and compilations: ticc-lsp/src/main.rs 39-75, 286-449 and the
    notification handlers in ticc-lsp/src/handlers.rs 84-155.

    As in Imports.v a text is known only by the names it imports, and what the editor is shown for a file
    (its diagnostics, hovers, ...) is a function of the file's unit: its text and what each import returned.
    Handlers run one after another (main.rs 264-284), so the disk does not change inside one. *)
From Coq Require Import List Bool Arith Lia.
Import ListNotations.

Section Lsp.
  (** FileKey (a Url): main.rs 37-44. *)
  Variable key : Type.
  Variable key_eq : forall a b : key, {a = b} + {a <> b}.
  Variable name : Type.
  Variable text : Type.
  Variable imports : text -> list name.
  (** Url::join, any partial function: main.rs 396-399. *)
  Variable join : key -> name -> option key.
  (** String::default(): main.rs 369. *)
  Variable blank : text.

  (** FileContent.content: main.rs 291-295. *)
  Inductive content := Text (t : text) | NotFound | IoError.

  Inductive unit :=
  | Unit (t : text) (outs : list outcome)
  with outcome :=
  | OUnit (u : unit)      (* Ok(unit) *)
  | OMissing              (* Err(ImportError::DoesNotExist) *)
  | OCycle                (* Err(ImportError::ImportCycle) *)
  | OIo.                  (* Err(ImportError::Io) *)

  (** FileSet.files: main.rs 286-290, with contents and versions. *)
  Definition fileset := key -> option (content * nat).

  Definition put (fs : fileset) (k : key) (x : content * nat) : fileset :=
    fun j => if key_eq j k then Some x else fs j.

  (** FileSet::set: main.rs 298-313. *)
  Definition set (fs : fileset) (k : key) (t : text) : fileset :=
    put fs k (Text t, match fs k with Some (_, v) => S v | None => 1 end).

  (** FileSet::get: main.rs 315-328; reads the disk the first time a key is asked for. *)
  Definition get (disk : key -> content) (fs : fileset) (k : key) : (content * nat) * fileset :=
    match fs k with
    | Some x => (x, fs)
    | None => ((disk k, 1), put fs k (disk k, 1))
    end.

  (** Dependency and the dependencies map: main.rs 342-353.  [None] for the unit: not compiled (yet). *)
  Definition deps := list (key * (option unit * nat)).

  Fixpoint find_dep (d : deps) (k : key) : option (option unit) :=
    match d with
    | [] => None
    | (j, (u, _)) :: d' => if key_eq j k then Some u else find_dep d' k
    end.

  (** get_mut(&key).unwrap().unit = Some(unit): main.rs 445. *)
  Fixpoint store (d : deps) (k : key) (u : unit) : deps :=
    match d with
    | [] => []
    | (j, (w, v)) :: d' => if key_eq j k then (j, (Some u, v)) :: d' else (j, (w, v)) :: store d' k u
    end.

  Definition state := (fileset * deps)%type.

  (** The imports of a text in order (ticc/src/lib.rs 103-133, resolve.rs 98). *)
  Fixpoint each {S : Type} (look : name -> S -> option (outcome * S)) (names : list name) (st : S)
    : option (list outcome * S) :=
    match names with
    | [] => Some ([], st)
    | n :: ns =>
        match look n st with
        | None => None
        | Some (o, st1) =>
            match each look ns st1 with
            | None => None
            | Some (os, st2) => Some (o :: os, st2)
            end
        end
    end.

  (** <CompilationModuleResolver as ModuleResolver>::lookup: main.rs 402-448. *)
  Fixpoint lookup (disk : key -> content) (fuel : nat) (cur : key) (n : name) (st : state)
    : option (outcome * state) :=
    match fuel with
    | O => None
    | S fuel' =>
        match join cur n with
        | None => Some (OMissing, st)
        | Some k =>
            let '((c, v), fs) := get disk (fst st) k in
            match find_dep (snd st) k with
            | Some None => Some (OCycle, (fs, snd st))
            | Some (Some u) => Some (OUnit u, (fs, snd st))
            | None =>
                let d := (k, (None, v)) :: snd st in
                match c with
                | NotFound => Some (OMissing, (fs, d))
                | IoError => Some (OIo, (fs, d))
                | Text t =>
                    match each (lookup disk fuel' k) (imports t) (fs, d) with
                    | None => None
                    | Some (outs, (fs1, d1)) =>
                        Some (OUnit (Unit t outs), (fs1, store d1 k (Unit t outs)))
                    end
                end
            end
        end
    end.

  (** Compilation: main.rs 347-353.  [source_version] 0 and no dependencies when new (main.rs 56-65). *)
  Record compilation := { source_version : nat; dependencies : deps }.
  Definition new_compilation : compilation := {| source_version := 0; dependencies := [] |}.

  (** Compilation::is_any_dependency_stale: main.rs 356-358. *)
  Fixpoint any_stale (disk : key -> content) (fs : fileset) (d : deps) : bool * fileset :=
    match d with
    | [] => (false, fs)
    | (k, (_, v)) :: d' =>
        let '((_, v'), fs1) := get disk fs k in
        if v <? v' then (true, fs1) else any_stale disk fs1 d'
    end.

  (** Compilation::refresh: main.rs 360-387; the boolean says whether the unit was replaced.  The new unit is
      compiled when first asked, which is in [compile] below. *)
  Definition refresh (disk : key -> content) (fs : fileset) (k : key) (c : compilation)
    : (compilation * bool) * fileset :=
    let '(stale, fs1) := any_stale disk fs (dependencies c) in
    let '((_, v), fs2) := get disk fs1 k in
    if stale || (source_version c <? v)
    then (({| source_version := v; dependencies := [] |}, true), fs2)
    else ((c, false), fs2).

  (** Compiling the unit of [k] to the end, which get_diagnostics does (handlers.rs 132-135): the text is the one
      [refresh] put into it (main.rs 366-383), which is the file's content still. *)
  Definition compile (disk : key -> content) (fuel : nat) (k : key) (st : state) : option (unit * state) :=
    let '((c, _), fs) := get disk (fst st) k in
    let t := match c with Text t => t | _ => blank end in
    match each (lookup disk fuel k) (imports t) (fs, snd st) with
    | None => None
    | Some (outs, st1) => Some (Unit t outs, st1)
    end.

  (** The server: its files, its compilations and what the editor was last shown for each file ([None]:
      nothing, or cleared).  CompilationSet and TicServer share one FileSet (main.rs 250-261). *)
  Record server :=
    { files : fileset; comps : list (key * compilation); shown : key -> option unit }.

  Definition new_server : server := {| files := fun _ => None; comps := []; shown := fun _ => None |}.

  (** The first loop of on_file_update: handlers.rs 118-124. *)
  Fixpoint refresh_all (disk : key -> content) (fs : fileset) (cs : list (key * compilation))
    : list (key * compilation * bool) * fileset :=
    match cs with
    | [] => ([], fs)
    | (k, c) :: cs' =>
        let '((c1, m), fs1) := refresh disk fs k c in
        let '(rs, fs2) := refresh_all disk fs1 cs' in
        ((k, c1, m) :: rs, fs2)
    end.

  Definition show (sh : key -> option unit) (k : key) (x : option unit) : key -> option unit :=
    fun j => if key_eq j k then x else sh j.

  (** The second loop: handlers.rs 125-128 with send_diagnostics 131-142.  The code goes through the keys in
      sorted order, the model in that of the compilations: the order makes no difference, as the disk
      stays the same meanwhile and files already read are not changed. *)
  Fixpoint show_all (disk : key -> content) (fuel : nat) (fs : fileset) (sh : key -> option unit)
    (rs : list (key * compilation * bool)) : option server :=
    match rs with
    | [] => Some {| files := fs; comps := []; shown := sh |}
    | (k, c, m) :: rs' =>
        if m then
          match compile disk fuel k (fs, dependencies c) with
          | None => None
          | Some (u, (fs1, d1)) =>
              match show_all disk fuel fs1 (show sh k (Some u)) rs' with
              | None => None
              | Some s => Some {| files := files s;
                                  comps := (k, {| source_version := source_version c; dependencies := d1 |}) :: comps s;
                                  shown := shown s |}
              end
          end
        else
          match show_all disk fuel fs sh rs' with
          | None => None
          | Some s => Some {| files := files s; comps := (k, c) :: comps s; shown := shown s |}
          end
    end.

  (** on_file_update: handlers.rs 114-129. *)
  Definition update (disk : key -> content) (fuel : nat) (s : server) : option server :=
    let '(rs, fs) := refresh_all disk (files s) (comps s) in
    show_all disk fuel fs (shown s) rs.

  Definition without (cs : list (key * compilation)) (k : key) : list (key * compilation) :=
    filter (fun kc => if key_eq (fst kc) k then false else true) cs.

  (** What happens to the server: notifications, and the disk changing under it. *)
  Inductive event :=
  | Open (k : key) (t : text)
  | Change (k : key) (t : text) (more : list text)   (* content_changes, at least one *)
  | Close (k : key)
  | Disk (d : key -> content).

  (** on_open 84-91 with add_file (main.rs 54-66), on_change 93-100, on_close 102-109: handlers.rs. *)
  Definition handle (disk : key -> content) (fuel : nat) (s : server) (e : event) : option ((key -> content) * server) :=
    let upd s' := match update disk fuel s' with None => None | Some s'' => Some (disk, s'') end in
    match e with
    | Open k t =>
        upd {| files := set (files s) k t; comps := (k, new_compilation) :: without (comps s) k; shown := shown s |}
    | Change k t _ =>
        upd {| files := set (files s) k t; comps := comps s; shown := shown s |}
    | Close k =>
        Some (disk, {| files := files s; comps := without (comps s) k; shown := show (shown s) k None |})
    | Disk d => Some (d, s)
    end.

  Fixpoint handle_all (disk : key -> content) (fuel : nat) (s : server) (evs : list event)
    : option ((key -> content) * server) :=
    match evs with
    | [] => Some (disk, s)
    | e :: evs' =>
        match handle disk fuel s e with
        | None => None
        | Some (disk1, s1) => handle_all disk1 fuel s1 evs'
        end
    end.

  (** A server started on a disk, after a sequence of events. *)
  Definition run (fuel : nat) (disk : key -> content) (evs : list event) : option server :=
    match handle_all disk fuel new_server evs with
    | None => None
    | Some (_, s) => Some s
    end.
End Lsp.

Arguments Text {text} t.
Arguments NotFound {text}.
Arguments IoError {text}.
Arguments Unit {text} t outs.
Arguments OUnit {text} u.
Arguments OMissing {text}.
Arguments OCycle {text}.
Arguments OIo {text}.
Arguments Open {key text} k t.
Arguments Change {key text} k t more.
Arguments Close {key text} k.
Arguments Disk {key text} d.
