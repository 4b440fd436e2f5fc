(** Specification for the language server's files: read off the history of notifications alone. *)
From Coq Require Import List Bool Arith.
From Verif Require Import LspFiles.
Import ListNotations.

Section Spec.
  Variable key : Type.
  Variable key_eq : forall a b : key, {a = b} + {a <> b}.
  Variable name : Type.
  Variable text : Type.
  Variable imports : text -> list name.
  Variable join : key -> name -> option key.

  (** The text the client last sent for a file, if it ever sent one. *)
  Fixpoint last_sent (evs : list (event key text)) (k : key) : option text :=
    match evs with
    | [] => None
    | e :: evs' =>
        match last_sent evs' k with
        | Some t => Some t
        | None =>
            match e with
            | Open j t => if key_eq j k then Some t else None
            | Change j t more => if key_eq j k then Some (last more t) else None
            | _ => None
            end
        end
    end.

  (** Whether a file is open after the events, given whether it was before. *)
  Fixpoint open_after (evs : list (event key text)) (k : key) (before : bool) : bool :=
    match evs with
    | [] => before
    | Open j _ :: evs' => open_after evs' k (if key_eq j k then true else before)
    | Close j :: evs' => open_after evs' k (if key_eq j k then false else before)
    | _ :: evs' => open_after evs' k before
    end.

  Definition is_open (evs : list (event key text)) (k : key) : bool := open_after evs k false.

  (** The states the disk was in. *)
  Fixpoint disks (evs : list (event key text)) : list (key -> content text) :=
    match evs with
    | [] => []
    | Disk d :: evs' => d :: disks evs'
    | _ :: evs' => disks evs'
    end.

  (** Each change notification carries one change. *)
  Definition single (evs : list (event key text)) : Prop :=
    forall k t more, In (Change k t more) evs -> more = [].

  (** The texts a server may go by: for a file the client sent, the last text it sent; for any other, what
      was on the disk at some time. *)
  Definition current (disk : key -> content text) (evs : list (event key text)) (w : key -> content text) : Prop :=
    forall k, match last_sent evs k with
              | Some t => w k = Text t
              | None => exists d, In d (disk :: disks evs) /\ w k = d k
              end.

  (** The unit of a file when the texts are [w]: its text, and for each import the unit of the file named. *)
  Inductive means (w : key -> content text) : key -> unit text -> Prop :=
  | Means k t outs :
      w k = Text t ->
      Forall2 (fun n o => exists j u, join k n = Some j /\ o = OUnit u /\ means w j u) (imports t) outs ->
      means w k (Unit t outs).
End Spec.
