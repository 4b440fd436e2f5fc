(** Properties C36 and C37 for the language server: what it shows follows the latest texts. *)
From Coq Require Import List Bool Arith Lia.
From Verif Require Import LspFiles LspFilesSpec LspFilesProofs LspFilesMain.
Import ListNotations.

(** C37.  After any sequence of opening, changing and closing files, with the disk changing at any time:
    there are texts [w] - for every file the client ever sent, the last text it sent; for any other file what
    the disk held at some time - such that what is shown for each open file is exactly what a server just
    started on [w] shows on opening that file, and for files not open nothing is shown. *)
Theorem C37_latest :
  forall key (key_eq : forall a b : key, {a = b} + {a <> b}) name text (imports : text -> list name) join blank
         fuel disk evs s,
    single key text evs ->
    run key key_eq name text imports join blank fuel disk evs = Some s ->
    exists w, current key key_eq text disk evs w /\
    forall k,
      if is_open key key_eq text evs k
      then exists t u s1,
             w k = Text t /\ shown key text s k = Some u /\
             run key key_eq name text imports join blank fuel w [Open k t] = Some s1 /\
             shown key text s1 k = Some u
      else shown key text s k = None.
Proof.
  intros key key_eq name text imports join blank fuel disk evs s Hs H.
  destruct (run_current key key_eq name text imports join blank fuel disk evs s Hs H) as (w & Hw & Hk).
  exists w. split; [exact Hw|]. intros k. specialize (Hk k).
  destruct (is_open key key_eq text evs k) eqn:Eo; [|exact Hk].
  destruct Hk as (u & d & Hu & Hp). destruct (open_sent key key_eq text evs k Eo) as (t & Ht).
  specialize (Hw k). rewrite Ht in Hw.
  destruct (run_fresh key key_eq name text imports join blank fuel w k t u d Hw Hp) as (s1 & Hr & Hsh).
  exists t, u, s1. auto.
Qed.
Print Assumptions C37_latest.

(** C37.  In particular, where the current texts make up a complete program - every import names a readable
    file, and there is no import cycle - each open file is shown as the module those texts describe. *)
Theorem C37_meaning :
  forall key (key_eq : forall a b : key, {a = b} + {a <> b}) name text (imports : text -> list name) join blank
         fuel disk evs s,
    single key text evs ->
    run key key_eq name text imports join blank fuel disk evs = Some s ->
    exists w, current key key_eq text disk evs w /\
    forall k u, is_open key key_eq text evs k = true -> means key name text imports join w k u ->
                shown key text s k = Some u.
Proof.
  intros key key_eq name text imports join blank fuel disk evs s Hs H.
  destruct (run_current key key_eq name text imports join blank fuel disk evs s Hs H) as (w & Hw & Hk).
  exists w. split; [exact Hw|]. intros k u Ho Hu. specialize (Hk k). rewrite Ho in Hk.
  destruct Hk as (u' & d & Hu' & Hp). rewrite Hu'. f_equal.
  eapply pcompile_means; eassumption.
Qed.
Print Assumptions C37_meaning.

(** C36, C37.  The server answers every notification: with finitely many readable files, the modules loaded
    within each other are at most as many as there are files, whatever imports what. *)
Theorem C36_lsp_terminates :
  forall key (key_eq : forall a b : key, {a = b} + {a <> b}) name text (imports : text -> list name) join blank
         all disk evs fuel,
    (forall d k t, In d (disk :: disks key text evs) -> d k = Text t -> In k all) ->
    (forall k t, In (Open k t) evs -> In k all) ->
    (forall k t more, In (Change k t more) evs -> In k all) ->
    List.length all < fuel ->
    exists s, run key key_eq name text imports join blank fuel disk evs = Some s.
Proof.
  intros key key_eq name text imports join blank all disk evs fuel Hd Ho Hc Hl.
  apply run_runs with all; [|exact Hl]. split; [|split]; [|exact Ho|exact Hc].
  intros d Hin k t Hk. eapply Hd; eassumption.
Qed.
Print Assumptions C36_lsp_terminates.

(** C36 is otherwise not true of the server: in no history is an actual import cycle ever shown.  Whenever an
    import of an open file is marked as an import cycle, the module it names is in fact one that cannot be
    read (and was asked for before). *)
Theorem C36_lsp_cycle_message_refuted :
  forall key (key_eq : forall a b : key, {a = b} + {a <> b}) name text (imports : text -> list name) join blank
         fuel disk evs s,
    single key text evs ->
    run key key_eq name text imports join blank fuel disk evs = Some s ->
    exists w, current key key_eq text disk evs w /\
    forall k t outs, shown key text s k = Some (Unit t outs) ->
      Forall2 (fun n o => o = OCycle -> exists j, join k n = Some j /\ forall t', w j <> Text t') (imports t) outs.
Proof.
  intros key key_eq name text imports join blank fuel disk evs s Hs H.
  destruct (run_current key key_eq name text imports join blank fuel disk evs s Hs H) as (w & Hw & Hk).
  exists w. split; [exact Hw|]. intros k t outs Hsh. specialize (Hk k).
  destruct (is_open key key_eq text evs k) eqn:Eo; [|congruence].
  destruct Hk as (u & d & Hu & Hp). rewrite Hsh in Hu. injection Hu; intros; subst.
  destruct (open_sent key key_eq text evs k Eo) as (t' & Ht').
  pose proof (Hw k) as Hwk. rewrite Ht' in Hwk.
  assert (t' = t) as ->.
  { unfold LspFilesProofs.pcompile in Hp. rewrite Hwk in Hp. cbn [source] in Hp.
    destruct (LspFiles.each _ _ _ _ _) as [[os d']|]; [|discriminate]. congruence. }
  eapply pcompile_cycles; eassumption.
Qed.
Print Assumptions C36_lsp_cycle_message_refuted.

(** *** A concrete instance: files are numbers, a text is the list of files it imports. *)
Definition ex_run (fuel : nat) (disk : nat -> content (list nat)) (evs : list (event nat (list nat))) :=
  run nat Nat.eq_dec nat (list nat) (fun t => t) (fun _ n => Some n) [] fuel disk evs.
Definition ex_disk (l : list (nat * list nat)) (k : nat) : content (list nat) :=
  match find (fun x => fst x =? k) l with Some (_, t) => Text t | None => NotFound end.
Definition ex_shown (fuel : nat) disk evs (k : nat) :=
  match ex_run fuel disk evs with Some s => shown _ _ s k | None => None end.

(** File 1 imports 2 which imports 3 (on disk); editing 2 is seen in 1 at once, so is closing and
    reopening. *)
Example ex_edit :
  let d := ex_disk [(1, [2]); (2, []); (3, [])] in
  ex_shown 9 d [Open 1 [2]] 1 = Some (Unit [2] [OUnit (Unit [] [])]) /\
  ex_shown 9 d [Open 1 [2]; Open 2 []; Change 2 [3] []] 1
    = Some (Unit [2] [OUnit (Unit [3] [OUnit (Unit [] [])])]) /\
  ex_shown 9 d [Open 1 [2]; Open 2 []; Change 2 [3] []; Close 1] 1 = None.
Proof. vm_compute. auto. Qed.

Example ex_means :
  means nat nat (list nat) (fun t => t) (fun _ n => Some n) (ex_disk [(1, [2]); (2, [])]) 1 (Unit [2] [OUnit (Unit [] [])]).
Proof.
  constructor; [reflexivity|]. constructor; [|constructor]. exists 2, (Unit [] []). split; [reflexivity|]. split; [reflexivity|].
  constructor; [reflexivity|constructor].
Qed.

(** A file that imports itself, and two importing each other, are shown without any error of theirs. *)
Theorem C36_lsp_self_import_refuted :
  ex_shown 9 (ex_disk [(1, [1])]) [Open 1 [1]] 1 = Some (Unit [1] [OUnit (Unit [1] [OCycle])]) /\
  ex_shown 9 (ex_disk [(1, [2]); (2, [1])]) [Open 1 [2]; Open 2 [1]] 1
    = Some (Unit [2] [OUnit (Unit [1] [OUnit (Unit [2] [OCycle])])]) /\
  ex_shown 9 (ex_disk [(1, [2]); (2, [1])]) [Open 1 [2]; Open 2 [1]] 2
    = Some (Unit [1] [OUnit (Unit [2] [OUnit (Unit [1] [OCycle])])]).
Proof. vm_compute. auto. Qed.
Print Assumptions C36_lsp_self_import_refuted.

(** Importing a missing file twice: the second import is called an import cycle. *)
Theorem C36_lsp_missing_twice_refuted :
  ex_shown 9 (ex_disk []) [Open 1 [2; 2]] 1 = Some (Unit [2; 2] [OMissing; OCycle]).
Proof. vm_compute. reflexivity. Qed.
Print Assumptions C36_lsp_missing_twice_refuted.

(** C37 with the editor's rules for what the current text of a file is - the disk's once the file is closed,
    the disk as it is now, the last of several changes - is not true. *)
Theorem C37_closed_file_refuted :
  (* closing file 2 with unsaved changes: file 1 goes on seeing them, although the disk has no such text *)
  ex_shown 9 (ex_disk [(1, [2]); (2, [])]) [Open 1 [2]; Open 2 [3]; Close 2; Change 1 [2] []] 1
    = Some (Unit [2] [OUnit (Unit [3] [OMissing])]) /\
  (* a file changed on the disk is never read again *)
  ex_shown 9 (ex_disk [(2, [])]) [Open 1 [2]; Disk (ex_disk [(2, [3]); (3, [])]); Change 1 [2] []] 1
    = Some (Unit [2] [OUnit (Unit [] [])]) /\
  (* nor is one that did not exist when first imported, even after closing and reopening the importer *)
  ex_shown 9 (ex_disk []) [Open 1 [2]; Disk (ex_disk [(2, [])]); Close 1; Open 1 [2]] 1
    = Some (Unit [2] [OMissing]) /\
  (* of several changes in one notification the first counts, not the last *)
  ex_shown 9 (ex_disk []) [Open 1 []; Change 1 [1] [[2]]] 1 = Some (Unit [1] [OUnit (Unit [1] [OCycle])]).
Proof. vm_compute. auto. Qed.
Print Assumptions C37_closed_file_refuted.
