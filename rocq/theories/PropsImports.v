(** Property C36, for the command line driver: import cycles are reported, not looped. *)
From Coq Require Import List String Bool Arith Lia Relations.
From Verif Require Import Imports ImportsSpec ImportsProofs.
Import ListNotations.
Open Scope string_scope.
Open Scope list_scope.

(** C36.  The driver always comes to an answer when no import name goes up: it never needs more nested
    module loads than twice the number of files. *)
Theorem C36_driver_terminates :
  forall text imports (files : list (place * text)) own_errors cwd root,
    proper_tree text files -> no_up text imports files ->
    exists r, forall fuel, 2 * List.length files <= fuel ->
      driver text imports (read_tree text files cwd) own_errors fuel root = Some r.
Proof.
  intros text imports files own_errors cwd root Ht Hu.
  destruct (tree_runs text imports files own_errors cwd root Ht Hu (2 * List.length files)) as (r & Hr); [apply le_n|].
  exists r. intros fuel Hf.
  destruct (tree_runs text imports files own_errors cwd root Ht Hu fuel Hf) as (r' & Hr').
  rewrite Hr'. rewrite (driver_more _ _ _ _ _ _ _ _ Hf Hr) in Hr'. congruence.
Qed.
Print Assumptions C36_driver_terminates.

(** C36.  For every tree of files and all import names (dot-dot included): whenever the driver goes on to
    compile the program, every module is the text of the file its importer named, nothing is missing, and
    no file imports itself, directly or indirectly. *)
Theorem C36_driver_accepts_no_cycle :
  forall text imports (files : list (place * text)) own_errors cwd root fuel u,
    driver text imports (read_tree text files cwd) own_errors fuel root = Some (Compiled u) ->
    faithful text imports files (place_of cwd root) u /\
    ~ import_cycle text imports files (place_of cwd root).
Proof.
  intros text imports files own_errors cwd root fuel u H.
  apply driver_post in H. apply coh_faithful in H. split; [exact H|].
  apply acc_no_cycle. eapply faithful_acc. exact H.
Qed.
Print Assumptions C36_driver_accepts_no_cycle.

(** C36.  What a rejection says is true: the module shown is a file of the program, an import cycle is
    reported only if there is one, a module is reported unreadable only if there is no such file, and with
    neither, the module has errors of its own. *)
Theorem C36_driver_rejects_for_a_reason :
  forall text imports (files : list (place * text)) own_errors cwd root fuel q t outs,
    proper_tree text files -> no_up text imports files ->
    driver text imports (read_tree text files cwd) own_errors fuel root = Some (Rejected q (Unit t outs)) ->
    in_program text imports files (place_of cwd root) (place_of cwd q) /\
    file_at text files (place_of cwd q) = Some t /\
    (In OCycle outs -> import_cycle text imports files (place_of cwd root)) /\
    (In OIo outs -> exists n, In n (imports t) /\ file_at text files (import_place (place_of cwd q) n) = None) /\
    (In OCycle outs \/ In OIo outs \/ own_errors t outs = true).
Proof.
  intros text imports files own_errors cwd root fuel q t outs Ht Hu H.
  assert (Hroot : exists t0, read_tree text files cwd root = Some t0).
  { unfold driver in H. destruct (read_tree text files cwd root); [eauto|discriminate]. }
  destruct Hroot as (t0 & Hroot).
  apply driver_post in H. destruct H as (Hr & Hq & He & Ho).
  split; [apply reach_program; exact Hr|].
  split; [apply (read_some text files cwd) in Hq; apply Hq|].
  split; [|split].
  - intros Hin. apply (cyclic_cycle text imports files cwd root).
    clear He. induction Ho as [|n o ns os Hno _ IH]; [destruct Hin|].
    destruct Hin as [->|Hin]; [exact Hno|auto].
  - intros Hin.
    assert (Hx : exists n, In n (imports t) /\ read_tree text files cwd (rel q n) = None).
    { clear He Hq. induction Ho as [|n o ns os Hno _ IH]; [destruct Hin|].
      destruct Hin as [->|Hin]; [exists n; split; [left; reflexivity|exact Hno]|].
      destruct (IH Hin) as (m & Hm & Hm'). exists m. split; [right; exact Hm|exact Hm']. }
    destruct Hx as (n & Hn & Hx). exists n. split; [exact Hn|].
    eapply missing_import; eauto.
  - simpl in He. apply orb_true_iff in He as [He|He]; [|auto].
    apply existsb_exists in He as (o & Hin & Hf). destruct o; [discriminate|auto|auto].
Qed.
Print Assumptions C36_driver_rejects_for_a_reason.

(** C36.  So, with import names that do not go up: if the only errors a program can have are about its
    imports, it is compiled exactly when all imported files exist and no file imports itself. *)
Theorem C36_driver_exact :
  forall text imports (files : list (place * text)) cwd root fuel,
    proper_tree text files -> no_up text imports files -> 2 * List.length files <= fuel ->
    file_at text files (place_of cwd root) <> None -> ends_in_name root = true ->
    let run := driver text imports (read_tree text files cwd) (fun _ _ => false) fuel root in
    (exists u, run = Some (Compiled u)) <->
    (~ import_cycle text imports files (place_of cwd root) /\
     forall f t n, in_program text imports files (place_of cwd root) f ->
                   file_at text files f = Some t -> In n (imports t) ->
                   file_at text files (import_place f n) <> None).
Proof.
  intros text imports files cwd root fuel Ht Hu Hf Hroot Hend run. subst run. split.
  - intros (u & H). apply C36_driver_accepts_no_cycle in H as [H Hc]. split; [exact Hc|].
    intros f t n Hp Hft Hn. 
    assert (Hff : exists v, faithful text imports files f v).
    { clear Hc Hft Hn. unfold in_program in Hp. apply clos_rt_rtn1 in Hp.
      induction Hp as [|g h Hgh _ (v & IH)]; [eauto|].
      destruct Hgh as (tg & m & Hg & Hm & -> & _). eapply faithful_import; eauto. }
    destruct Hff as (v & Hv). destruct (faithful_import _ _ _ _ _ _ _ Hv Hft Hn) as (w & Hw).
    inversion Hw; congruence.
  - intros [Hnc Hall].
    destruct (tree_runs text imports files (fun _ _ => false) cwd root Ht Hu fuel Hf) as (r & Hr).
    destruct r as [|q [t outs]|u].
    + apply driver_post in Hr. unfold read_tree in Hr. rewrite Hend in Hr. contradiction.
    + exfalso. apply C36_driver_rejects_for_a_reason in Hr as (Hin & Hq & Hcy & Hio & Hwhy); [|assumption..].
      destruct Hwhy as [Hw|[Hw|Hw]]; [auto| |discriminate].
      destruct (Hio Hw) as (n & Hn & Hn'). apply (Hall _ _ _ Hin Hq Hn Hn').
    + eauto.
Qed.
Print Assumptions C36_driver_exact.

(** The hypotheses are met by real trees: here are three files, main importing two of which one imports the
    other in two spellings, and the same with the innermost importing main again. *)
Definition ex_imports (t : list string) : list string := t.
Definition ex_tree (leaf : list string) : list (place * list string) :=
  [(["proj"; "main.tic"], ["lib/a.tic"; "./lib/b.tic"]);
   (["proj"; "lib"; "a.tic"], ["b.tic"]);
   (["proj"; "lib"; "b.tic"], leaf)].

Lemma ex_tree_proper leaf : proper_tree _ (ex_tree leaf).
Proof.
  intros f g Hf Hg d ->.
  assert (A : forall h, file_at _ (ex_tree leaf) h <> None ->
            h = ["proj"; "main.tic"] \/ h = ["proj"; "lib"; "a.tic"] \/ h = ["proj"; "lib"; "b.tic"]).
  { intros h Hh. unfold ex_tree in Hh. cbn [file_at] in Hh.
    repeat match type of Hh with context [place_eq_dec ?a ?b] => destruct (place_eq_dec a b); [subst; auto|] end. congruence. }
  apply A in Hf. apply A in Hg.
  destruct Hf as [E|[E|E]]; rewrite E in Hg; destruct Hg as [Hg|[Hg|Hg]]; simpl in Hg; try discriminate Hg;
    injection Hg as Hg; exact Hg.
Qed.

Lemma ex_tree_no_up leaf : (forall n, In n leaf -> ~ In ".." (split_slash n)) ->
  no_up _ ex_imports (ex_tree leaf).
Proof.
  intros Hl f t n Hf Hn. unfold ex_tree in Hf. cbn [file_at] in Hf.
  repeat match type of Hf with context [place_eq_dec ?a ?b] => destruct (place_eq_dec a b) end;
    try discriminate Hf; injection Hf as <-; unfold ex_imports in Hn; [| |auto];
    repeat (destruct Hn as [<-|Hn]); try destruct Hn; vm_compute; intuition discriminate.
Qed.

Example ex_compiled :
  exists u, driver _ ex_imports (read_tree _ (ex_tree []) ["proj"]) (fun _ _ => false) 6 [CName "main.tic"] = Some (Compiled u).
Proof. vm_compute. eauto. Qed.

(** A cycle through two directories is reported, at the module that closes it. *)
Example ex_cycle :
  driver _ ex_imports (read_tree _ (ex_tree ["./b.tic"]) ["proj"]) (fun _ _ => false) 6 [CName "main.tic"]
  = Some (Rejected [CName "lib"; CName "b.tic"] (Unit ["./b.tic"] [OCycle])).
Proof. vm_compute. reflexivity. Qed.

(** C36 without that restriction is false: a file a/x.tic importing ../a/x.tic is asked for under a new,
    longer path every time, so the driver never notices the cycle; no amount of nesting is enough. *)
Definition up_tree : list (place * list string) := [(["a"; "x.tic"], ["../a/x.tic"])].

Definition up_dir (k : nat) : path := CName "a" :: List.concat (repeat [CUp; CName "a"] k).
Definition up_path (k : nat) : path := up_dir k ++ [CName "x.tic"].

Lemma up_dir_next k : up_dir (S k) = up_dir k ++ [CUp; CName "a"].
Proof.
  unfold up_dir. cbn [app]. f_equal. induction k as [|k IH]; [reflexivity|].
  cbn [repeat List.concat app]. do 2 f_equal. exact IH.
Qed.

Lemma up_rel k : rel (up_path k) "../a/x.tic" = up_path (S k).
Proof.
  unfold rel, up_path. rewrite pop_snoc.
  change (split_slash "../a/x.tic") with [".."; "a"; "x.tic"].
  rewrite up_dir_next. cbn [fold_left]. unfold push; cbn [String.eqb Ascii.eqb Bool.eqb].
  rewrite <- !app_assoc. reflexivity.
Qed.

Lemma up_place k : place_of [] (up_dir k) = ["a"].
Proof. induction k as [|k IH]; [reflexivity|]. rewrite up_dir_next, place_of_app, IH. reflexivity. Qed.

Lemma up_read k : read_tree _ up_tree [] (up_path k) = Some ["../a/x.tic"].
Proof.
  unfold read_tree, up_path, ends_in_name. rewrite last_snoc, place_of_app, up_place. reflexivity.
Qed.

Lemma up_loops fuel : forall k parents (st : props (list string)),
  (forall c, In c parents -> List.length c < List.length (up_path k)) -> cache _ st = [] ->
  lookup _ ex_imports (read_tree _ up_tree []) (fun _ _ => false) fuel (up_path k) parents "../a/x.tic" st = None.
Proof.
  assert (Hlen : forall k, List.length (up_path k) < List.length (up_path (S k))).
  { intros k. unfold up_path. rewrite up_dir_next, !app_length. simpl. lia. }
  induction fuel as [|fuel IH]; intros k parents st Hs Hc; [reflexivity|].
  rewrite lookup_eq, up_rel.
  destruct (in_dec path_eq_dec (up_path (S k)) (up_path k :: parents)) as [Hin|_].
  { exfalso. specialize (Hlen k). destruct Hin as [E|Hin]; [rewrite E in Hlen; lia|]. apply Hs in Hin. lia. }
  rewrite Hc. cbn [find_cache]. rewrite up_read. cbn [ex_imports each].
  rewrite IH; [reflexivity| |exact Hc].
  intros c [<-|Hin]; [apply Hlen|]. specialize (Hlen k). apply Hs in Hin. lia.
Qed.

Theorem C36_driver_dotdot_refuted :
  import_cycle _ ex_imports up_tree ["a"; "x.tic"] /\
  forall fuel, driver _ ex_imports (read_tree _ up_tree []) (fun _ _ => false) fuel [CName "a"; CName "x.tic"] = None.
Proof.
  split.
  - exists ["a"; "x.tic"]. split; [apply rt_refl|]. apply t_step.
    exists ["../a/x.tic"], "../a/x.tic". vm_compute. repeat split; auto. discriminate.
  - intros fuel. change [CName "a"; CName "x.tic"] with (up_path 0). unfold driver. rewrite up_read.
    change (ex_imports ["../a/x.tic"]) with ["../a/x.tic"]. cbn [each].
    match goal with |- context [lookup ?a ?b ?c ?d ?e ?f ?g ?h ?i] =>
      assert (E : lookup a b c d e f g h i = None); [|rewrite E; reflexivity]
    end.
    apply up_loops; [intros c []|reflexivity].
Qed.
Print Assumptions C36_driver_dotdot_refuted.
