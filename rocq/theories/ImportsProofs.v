(** Proofs about the driver's module resolution (Imports.v). *)
From Coq Require Import List String Bool Arith Lia Relations Operators_Properties.
From Verif Require Import Imports ImportsSpec.
Import ListNotations.

Section Generic.
  Variable text : Type.
  Variable imports : text -> list string.
  Variable read : path -> option text.
  Variable own_errors : text -> list (outcome text) -> bool.
  Variable root : path.

  Notation lookup := (lookup text imports read own_errors).
  Notation driver := (driver text imports read own_errors).
  Notation props := (props text).

  Definition edge (p q : path) : Prop :=
    exists t n, read p = Some t /\ In n (imports t) /\ q = rel p n /\ read q <> None.

  Definition reach (p : path) : Prop := clos_refl_trans path edge root p.

  Definition cyclic : Prop := exists p, reach p /\ clos_trans path edge p p.

  (** units that are what the files say *)
  Inductive coh : path -> unit text -> Prop :=
  | Coh p t outs :
      read p = Some t ->
      Forall2 (fun n o => exists u, o = OUnit u /\ coh (rel p n) u) (imports t) outs ->
      coh p (Unit t outs).

  Definition outs_ok (p : path) (names : list string) (outs : list (outcome text)) : Prop :=
    Forall2 (fun n o => match o with
                        | OUnit _ => True
                        | OCycle => cyclic
                        | OIo => read (rel p n) = None
                        end) names outs.

  Definition reason (p : path) (u : unit text) : Prop :=
    match u with
    | Unit t outs => reach p /\ read p = Some t /\ has_errors text own_errors (Unit t outs) = true /\
                     outs_ok p (imports t) outs
    end.

  Definition inv (st : props) : Prop :=
    (first text st = None -> forall q u, find_cache text (cache text st) q = Some u -> coh q u) /\
    (forall q u, first text st = Some (q, u) -> reason q u).

  Definition chain_ok (p : path) (parents : list path) : Prop :=
    forall c, In c (p :: parents) -> reach c /\ clos_refl_trans path edge c p.

  Definition look_post (p : path) (look : string -> props -> option (outcome text * props)) (names : list string) : Prop :=
    forall n st o st', In n names -> inv st -> look n st = Some (o, st') ->
      inv st' /\ (first text st <> None -> first text st' <> None) /\
      match o with
      | OUnit u => first text st' = None -> coh (rel p n) u
      | OCycle => cyclic
      | OIo => read (rel p n) = None
      end.

  Lemma each_post p look names :
    look_post p look names ->
    forall st outs st', inv st -> each text look names st = Some (outs, st') ->
      inv st' /\ (first text st <> None -> first text st' <> None) /\ outs_ok p names outs /\
      (first text st' = None -> existsb (failed text) outs = false ->
       Forall2 (fun n o => exists u, o = OUnit u /\ coh (rel p n) u) names outs).
  Proof.
    induction names as [|n ns IH]; intros HL st outs st' Hi He; simpl in He.
    - injection He as <- <-. split; [auto|]. split; [auto|]. split; constructor.
    - destruct (look n st) as [[o st1]|] eqn:E1; [|discriminate].
      destruct (each text look ns st1) as [[os st2]|] eqn:E2; [|discriminate].
      injection He as <- <-.
      destruct (HL n st o st1 (or_introl eq_refl) Hi E1) as (Hi1 & Hm1 & Ho).
      assert (HL' : look_post p look ns).
      { intros n' s1 o' s2 Hin. apply HL. right; exact Hin. }
      destruct (IH HL' st1 os st2 Hi1 E2) as (Hi2 & Hm2 & Hok & Hco).
      split; [auto|]. split; [auto|]. split.
      + constructor; [destruct o; auto|exact Hok].
      + intros Hf Hx. simpl in Hx. apply orb_false_iff in Hx as [Hx1 Hx2].
        constructor; [|auto].
        destruct o; try discriminate. exists u. split; [reflexivity|].
        apply Ho. destruct (first text st1); [exfalso; apply Hm2; [discriminate|exact Hf]|reflexivity].
  Qed.

  Lemma walk_readable c p : clos_refl_trans path edge c p -> read p <> None -> read c <> None.
  Proof.
    intros H Hp. apply clos_rt_rt1n in H. destruct H as [|y z Hs _]; [exact Hp|].
    destruct Hs as (t & n & Hx & _). congruence.
  Qed.

  Lemma lookup_eq fuel p parents n st :
    lookup (S fuel) p parents n st =
    if in_dec path_eq_dec (rel p n) (p :: parents) then Some (OCycle, st)
    else match find_cache text (cache text st) (rel p n) with
        | Some u => Some (OUnit u, st)
        | None =>
            match read (rel p n) with
            | None => Some (OIo, st)
            | Some t =>
                match each text (lookup fuel (rel p n) (p :: parents)) (imports t) st with
                | None => None
                | Some (outs, st1) =>
                    Some (OUnit (Unit t outs),
                          {| cache := (rel p n, Unit t outs) :: cache text st1;
                             first := if has_errors text own_errors (Unit t outs)
                                      then match first text st1 with Some e => Some e | None => Some (rel p n, Unit t outs) end
                                      else first text st1 |})
                end
            end
        end.
  Proof. reflexivity. Qed.

  Lemma lookup_post fuel :
    forall p parents t, read p = Some t -> chain_ok p parents ->
      look_post p (lookup fuel p parents) (imports t).
  Proof.
    induction fuel as [|fuel IH]; intros p parents t Hp Hch n st o st' Hn Hi He; [discriminate|]. rewrite lookup_eq in He.
    assert (Hself : reach p) by (apply (Hch p); left; reflexivity).
    destruct (in_dec path_eq_dec (rel p n) (p :: parents)) as [Hin|Hin].
    - injection He as <- <-. split; [auto|]. split; [auto|].
      destruct (Hch _ Hin) as [Hr Hw].
      exists (rel p n). split; [exact Hr|].
      apply clos_rt_t with p; [exact Hw|].
      apply t_step. exists t, n. repeat split; auto.
      apply (walk_readable _ _ Hw). congruence.
    - destruct (find_cache text (cache text st) (rel p n)) as [u|] eqn:Ec.
      { injection He as <- <-. split; [auto|]. split; [auto|]. intros Hf. apply (proj1 Hi); auto. }
      destruct (read (rel p n)) as [t'|] eqn:Er.
      2:{ injection He as <- <-. auto. }
      destruct (each text (lookup fuel (rel p n) (p :: parents)) (imports t') st) as [[outs st1]|] eqn:Ee; [|discriminate].
      assert (Hedge : edge p (rel p n)).
      { exists t, n. repeat split; auto. rewrite Er. discriminate. }
      assert (Hch' : chain_ok (rel p n) (p :: parents)).
      { intros c [<-|Hc].
        - split; [|apply rt_refl]. eapply rt_trans; [exact Hself|apply rt_step; exact Hedge].
        - destruct (Hch c Hc) as [H1 H2]. split; [exact H1|].
          eapply rt_trans; [exact H2|apply rt_step; exact Hedge]. }
      pose proof (each_post _ _ _ (IH (rel p n) (p :: parents) t' Er Hch') st outs st1 Hi Ee) as (Hi1 & Hm & Hok & Hco).
      destruct (has_errors text own_errors (Unit t' outs)) eqn:Hx; injection He as <- <-.
      + assert (Hreason : reason (rel p n) (Unit t' outs)).
        { split; [|auto]. apply (Hch' (rel p n)). left; reflexivity. }
        split; [|split]; cbn [first cache].
        * split; cbn [first cache].
          -- destruct (first text st1); discriminate.
          -- intros q u. destruct (first text st1) as [e|] eqn:Ef.
             ++ intros Hf. apply (proj2 Hi1). congruence.
             ++ intros Hf. injection Hf as <- <-. exact Hreason.
        * destruct (first text st1); discriminate.
        * destruct (first text st1); discriminate.
      + assert (Hcoh : first text st1 = None -> coh (rel p n) (Unit t' outs)).
        { intros Hf. simpl in Hx. apply orb_false_iff in Hx as [Hx _]. constructor; auto. }
        split; [|split]; cbn [first cache].
        * split; cbn [first cache].
          -- intros Hf q u. simpl find_cache. destruct (path_eq_dec (rel p n) q) as [Heq|Hne].
             ++ intros Hu. injection Hu as <-. rewrite <- Heq. auto.
             ++ apply (proj1 Hi1). exact Hf.
          -- apply (proj2 Hi1).
        * exact Hm.
        * exact Hcoh.
  Qed.

  Lemma inv_init : inv (no_props text).
  Proof. split; simpl; [intros _ q u H; discriminate|intros q u H; discriminate]. Qed.

  Theorem driver_post fuel r :
    driver fuel root = Some r ->
    match r with
    | CannotOpen => read root = None
    | Rejected q u => reason q u
    | Compiled u => coh root u
    end.
  Proof.
    unfold Imports.driver. intros H. destruct (read root) as [t|] eqn:Er.
    2:{ injection H as <-. reflexivity. }
    destruct (each text (lookup fuel root []) (imports t) (no_props text)) as [[outs st]|] eqn:Ee; [|discriminate].
    assert (Hch : chain_ok root []).
    { intros c [<-|[]]. split; apply rt_refl. }
    destruct (each_post _ _ _ (lookup_post fuel root [] t Er Hch) _ _ _ inv_init Ee) as (Hi & _ & Hok & Hco).
    cbv zeta in H. destruct (first text st) as [[q v]|] eqn:Ef.
    - injection H as <-. apply (proj2 Hi). exact Ef.
    - destruct (has_errors text own_errors (Unit t outs)) eqn:Hx; injection H as <-.
      + exact (conj (@rt_refl _ _ _) (conj Er (conj Hx Hok))).
      + simpl in Hx. apply orb_false_iff in Hx as [Hx _]. constructor; auto.
  Qed.

  (** ** More fuel changes nothing *)
  Lemma each_more (l1 l2 : string -> props -> option (outcome text * props)) names :
    (forall n st r, l1 n st = Some r -> l2 n st = Some r) ->
    forall st r, each text l1 names st = Some r -> each text l2 names st = Some r.
  Proof.
    intros H. induction names as [|n ns IH]; intros st r; simpl; [auto|].
    destruct (l1 n st) as [[o st1]|] eqn:E1; [|discriminate]. rewrite (H _ _ _ E1).
    destruct (each text l1 ns st1) as [[os st2]|] eqn:E2; [|discriminate]. rewrite (IH _ _ E2). auto.
  Qed.

  Lemma lookup_more f1 : forall f2 p parents n st r, f1 <= f2 ->
    lookup f1 p parents n st = Some r -> lookup f2 p parents n st = Some r.
  Proof.
    induction f1 as [|f1 IH]; intros f2 p parents n st r Hle H; [discriminate|].
    destruct f2 as [|f2]; [lia|]. rewrite lookup_eq in H |- *.
    destruct (in_dec path_eq_dec (rel p n) (p :: parents)); [exact H|].
    destruct (find_cache text (cache text st) (rel p n)); [exact H|].
    destruct (read (rel p n)) as [t|]; [|exact H].
    destruct (each text (lookup f1 (rel p n) (p :: parents)) (imports t) st) as [[os st1]|] eqn:E; [|discriminate].
    rewrite (each_more _ (lookup f2 (rel p n) (p :: parents)) _ (fun m s x => IH f2 _ _ m s x ltac:(lia)) _ _ E). exact H.
  Qed.

  Lemma driver_more f1 f2 r : f1 <= f2 -> driver f1 root = Some r -> driver f2 root = Some r.
  Proof.
    intros Hle H. unfold Imports.driver in *. destruct (read root) as [t|]; [|exact H].
    destruct (each text (lookup f1 root []) (imports t) (no_props text)) as [[os st1]|] eqn:E; [|discriminate].
    rewrite (each_more _ (lookup f2 root []) _ (fun m s x => lookup_more f1 f2 _ _ m s x Hle) _ _ E). exact H.
  Qed.

  (** ** Termination *)
  Variable paths : list path.
  Hypothesis finite : forall p, reach p -> In p paths.

  Lemma each_runs look names :
    (forall n st, In n names -> exists r, look n st = Some r) ->
    forall st, exists r, each text look names st = Some r.
  Proof.
    induction names as [|n ns IH]; intros H st; simpl; [eauto|].
    destruct (H n st (or_introl eq_refl)) as [[o st1] ->].
    destruct (IH (fun n' s Hin => H n' s (or_intror Hin)) st1) as [[os st2] ->]. eauto.
  Qed.

  Lemma lookup_runs fuel :
    forall p parents t n st,
      read p = Some t -> In n (imports t) -> reach p ->
      (forall c, In c parents -> reach c) -> NoDup (p :: parents) ->
      List.length paths < fuel + List.length (p :: parents) ->
      exists r, lookup fuel p parents n st = Some r.
  Proof.
    induction fuel as [|fuel IH]; intros p parents t n st Hp Hn Hr Hrs Hnd Hlen.
    - exfalso. assert (List.length (p :: parents) <= List.length paths); [|lia].
      apply NoDup_incl_length; [exact Hnd|]. intros c [<-|Hc]; auto.
    - rewrite lookup_eq.
      destruct (in_dec path_eq_dec (rel p n) (p :: parents)) as [e|e]; [eauto|].
      destruct (find_cache text (cache text st) (rel p n)); [eauto|].
      destruct (read (rel p n)) as [t'|] eqn:Er; [|eauto].
      assert (Hreach : reach (rel p n)).
      { eapply rt_trans; [exact Hr|apply rt_step]. exists t, n. repeat split; auto. rewrite Er. discriminate. }
      destruct (each_runs (lookup fuel (rel p n) (p :: parents)) (imports t')) with (st := st) as [[outs st1] E].
      + intros m s Hm. apply (IH (rel p n) (p :: parents) t' m s Er Hm Hreach).
        * intros c [<-|Hc]; auto.
        * constructor; [exact e|exact Hnd].
        * simpl in *. lia.
      + rewrite E. eauto.
  Qed.

  Theorem driver_runs fuel : List.length paths <= fuel -> exists r, driver fuel root = Some r.
  Proof.
    intros Hf. unfold Imports.driver. destruct (read root) as [t|] eqn:Er; [|eauto].
    destruct (each_runs (lookup fuel root []) (imports t)) with (st := no_props text) as [[outs st] E].
    - intros n st Hn. eapply lookup_runs; eauto.
      + apply rt_refl.
      + intros c [].
      + constructor; [intros []|constructor].
      + simpl. lia.
    - rewrite E. eauto.
  Qed.
End Generic.

Lemma last_snoc A (l : list A) a d : last (l ++ [a]) d = a.
Proof. induction l as [|x l IH]; [reflexivity|]. simpl. rewrite IH. destruct (l ++ [a]) eqn:E; [destruct l; discriminate|reflexivity]. Qed.

Lemma place_of_app cwd p q : place_of cwd (p ++ q) = place_of (place_of cwd p) q.
Proof. apply fold_left_app. Qed.

Lemma ends_split p : ends_in_name p = true -> exists d s, p = d ++ [CName s].
Proof.
  unfold ends_in_name. destruct (list_eq_dec comp_eq_dec p []) as [->|Hne]; [discriminate|].
  destruct (exists_last Hne) as (d & c & ->). rewrite last_snoc. destruct c; try discriminate. eauto.
Qed.

Lemma pop_snoc d s : pop (d ++ [CName s]) = d.
Proof.
  destruct d as [|c d]; [reflexivity|]. unfold pop.
  assert (removelast ((c :: d) ++ [CName s]) = c :: d) as E by apply removelast_last.
  simpl app in *. destruct c; try exact E. destruct d; [reflexivity|exact E].
Qed.

Lemma place_push cwd p s : place_of cwd (push p s) = go (place_of cwd p) (seg_comp s).
Proof.
  unfold push, seg_comp.
  destruct (String.eqb s ""); [reflexivity|].
  destruct (String.eqb s "."); [destruct p; reflexivity|].
  destruct (String.eqb s ".."); rewrite place_of_app; reflexivity.
Qed.

Lemma place_pushes cwd segs : forall p,
  place_of cwd (fold_left push segs p) = fold_left go (map seg_comp segs) (place_of cwd p).
Proof.
  induction segs as [|s segs IH]; intros p; [reflexivity|]. simpl. rewrite IH, place_push. reflexivity.
Qed.

Lemma place_rel cwd p n : ends_in_name p = true ->
  place_of cwd (rel p n) = import_place (place_of cwd p) n.
Proof.
  intros H. destruct (ends_split _ H) as (d & s & ->).
  unfold rel, import_place. rewrite place_pushes, pop_snoc, place_of_app. f_equal.
  simpl. rewrite removelast_last. reflexivity.
Qed.

Section Tree.
  Variable text : Type.
  Variable imports : text -> list string.
  Variable files : list (place * text).
  Variable own_errors : text -> list (outcome text) -> bool.
  Variable cwd : place.

  Notation file_at := (file_at text files).
  Notation read := (read_tree text files cwd).

  Lemma read_some p t : read p = Some t -> ends_in_name p = true /\ file_at (place_of cwd p) = Some t.
  Proof. unfold read_tree. destruct (ends_in_name p); [auto|discriminate]. Qed.

  Lemma edge_file p q : edge text imports read p q -> imports_file text imports files (place_of cwd p) (place_of cwd q).
  Proof.
    intros (t & n & Hp & Hn & -> & Hq). apply read_some in Hp as [He Hp].
    exists t, n. split; [exact Hp|]. split; [exact Hn|]. split; [apply place_rel; exact He|].
    destruct (read (rel p n)) eqn:E; [|congruence]. apply read_some in E as [_ E]. congruence.
  Qed.

  Lemma reach_program root p : reach text imports read root p ->
    in_program text imports files (place_of cwd root) (place_of cwd p).
  Proof.
    unfold reach, in_program. induction 1; [apply rt_step, edge_file; assumption|apply rt_refl|eapply rt_trans; eassumption].
  Qed.

  Lemma cyclic_cycle root : cyclic text imports read root -> import_cycle text imports files (place_of cwd root).
  Proof.
    intros (p & Hr & Hc). exists (place_of cwd p). split; [apply reach_program; exact Hr|].
    clear Hr. revert Hc. generalize p at 2 4. intros q Hc.
    induction Hc as [x y Hs|x y z _ IH1 _ IH2]; [apply t_step, edge_file; assumption|eapply t_trans; eassumption].
  Qed.

  (** *** Compiled units follow the files *)
  Section UnitInd.
    Variable P : unit text -> Prop.
    Hypothesis HP : forall t outs, (forall u, In (OUnit u) outs -> P u) -> P (Unit t outs).
    Fixpoint unit_ind' (u : unit text) : P u :=
      match u with
      | Unit t outs =>
          HP t outs
            ((fix go (os : list (outcome text)) : forall u, In (OUnit u) os -> P u :=
                match os return forall u, In (OUnit u) os -> P u with
                | [] => fun u H => match H with end
                | o :: os' => fun u H =>
                    match H with
                    | or_introl e =>
                        match o as o0 return o0 = OUnit u -> P u with
                        | OUnit v => fun e0 => eq_ind v P (unit_ind' v) u (f_equal (fun x => match x with OUnit w => w | _ => v end) e0)
                        | OCycle => fun e0 => match eq_ind OCycle (fun x => match x with OCycle => True | _ => False end) I _ e0 with end
                        | OIo => fun e0 => match eq_ind OIo (fun x => match x with OIo => True | _ => False end) I _ e0 with end
                        end e
                    | or_intror H' => go os' u H'
                    end
                end) outs)
      end.
  End UnitInd.

  Lemma coh_faithful u : forall p, coh text imports read p u -> faithful text imports files (place_of cwd p) u.
  Proof.
    induction u as [t outs IH] using unit_ind'; intros p H.
    inversion H as [p0 t0 outs0 Hp HF]; subst.
    apply read_some in Hp as [He Hp]. constructor; [exact Hp|].
    revert IH HF. generalize (imports t). clear H Hp.
    intros ns IH HF. induction HF as [|n o ns os (u & -> & Hu) HF IHF]; constructor.
    - exists u. split; [reflexivity|]. rewrite <- place_rel by exact He. apply IH; [left; reflexivity|exact Hu].
    - apply IHF. intros v Hv. apply IH. right; exact Hv.
  Qed.

  Lemma faithful_acc u : forall f, faithful text imports files f u ->
    Acc (fun g f => imports_file text imports files f g) f.
  Proof.
    induction u as [t outs IH] using unit_ind'; intros f H.
    inversion H as [f0 t0 outs0 Hf HF]; subst. constructor. intros g (t' & n & Hf' & Hn & -> & _).
    assert (t' = t) as -> by congruence.
    assert (Hx : exists u, In (OUnit u) outs /\ faithful text imports files (import_place f n) u).
    { clear IH H Hf Hf'. induction HF as [|m o ns os (u & -> & Hu) HF IHF]; [destruct Hn|].
      destruct Hn as [->|Hn]; [exists u; split; [left; reflexivity|exact Hu]|].
      destruct (IHF Hn) as (v & Hv & Hv'). exists v. split; [right; exact Hv|exact Hv']. }
    destruct Hx as (u & Hin & Hu). apply (IH u Hin _ Hu).
  Qed.

  Lemma faithful_import f u t n : faithful text imports files f u -> file_at f = Some t -> In n (imports t) ->
    exists v, faithful text imports files (import_place f n) v.
  Proof.
    intros H Hf Hn. inversion H as [f0 t0 outs0 Hf0 HF]; subst. assert (t0 = t) as -> by congruence.
    clear H Hf Hf0. induction HF as [|m o ns os (u & -> & Hu) HF IHF]; [destruct Hn|].
    destruct Hn as [->|Hn]; [eauto|auto].
  Qed.

  Lemma acc_no_cycle f : Acc (fun g f => imports_file text imports files f g) f ->
    ~ import_cycle text imports files f.
  Proof.
    intros Ha (g & Hr & Hc).
    assert (Hg : Acc (fun g f => imports_file text imports files f g) g).
    { clear Hc. unfold in_program in Hr. apply clos_rt_rt1n in Hr.
      induction Hr as [|x y z Hxy Hyz IH]; [exact Ha|]. apply IH. destruct Ha as [Ha]. apply Ha. exact Hxy. }
    clear Ha Hr f. induction Hg as [g _ IH].
    apply clos_trans_t1n in Hc. inversion Hc as [y Hy|y z Hy Hz]; subst.
    - apply (IH g Hy). apply t_step. exact Hy.
    - apply (IH y Hy). apply t_trans with g; [apply clos_t1n_trans; exact Hz|apply t_step; exact Hy].
  Qed.

  (** *** The paths a program without dot-dot can reach *)
  Variable root : path.
  Hypothesis Htree : proper_tree text files.
  Hypothesis Hup : no_up text imports files.

  Definition shape (p : path) (ns : list string) : Prop :=
    p = pop root ++ map CName ns \/ (pop root = [] /\ p = CCur :: map CName ns).

  Lemma shape_place p ns : shape p ns -> place_of cwd p = place_of cwd (pop root) ++ ns.
  Proof.
    assert (G : forall ns d, fold_left go (map CName ns) d = d ++ ns).
    { clear. induction ns as [|n ns IH]; intros d; [symmetry; apply app_nil_r|]. simpl. rewrite IH, <- app_assoc. reflexivity. }
    intros [->|[E ->]].
    - rewrite place_of_app. apply G.
    - rewrite E. unfold place_of. simpl. apply G.
  Qed.

  Lemma shape_push p ns s : s <> ".."%string -> shape p ns -> exists ns', shape (push p s) ns'.
  Proof.
    intros Hs H. unfold push.
    destruct (String.eqb_spec s ""); [eauto|].
    destruct (String.eqb_spec s ".").
    - destruct p; [|eauto]. exists []. right. destruct H as [H|[_ H]]; [|discriminate].
      symmetry in H. apply app_eq_nil in H as [H _]. auto.
    - destruct (String.eqb_spec s ".."); [contradiction|].
      exists (ns ++ [s]). destruct H as [->|[E ->]]; [left|right; split; [exact E|]]; rewrite map_app; simpl; [rewrite app_assoc|]; reflexivity.
  Qed.

  Lemma shape_pushes segs : ~ In ".."%string segs -> forall p ns, shape p ns -> exists ns', shape (fold_left push segs p) ns'.
  Proof.
    induction segs as [|s segs IH]; intros Hn p ns H; [eauto|]. simpl.
    destruct (shape_push p ns s) as (ns' & H'); [intros ->; apply Hn; left; reflexivity|exact H|].
    apply (IH (fun Hx => Hn (or_intror Hx)) _ _ H').
  Qed.

  Lemma shape_pop p ns : ns <> [] -> shape p ns -> shape (pop p) (removelast ns).
  Proof.
    intros Hne H. destruct (exists_last Hne) as (ns' & s & ->). rewrite removelast_last.
    unfold shape in *. rewrite map_app in H. simpl in H. rewrite app_comm_cons in H. rewrite app_assoc in H.
    destruct H as [->|[E ->]]; rewrite pop_snoc; auto.
  Qed.

  Lemma shape_readable t p ns : read root = Some t -> shape p ns -> read p <> None -> ns <> [].
  Proof.
    intros Hroot Hs Hr ->. destruct (read p) as [t'|] eqn:E; [|congruence]. clear Hr.
    apply read_some in E as [_ E]. apply read_some in Hroot as [He Hroot].
    rewrite (shape_place _ _ Hs), app_nil_r in E.
    destruct (ends_split _ He) as (d & s & Hd).
    assert (Hpl : place_of cwd root = place_of cwd (pop root) ++ [s]).
    { rewrite Hd, pop_snoc, place_of_app. reflexivity. }
    rewrite Hpl in Hroot.
    assert ([s] = []); [|discriminate].
    apply (Htree (place_of cwd (pop root)) (place_of cwd (pop root) ++ [s])); congruence.
  Qed.

  Lemma reach_shape t p : read root = Some t -> reach text imports read root p ->
    exists ns, ns <> [] /\ shape p ns /\ read p <> None.
  Proof.
    intros Hroot Hr. apply clos_rt_rtn1 in Hr.
    induction Hr as [|q r Hqr _ (ns & Hne & Hs & Hq)].
    - pose proof Hroot as Hroot'. apply read_some in Hroot' as [He _].
      destruct (ends_split _ He) as (d & s & Hd). exists [s]. split; [discriminate|]. split; [|congruence].
      left. rewrite Hd, pop_snoc. reflexivity.
    - destruct Hqr as (t' & n & Hq' & Hn & -> & Hr').
      apply read_some in Hq' as [_ Hq'].
      destruct (shape_pushes (split_slash n) (Hup _ _ _ Hq' Hn) _ _ (shape_pop _ _ Hne Hs)) as (ns' & Hs').
      exists ns'. split; [|auto]. eapply shape_readable; eauto.
  Qed.

  Definition all_paths : list path :=
    flat_map (fun pre => map (fun ft => pre ++ map CName (skipn (List.length (place_of cwd (pop root))) (fst ft))) files)
             [pop root; [CCur]].

  Lemma file_at_in f : forall fs, ImportsSpec.file_at text fs f <> None -> exists t, In (f, t) fs.
  Proof.
    induction fs as [|[g t] fs IH]; simpl; [congruence|]. destruct (place_eq_dec g f) as [->|_]; [eauto|].
    intros H. destruct (IH H) as (t' & H'). eauto.
  Qed.

  Lemma reach_paths t p : read root = Some t -> reach text imports read root p -> In p all_paths.
  Proof.
    intros Hroot Hr. destruct (reach_shape t p Hroot Hr) as (ns & _ & Hs & Hread).
    destruct (read p) as [t'|] eqn:E; [|congruence]. apply read_some in E as [_ E].
    rewrite (shape_place _ _ Hs) in E.
    destruct (file_at_in (place_of cwd (pop root) ++ ns) files) as (t0 & Hin); [congruence|].
    unfold all_paths. apply in_flat_map.
    assert (Hsk : skipn (List.length (place_of cwd (pop root))) (place_of cwd (pop root) ++ ns) = ns).
    { rewrite skipn_app, skipn_all, Nat.sub_diag. reflexivity. }
    destruct Hs as [->|[_ ->]].
    - exists (pop root). split; [left; reflexivity|]. apply in_map_iff. eexists; split; [|exact Hin]. simpl. rewrite Hsk. reflexivity.
    - exists [CCur]. split; [right; left; reflexivity|]. apply in_map_iff. eexists; split; [|exact Hin]. simpl. rewrite Hsk. reflexivity.
  Qed.

  Theorem tree_runs fuel : 2 * List.length files <= fuel ->
    exists r, driver text imports read own_errors fuel root = Some r.
  Proof.
    intros Hf. destruct (read root) as [t|] eqn:E.
    - apply driver_runs with all_paths.
      + intros p. eapply reach_paths. exact E.
      + unfold all_paths. simpl. rewrite !app_length, !map_length. exact Hf.
    - unfold driver. rewrite E. eauto.
  Qed.

  Lemma missing_import t p t' n : read root = Some t -> reach text imports read root p -> read p = Some t' -> In n (imports t') ->
    read (rel p n) = None -> file_at (import_place (place_of cwd p) n) = None.
  Proof.
    intros Hroot Hr Hp Hn Hmiss.
    destruct (reach_shape t p Hroot Hr) as (ns & Hne & Hs & _).
    apply read_some in Hp as [He Hp].
    destruct (shape_pushes (split_slash n) (Hup _ _ _ Hp Hn) _ _ (shape_pop _ _ Hne Hs)) as (ns' & Hs').
    change (fold_left push (split_slash n) (pop p)) with (rel p n) in Hs'.
    rewrite <- place_rel by exact He.
    destruct ns' as [|s ns0].
    - (* the directory of the root file *)
      rewrite (shape_place _ _ Hs'), app_nil_r.
      destruct (file_at (place_of cwd (pop root))) eqn:E; [|reflexivity]. exfalso.
      apply read_some in Hroot as [He' Hroot]. destruct (ends_split _ He') as (d & s & Hd).
      rewrite Hd, place_of_app in Hroot. rewrite Hd, pop_snoc in E. simpl in Hroot.
      assert ([s] = []); [|discriminate].
      apply (Htree (place_of cwd d) (place_of cwd d ++ [s])); [rewrite E|rewrite Hroot|reflexivity]; discriminate.
    - unfold read_tree in Hmiss.
      assert (Hend : ends_in_name (rel p n) = true).
      { assert (Hne' : s :: ns0 <> []) by discriminate. destruct (exists_last Hne') as (ms & m & E). rewrite E in Hs'.
        unfold shape in Hs'. rewrite map_app in Hs'. simpl in Hs'. rewrite app_comm_cons in Hs'. rewrite app_assoc in Hs'.
        destruct Hs' as [->|[_ ->]]; unfold ends_in_name; rewrite last_snoc; reflexivity. }
      rewrite Hend in Hmiss. exact Hmiss.
  Qed.
End Tree.
