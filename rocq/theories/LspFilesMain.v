(** The theorems about the language server's files, from the invariant in LspFilesProofs.v. *)
From Coq Require Import List Bool Arith Lia.
From Verif Require Import LspFiles LspFilesSpec LspFilesProofs.
Import ListNotations.

Section Main.
  Variable key : Type.
  Variable key_eq : forall a b : key, {a = b} + {a <> b}.
  Variable name : Type.
  Variable text : Type.
  Variable imports : text -> list name.
  Variable join : key -> name -> option key.
  Variable blank : text.

  Notation content := (content text).
  Notation unit := (unit text).
  Notation outcome := (outcome text).
  Notation fileset := (fileset key text).
  Notation event := (event key text).
  Notation files := (files key text).
  Notation shown := (shown key text).
  Notation comps := (comps key text).
  Notation set := (set key key_eq text).
  Notation handle := (handle key key_eq name text imports join blank).
  Notation handle_all := (handle_all key key_eq name text imports join blank).
  Notation run := (run key key_eq name text imports join blank).
  Notation compile := (compile key key_eq name text imports join blank).
  Notation each := (each name text).
  Notation plook := (plook key key_eq name text imports join).
  Notation pcompile := (pcompile key key_eq name text imports join blank).
  Notation Inv := (Inv key key_eq name text imports join blank).
  Notation opened := (opened key text).
  Notation view := (view key text).
  Notation last_sent := (last_sent key key_eq text).
  Notation open_after := (open_after key key_eq text).
  Notation disks := (disks key text).
  Notation pfind := (pfind key key_eq text).
  Notation pstore := (pstore key key_eq text).
  Notation pdeps := (pdeps key text).
  Notation keys := (keys key text).
  Notation means := (means key name text imports join).

  (** ** Histories *)
  Definition kept (disk : key -> content) (evs : list event) (fs fs' : fileset) (k : key) : Prop :=
    match last_sent evs k with
    | Some t => exists n, fs' k = Some (Text t, n)
    | None => match fs k with
              | Some x => fs' k = Some x
              | None => fs' k = None \/ exists d n, In d (disk :: disks evs) /\ fs' k = Some (d k, n)
              end
    end.

  Lemma ext_keep disk fs fs' k x : ext key text disk fs fs' -> fs k = Some x -> fs' k = Some x.
  Proof. intros H E. specialize (H k). rewrite E in H. exact H. Qed.

  Lemma set_same fs a t : exists n, set fs a t a = Some (Text t, n).
  Proof. unfold LspFiles.set, put. destruct (key_eq a a); [eauto|contradiction]. Qed.

  Lemma set_other fs a t k : k <> a -> set fs a t k = fs k.
  Proof. intros H. unfold LspFiles.set, put. destruct (key_eq k a); [contradiction|reflexivity]. Qed.

  (** one step then the rest *)
  Lemma kept_step disk disk1 evs e fs fs1 fs2 k :
    (forall d, In d (disk1 :: disks evs) -> In d (disk :: disks (e :: evs))) ->
    kept disk1 evs fs1 fs2 k ->
    match last_sent [e] k with
    | Some t => exists n, fs1 k = Some (Text t, n)
    | None => match fs k with Some x => fs1 k = Some x | None => fs1 k = None \/ fs1 k = Some (disk k, 1) end
    end ->
    kept disk (e :: evs) fs fs2 k.
  Proof.
    intros Hd Hk He. unfold kept in *. cbn [LspFilesSpec.last_sent] in *.
    destruct (last_sent evs k) as [t|]; [exact Hk|].
    set (own := match e with Open j t => if key_eq j k then Some t else None
                        | Change j t more => if key_eq j k then Some (last more t) else None
                        | _ => None end) in *.
    destruct own as [t|].
    - destruct He as (n & He). rewrite He in Hk. eauto.
    - destruct (fs k) as [x|].
      + rewrite He in Hk. exact Hk.
      + destruct He as [He|He]; rewrite He in Hk.
        * destruct Hk as [Hk|(d & n & Hin & Hk)]; [auto|]. right. exists d, n. auto.
        * right. exists disk, 1. split; [left; reflexivity|exact Hk].
  Qed.

  Lemma handle_all_inv fuel : forall evs disk s disk' s',
    Inv fuel s -> single key text evs -> handle_all disk fuel s evs = Some (disk', s') ->
    Inv fuel s' /\ In disk' (disk :: disks evs) /\
    (forall k, kept disk evs (files s) (files s') k) /\
    (forall k b, (opened s k <-> b = true) -> (opened s' k <-> open_after evs k b = true)).
  Proof.
    induction evs as [|e evs IH]; intros disk s disk' s' Hi Hs H; simpl in H.
    - injection H; intros; subst. split; [exact Hi|]. split; [left; reflexivity|]. split; [|auto].
      intros k. unfold kept. simpl. destruct (files s' k); auto.
    - destruct (handle disk fuel s e) as [[disk1 s1]|] eqn:Eh; [|discriminate].
      apply handle_inv in Eh as (Hi1 & He); [|exact Hi].
      assert (Hs1 : single key text evs) by (intros k t more Hin; eapply Hs; right; exact Hin).
      destruct (IH disk1 s1 disk' s' Hi1 Hs1 H) as (Hi' & Hd' & Hk' & Ho').
      split; [exact Hi'|].
      assert (Hd : forall d, In d (disk1 :: disks evs) -> In d (disk :: disks (e :: evs))).
      { destruct e; simpl in *; destruct He as [-> _]; auto. }
      split; [apply Hd; exact Hd'|]. split.
      + intros k. eapply kept_step; [exact Hd|apply Hk'|].
        destruct e as [a t|a t more|a|d]; cbn [LspFilesSpec.last_sent].
        * destruct He as (_ & He & _). destruct (key_eq a k) as [->|Hne].
          -- destruct (set_same (files s) k t) as (n & Hn). exists n. eapply ext_keep; eassumption.
          -- specialize (He k). rewrite set_other in He by congruence. destruct (files s k); exact He.
        * destruct He as (_ & He & _). destruct (key_eq a k) as [->|Hne].
          -- rewrite (Hs k t more (or_introl eq_refl)). simpl.
             destruct (set_same (files s) k t) as (n & Hn). exists n. eapply ext_keep; eassumption.
          -- specialize (He k). rewrite set_other in He by congruence. destruct (files s k); exact He.
        * destruct He as (_ & -> & _). destruct (files s k); auto.
        * destruct He as (_ & ->). destruct (files s k); auto.
      + intros k b Hb. destruct e as [a t|a t more|a|d]; cbn [LspFilesSpec.open_after]; apply Ho'.
        * destruct He as (_ & _ & He). rewrite He. destruct (key_eq a k) as [->|Hne]; [tauto|].
          rewrite Hb. split; [intros [->|?]; [contradiction|assumption]|auto].
        * destruct He as (_ & _ & He). rewrite He. exact Hb.
        * destruct He as (_ & _ & He). rewrite He. destruct (key_eq a k) as [->|Hne].
          -- split; [tauto|discriminate].
          -- rewrite Hb. split; [tauto|]. intros Hx. split; [exact Hx|congruence].
        * destruct He as (_ & ->). exact Hb.
  Qed.

  Lemma Inv_new fuel : Inv fuel (new_server key text).
  Proof. split; [constructor|]. split; [intros k c []|reflexivity]. Qed.

  Lemma open_sent : forall evs k, open_after evs k false = true -> exists t, last_sent evs k = Some t.
  Proof.
    assert (H : forall evs k b, open_after evs k b = true -> b = true \/ exists t, last_sent evs k = Some t).
    { induction evs as [|e evs IH]; intros k b H; simpl in *; [auto|].
      destruct e as [a t|a t more|a|d].
      - apply IH in H as [H|(t' & H)]; [|rewrite H; right; eauto].
        destruct (key_eq a k); [|auto]. right. destruct (last_sent evs k); eauto.
      - apply IH in H as [H|(t' & H)]; [auto|rewrite H; right; eauto].
      - apply IH in H as [H|(t' & H)]; [|rewrite H; right; eauto]. destruct (key_eq a k); [discriminate|auto].
      - apply IH in H as [H|(t' & H)]; [auto|rewrite H; right; eauto]. }
    intros evs k Hk. apply H in Hk as [Hk|Hk]; [discriminate|exact Hk].
  Qed.

  (** What is shown for the open files is the compilation of the current texts. *)
  Theorem run_current fuel disk evs s :
    single key text evs -> run fuel disk evs = Some s ->
    exists w, current key key_eq text disk evs w /\
    forall k, if is_open key key_eq text evs k
              then exists u d, shown s k = Some u /\ pcompile w fuel k = Some (u, d)
              else shown s k = None.
  Proof.
    intros Hs H. unfold LspFiles.run in H.
    destruct (handle_all disk fuel (new_server key text) evs) as [[disk' s']|] eqn:E; [|discriminate].
    injection H; intros; subst.
    apply handle_all_inv in E as ((Hnd & Hg & Hno) & Hd & Hk & Ho); [|apply Inv_new|exact Hs].
    exists (view disk' (files s)). split.
    - intros k. specialize (Hk k). unfold kept in Hk. cbn [LspFiles.files new_server] in Hk.
      unfold LspFilesProofs.view. destruct (last_sent evs k) as [t|].
      + destruct Hk as (n & Hk). rewrite Hk. reflexivity.
      + destruct Hk as [Hk|(d & n & Hin & Hk)]; rewrite Hk; eauto.
    - intros k. unfold is_open. specialize (Ho k false).
      assert (Hb : opened (new_server key text) k <-> false = true).
      { unfold LspFilesProofs.opened. simpl. split; [intros []|discriminate]. }
      specialize (Ho Hb). destruct (open_after evs k false).
      + assert (Hin : opened s k) by (apply Ho; reflexivity).
        unfold LspFilesProofs.opened in Hin. apply in_map_iff in Hin as ([k0 c] & Hk0 & Hin). simpl in Hk0; subst k0.
        destruct (Hg _ _ Hin) as (u & Hu & _ & _ & Hp). exists u. eexists. split; [exact Hu|].
        apply Hp. apply agrees_view.
      + apply Hno. intros Hin. apply Ho in Hin. discriminate.
  Qed.

  (** A server just started that only opens one file shows that too. *)
  Lemma run_fresh fuel w k t u d :
    w k = Text t -> pcompile w fuel k = Some (u, d) ->
    exists s, run fuel w [Open k t] = Some s /\ shown s k = Some u.
  Proof.
    intros Hk Hp.
    unfold LspFiles.run. cbn [LspFiles.handle_all LspFiles.handle LspFiles.new_server LspFiles.files LspFiles.comps LspFiles.shown without filter].
    set (fs := set (fun _ => None) k t).
    assert (Hfs : fs k = Some (Text t, 1)). { unfold fs, LspFiles.set, put. destruct (key_eq k k); [reflexivity|contradiction]. }
    unfold update. cbn [LspFiles.files LspFiles.comps LspFiles.shown refresh_all].
    unfold refresh. cbn [new_compilation dependencies source_version any_stale].
    unfold get. rewrite Hfs. cbn [orb Nat.ltb Nat.leb]. cbn [show_all dependencies source_version].
    assert (Hv : forall j, view w fs j = w j).
    { intros j. unfold LspFilesProofs.view, fs, LspFiles.set, put. destruct (key_eq j k) as [->|]; [symmetry; exact Hk|reflexivity]. }
    destruct (compile_sim key key_eq name text imports join blank w w fuel k fs Hv) as [Hs _].
    rewrite Hp in Hs. unfold simres in Hs.
    match goal with |- context [LspFiles.compile ?a ?b ?c ?d0 ?e ?f ?g ?h ?i ?j ?l] =>
      change (compile w fuel k (@pair fileset (deps key text) fs [])) with (LspFiles.compile a b c d0 e f g h i j l) in Hs;
      destruct (LspFiles.compile a b c d0 e f g h i j l) as [[u' [fs1 d1]]|]; [|contradiction] end.
    destruct Hs as (-> & _). cbn [LspFiles.files LspFiles.comps LspFiles.shown].
    eexists. split; [reflexivity|]. cbn [LspFiles.shown]. unfold show. destruct (key_eq k k); [reflexivity|contradiction].
  Qed.

  (** ** Meaning of the shown units *)
  Section UnitInd.
    Variable P : unit -> Prop.
    Hypothesis HP : forall t outs, (forall u, In (OUnit u) outs -> P u) -> P (Unit t outs).
    Fixpoint unit_ind' (u : unit) : P u :=
      match u with
      | Unit t outs =>
          HP t outs
            ((fix go (os : list outcome) : forall u, In (OUnit u) os -> P u :=
                match os return forall u, In (OUnit u) os -> P u with
                | [] => fun u H => match H with end
                | o :: os' => fun u H =>
                    match H with
                    | or_introl e =>
                        match o as o0 return o0 = OUnit u -> P u with
                        | OUnit v => fun e0 => eq_ind v P (unit_ind' v) u (f_equal (fun x => match x with OUnit w => w | _ => v end) e0)
                        | OMissing => fun e0 => match eq_ind OMissing (fun x => match x with OMissing => True | _ => False end) I _ e0 with end
                        | OCycle => fun e0 => match eq_ind OCycle (fun x => match x with OCycle => True | _ => False end) I _ e0 with end
                        | OIo => fun e0 => match eq_ind OIo (fun x => match x with OIo => True | _ => False end) I _ e0 with end
                        end e
                    | or_intror H' => go os' u H'
                    end
                end) outs)
      end.
  End UnitInd.

  Fixpoint usize (u : unit) : nat :=
    match u with
    | Unit _ outs => S (list_sum (map (fun o => match o with OUnit v => usize v | _ => 0 end) outs))
    end.

  Lemma usize_in u t outs : In (OUnit u) outs -> usize u < usize (Unit t outs).
  Proof.
    intros Hin. simpl. apply le_n_S. induction outs as [|o outs IH]; [destruct Hin|].
    cbn [map list_sum fold_right]. destruct Hin as [->|Hin]; [lia|]. specialize (IH Hin).
    unfold list_sum in *. lia.
  Qed.

  Lemma means_det v u : forall k u', means v k u -> means v k u' -> u = u'.
  Proof.
    induction u as [t outs IH] using unit_ind'; intros k u' H H'.
    inversion H as [k0 t0 outs0 Hk HF]; subst. inversion H' as [k1 t1 outs1 Hk1 HF1]; subst.
    assert (t1 = t) as -> by congruence. f_equal.
    clear H H' Hk Hk1. revert outs1 HF1 IH. induction HF as [|n o ns os (j & u & Hj & -> & Hu) HF IHF]; intros outs1 HF1 IH.
    - inversion HF1. reflexivity.
    - inversion HF1 as [|n1 o1 ns1 os1 (j1 & u1 & Hj1 & -> & Hu1) HF2]; subst.
      assert (j1 = j) as -> by congruence. f_equal.
      + f_equal. apply (IH u (or_introl eq_refl) j); assumption.
      + apply IHF; [exact HF2|]. intros w Hw. apply IH. right; exact Hw.
  Qed.

  Lemma pfind_store d k u j : pfind (pstore d k u) j =
    if key_eq k j then match pfind d k with Some _ => Some (Some u) | None => None end else pfind d j.
  Proof.
    induction d as [|[i w] d IH]; simpl; [destruct (key_eq k j); reflexivity|].
    destruct (key_eq i k) as [->|Hik]; simpl.
    - destruct (key_eq k j); reflexivity.
    - rewrite IH. destruct (key_eq i j) as [->|Hij].
      + destruct (key_eq k j); [congruence|reflexivity].
      + destruct (key_eq k j); reflexivity.
  Qed.

  Lemma pfind_keys d k : (exists o, pfind d k = Some o) <-> In k (keys d).
  Proof.
    induction d as [|[i w] d IH]; simpl; [split; [intros (o & H); discriminate|intros []]|].
    destruct (key_eq i k) as [->|Hne]; [split; eauto|]. rewrite IH. split; [auto|]. intros [H|H]; [contradiction|exact H].
  Qed.

  Definition entries (v : key -> content) (bound : nat) (d : pdeps) : Prop :=
    forall k o, pfind d k = Some o ->
      match o with
      | Some u => means v k u
      | None => exists u, means v k u /\ bound <= usize u
      end.

  Definition looks (v : key -> content) (cur : key) (look : name -> pdeps -> option (outcome * pdeps)) : Prop :=
    forall n j u bound d o d',
      join cur n = Some j -> means v j u -> usize u < bound -> entries v bound d ->
      look n d = Some (o, d') ->
      o = OUnit u /\ entries v bound d' /\ (forall k, pfind d' k = Some None -> pfind d k = Some None).

  Lemma each_means v cur look bound : looks v cur look ->
    forall names outs,
      Forall2 (fun n o => exists j u, join cur n = Some j /\ o = OUnit u /\ means v j u) names outs ->
      (forall u, In (OUnit u) outs -> usize u < bound) ->
      forall d os d', entries v bound d -> each look names d = Some (os, d') ->
        os = outs /\ entries v bound d' /\ (forall k, pfind d' k = Some None -> pfind d k = Some None).
  Proof.
    intros HL names outs HF. induction HF as [|n o ns os (j & u & Hj & -> & Hu) HF IH]; intros Hb d os' d' He H; simpl in H.
    - injection H; intros; subst. auto.
    - destruct (look n d) as [[o1 d1]|] eqn:E1; [|discriminate].
      destruct (each look ns d1) as [[os1 d2]|] eqn:E2; [|discriminate]. injection H; intros; subst.
      destruct (HL _ _ _ _ _ _ _ Hj Hu (Hb u (or_introl eq_refl)) He E1) as (-> & He1 & Hn1).
      destruct (IH (fun u' Hin => Hb u' (or_intror Hin)) _ _ _ He1 E2) as (-> & He2 & Hn2). auto.
  Qed.

  Lemma plook_means v fuel : forall cur, looks v cur (plook v fuel cur).
  Proof.
    induction fuel as [|fuel IH]; intros cur n j u bound d o d' Hj Hu Hb He H; simpl in H; [discriminate|].
    rewrite Hj in H. destruct (pfind d j) as [[u'|]|] eqn:Ef.
    - injection H; intros; subst. split; [|auto]. f_equal. symmetry. eapply means_det; [exact Hu|]. apply (He _ _ Ef).
    - exfalso. destruct (He _ _ Ef) as (u0 & Hu0 & Hb0). rewrite (means_det _ _ _ _ Hu0 Hu) in Hb0. lia.
    - pose proof Hu as Hu'. inversion Hu' as [j0 t outs Hv HF]; subst. rewrite Hv in H.
      destruct (each (plook v fuel j) (imports t) ((j, None) :: d)) as [[os d2]|] eqn:Ee; [|discriminate].
      injection H; intros; subst.
      pose proof (each_means v j (plook v fuel j) (usize (Unit t outs)) (IH j) (imports t) outs HF
                    (fun u0 Hin => usize_in u0 t outs Hin) ((j, None) :: d) os d2) as HE.
      destruct HE as (-> & He2 & Hn2).
      + intros k o Hk. simpl in Hk. destruct (key_eq j k) as [<-|Hne].
        * injection Hk as <-. eauto.
        * specialize (He _ _ Hk). destruct o; [exact He|]. destruct He as (u0 & H0 & H1). exists u0. split; [exact H0|lia].
      + exact Ee.
      + assert (Hjin : exists o, pfind d2 j = Some o).
        { apply pfind_keys. apply (each_grows key name text _ _ (plook_grows key key_eq name text imports join v fuel j) _ _ _ Ee). left; reflexivity. }
        assert (Hn : forall k, k <> j -> pfind d2 k = Some None -> pfind d k = Some None).
        { intros k Hne Hk. apply Hn2 in Hk. simpl in Hk. destruct (key_eq j k); [congruence|exact Hk]. }
        split; [reflexivity|]. split.
        * intros k o Hk. rewrite pfind_store in Hk. destruct (key_eq j k) as [<-|Hne].
          -- destruct Hjin as (o' & Ho'). rewrite Ho' in Hk. injection Hk as <-. exact Hu.
          -- destruct o as [u0|]; [apply (He2 _ _ Hk)|]. apply (He _ _ (Hn _ (not_eq_sym Hne) Hk)).
        * intros k Hk. rewrite pfind_store in Hk. destruct (key_eq j k) as [<-|Hne].
          -- destruct Hjin as (o' & Ho'). rewrite Ho' in Hk. discriminate.
          -- apply Hn; [congruence|exact Hk].
  Qed.

  Theorem pcompile_means v fuel k u u' d :
    means v k u -> pcompile v fuel k = Some (u', d) -> u' = u.
  Proof.
    intros Hu H. inversion Hu as [k0 t outs Hk HF]; subst. unfold LspFilesProofs.pcompile, source in H. rewrite Hk in H.
    destruct (each (plook v fuel k) (imports t) []) as [[os d2]|] eqn:Ee; [|discriminate].
    injection H; intros; subst.
    destruct (each_means v k _ (usize (Unit t outs)) (plook_means v fuel k) (imports t) outs HF
                (fun u0 Hin => usize_in u0 t outs Hin) [] os d) as (-> & _).
    - intros j o Hj. discriminate.
    - exact Ee.
    - reflexivity.
  Qed.

  (** ** When the message import cycle is shown *)
  Definition stuck (v : key -> content) (chain : list key) (d : pdeps) : Prop :=
    forall k, pfind d k = Some None -> In k chain \/ forall t, v k <> Text t.

  Definition cycles (v : key -> content) (cur : key) (chain : list key) (look : name -> pdeps -> option (outcome * pdeps)) : Prop :=
    forall n d o d', stuck v chain d -> look n d = Some (o, d') ->
      stuck v chain d' /\ (o = OCycle -> exists j, join cur n = Some j /\ (In j chain \/ forall t, v j <> Text t)).

  Lemma each_cycles v cur chain look : cycles v cur chain look ->
    forall names d os d', stuck v chain d -> each look names d = Some (os, d') ->
      stuck v chain d' /\
      Forall2 (fun n o => o = OCycle -> exists j, join cur n = Some j /\ (In j chain \/ forall t, v j <> Text t)) names os.
  Proof.
    intros HL. induction names as [|n ns IH]; intros d os d' Hs H; simpl in H.
    - injection H; intros; subst. auto.
    - destruct (look n d) as [[o1 d1]|] eqn:E1; [|discriminate].
      destruct (each look ns d1) as [[os1 d2]|] eqn:E2; [|discriminate]. injection H; intros; subst.
      destruct (HL _ _ _ _ Hs E1) as (Hs1 & Ho). destruct (IH _ _ _ Hs1 E2) as (Hs2 & Hos). auto.
  Qed.

  Lemma plook_cycles v fuel : forall cur chain, cycles v cur chain (plook v fuel cur).
  Proof.
    induction fuel as [|fuel IH]; intros cur chain n d o d' Hs H; simpl in H; [discriminate|].
    destruct (join cur n) as [j|]; [|injection H; intros; subst; split; [exact Hs|discriminate]].
    destruct (pfind d j) as [[u'|]|] eqn:Ef.
    - injection H; intros; subst. split; [exact Hs|discriminate].
    - injection H; intros; subst. split; [exact Hs|]. intros _. exists j. auto.
    - destruct (v j) as [t| |] eqn:Ev.
      + destruct (each (plook v fuel j) (imports t) ((j, None) :: d)) as [[os d2]|] eqn:Ee; [|discriminate].
        injection H; intros; subst. split; [|discriminate].
        assert (Hs1 : stuck v (j :: chain) ((j, None) :: d)).
        { intros k Hk. simpl in Hk. destruct (key_eq j k) as [->|Hne]; [left; left; reflexivity|].
          destruct (Hs _ Hk); [left; right; assumption|auto]. }
        destruct (each_cycles v j (j :: chain) _ (IH j (j :: chain)) _ _ _ _ Hs1 Ee) as (Hs2 & _).
        intros k Hk. rewrite pfind_store in Hk. destruct (key_eq j k) as [->|Hne].
        * destruct (pfind d2 k); discriminate.
        * destruct (Hs2 _ Hk) as [[Hx|Hx]|Hx]; [contradiction|auto|auto].
      + injection H; intros; subst. split; [|discriminate].
        intros k Hk. simpl in Hk. destruct (key_eq j k) as [->|Hne]; [right; congruence|auto].
      + injection H; intros; subst. split; [|discriminate].
        intros k Hk. simpl in Hk. destruct (key_eq j k) as [->|Hne]; [right; congruence|auto].
  Qed.

  Theorem pcompile_cycles v fuel k t outs d :
    v k = Text t -> pcompile v fuel k = Some (Unit t outs, d) ->
    Forall2 (fun n o => o = OCycle -> exists j, join k n = Some j /\ forall t, v j <> Text t) (imports t) outs.
  Proof.
    intros Hk H. unfold LspFilesProofs.pcompile, source in H. rewrite Hk in H.
    destruct (each (plook v fuel k) (imports t) []) as [[os d2]|] eqn:Ee; [|discriminate].
    injection H; intros; subst.
    destruct (each_cycles v k [] _ (plook_cycles v fuel k []) _ _ _ _ (fun j (Hj : pfind [] j = Some None) => ltac:(discriminate Hj)) Ee) as (_ & HF).
    clear Ee H Hk. induction HF as [|n o ns os' Ho _ IH]; constructor; [|exact IH].
    intros E. destruct (Ho E) as (j & Hj & [[]|Hx]). eauto.
  Qed.

  (** ** Termination *)
  Variable all : list key.

  Definition todo (d : pdeps) : nat :=
    List.length (filter (fun k => if in_dec key_eq k (keys d) then false else true) all).

  Lemma filter_le (f g : key -> bool) l : (forall x, f x = true -> g x = true) -> List.length (filter f l) <= List.length (filter g l).
  Proof.
    intros H. induction l as [|x l IH]; simpl; [lia|]. destruct (f x) eqn:E; [rewrite (H _ E); simpl; lia|].
    destruct (g x); simpl; lia.
  Qed.

  Lemma filter_lt (f g : key -> bool) l x : (forall x, f x = true -> g x = true) -> In x l -> f x = false -> g x = true ->
    List.length (filter f l) < List.length (filter g l).
  Proof.
    intros H. induction l as [|y l IH]; intros Hin Hf Hg; [destruct Hin|]. simpl. destruct Hin as [->|Hin].
    - rewrite Hf, Hg. simpl. pose proof (filter_le f g l H). lia.
    - specialize (IH Hin Hf Hg). destruct (f y) eqn:E; [rewrite (H _ E); simpl; lia|]. destruct (g y); simpl; lia.
  Qed.

  Lemma todo_le d d' : incl (keys d) (keys d') -> todo d' <= todo d.
  Proof.
    intros Hi. apply filter_le. intros x Hx. destruct (in_dec key_eq x (keys d')); [discriminate|].
    destruct (in_dec key_eq x (keys d)); [exfalso; auto|reflexivity].
  Qed.

  Lemma todo_lt d k : In k all -> pfind d k = None -> todo ((k, None) :: d) < todo d.
  Proof.
    intros Hin Hf. apply filter_lt with k.
    - intros x Hx. destruct (in_dec key_eq x (keys ((k, None) :: d))) as [|Hn]; [discriminate|].
      destruct (in_dec key_eq x (keys d)); [exfalso; apply Hn; right; assumption|reflexivity].
    - exact Hin.
    - destruct (in_dec key_eq k (keys ((k, None) :: d))) as [|Hn]; [reflexivity|exfalso; apply Hn; left; reflexivity].
    - destruct (in_dec key_eq k (keys d)) as [Hk|]; [|reflexivity]. apply pfind_keys in Hk as (o & Hk). congruence.
  Qed.

  Lemma each_runs look names : grows key name text look ->
    forall bound, (forall n d, todo d < bound -> exists r, look n d = Some r) ->
    forall d, todo d < bound -> exists r, each look names d = Some r.
  Proof.
    intros Hg bound HL. induction names as [|n ns IH]; intros d Hd; simpl; [eauto|].
    destruct (HL n d Hd) as [[o d1] E]. rewrite E.
    assert (Hd1 : todo d1 < bound) by (apply Hg in E; apply todo_le in E; lia).
    destruct (IH d1 Hd1) as [[os d2] E2]. rewrite E2. eauto.
  Qed.

  Lemma plook_runs v fuel : (forall k t, v k = Text t -> In k all) ->
    forall cur n d, todo d < fuel -> exists r, plook v fuel cur n d = Some r.
  Proof.
    intros Hall. induction fuel as [|fuel IH]; intros cur n d Hd; [lia|]. simpl.
    destruct (join cur n) as [j|]; [|eauto]. destruct (pfind d j) as [[u|]|] eqn:Ef; [eauto..|].
    destruct (v j) as [t| |] eqn:Ev; [|eauto..].
    pose proof (todo_lt d j (Hall _ _ Ev) Ef) as Hlt.
    destruct (each_runs (plook v fuel j) (imports t) (plook_grows key key_eq name text imports join v fuel j) fuel (IH j) ((j, None) :: d)) as [[os d2] E]; [lia|].
    rewrite E. eauto.
  Qed.

  Lemma pcompile_runs v fuel k : (forall k t, v k = Text t -> In k all) -> List.length all < fuel ->
    exists r, pcompile v fuel k = Some r.
  Proof.
    intros Hall Hf. unfold LspFilesProofs.pcompile.
    destruct (each_runs (plook v fuel k) (imports (source text blank (v k))) (plook_grows key key_eq name text imports join v fuel k) fuel
                (plook_runs v fuel Hall k) []) as [[os d] E].
    - unfold todo. pose proof (filter_le (fun x => if in_dec key_eq x (keys []) then false else true) (fun _ => true) all (fun _ _ => eq_refl)) as H.
      assert (List.length (filter (fun _ : key => true) all) = List.length all) as El.
      { clear. induction all; simpl; congruence. }
      lia.
    - rewrite E. eauto.
  Qed.

  Definition bounded (fs : fileset) : Prop := forall k t n, fs k = Some (Text t, n) -> In k all.
  Definition bounded_disk (disk : key -> content) : Prop := forall k t, disk k = Text t -> In k all.

  Lemma bounded_view disk fs : bounded_disk disk -> bounded fs -> forall k t, view disk fs k = Text t -> In k all.
  Proof. intros Hd Hf k t H. unfold LspFilesProofs.view in H. destruct (fs k) as [[c n]|] eqn:E; [subst; eauto|eauto]. Qed.

  Lemma bounded_ext disk fs fs' : bounded_disk disk -> bounded fs -> ext key text disk fs fs' -> bounded fs'.
  Proof.
    intros Hd Hf He k t n H. specialize (He k). destruct (fs k) as [[c m]|] eqn:E.
    - rewrite He in H. injection H; intros; subst. eauto.
    - destruct He as [He|He]; [congruence|]. rewrite He in H. injection H; intros; subst. eauto.
  Qed.

  Lemma compile_runs disk fuel k (fs : fileset) : bounded_disk disk -> bounded fs -> List.length all < fuel ->
    exists u fs1 d1, compile disk fuel k (@pair fileset (deps key text) fs []) = Some (u, (fs1, d1)) /\ bounded fs1.
  Proof.
    intros Hd Hf Hl.
    destruct (pcompile_runs (view disk fs) fuel k (bounded_view disk fs Hd Hf) Hl) as [[u e] Hp].
    destruct (compile_sim key key_eq name text imports join blank disk (view disk fs) fuel k fs (fun _ => eq_refl)) as [Hs _].
    rewrite Hp in Hs. unfold simres in Hs.
    destruct (compile disk fuel k (@pair fileset (deps key text) fs [])) as [[u' [fs1 d1]]|]; [|contradiction].
    destruct Hs as (_ & _ & He & _). exists u', fs1, d1. split; [reflexivity|]. eapply bounded_ext; eassumption.
  Qed.

  Lemma show_all_runs disk fuel : bounded_disk disk -> List.length all < fuel ->
    forall (rs : list (key * compilation key text * bool)) (fs : fileset) sh, bounded fs ->
    (forall k c, In (k, c, true) rs -> dependencies key text c = []) ->
    exists s, show_all key key_eq name text imports join blank disk fuel fs sh rs = Some s.
  Proof.
    intros Hd Hl. induction rs as [|[[k c] m] rs IH]; intros fs sh Hf Hr; simpl; [eauto|].
    assert (Hr' : forall k c, In (k, c, true) rs -> dependencies key text c = []) by (intros k' c' Hin; eapply Hr; right; exact Hin).
    destruct m.
    - rewrite (Hr k c (or_introl eq_refl)).
      destruct (compile_runs disk fuel k fs Hd Hf Hl) as (u & fs1 & d1 & E & Hf1). rewrite E.
      destruct (IH fs1 (show key key_eq text sh k (Some u)) Hf1 Hr') as (s & Es). rewrite Es. eauto.
    - destruct (IH fs sh Hf Hr') as (s & Es). rewrite Es. eauto.
  Qed.

  Lemma refresh_all_deps disk : forall cs (fs : fileset) rs fs1,
    refresh_all key key_eq text disk fs cs = (rs, fs1) ->
    forall k c, In (k, c, true) rs -> dependencies key text c = [].
  Proof.
    induction cs as [|[k c] cs IH]; intros fs rs fs1 H k' c' Hin; simpl in H.
    - injection H; intros; subst. destruct Hin.
    - destruct (refresh key key_eq text disk fs k c) as [[c1 m] fs2] eqn:Er.
      destruct (refresh_all key key_eq text disk fs2 cs) as [rs' fs3] eqn:Ea.
      injection H; intros; subst. destruct Hin as [Hin|Hin]; [|eapply IH; eassumption].
      injection Hin; intros; subst. unfold refresh in Er.
      destruct (any_stale key key_eq text disk fs (dependencies key text c)) as [st fs4].
      destruct (get key key_eq text disk fs4 k') as [[x n] fs5].
      destruct (st || (source_version key text c <? n)); injection Er; intros; subst; [reflexivity|discriminate].
  Qed.

  (** Every file readable at any time, on disk or sent, is among [all]. *)
  Definition known (disk : key -> content) (evs : list event) : Prop :=
    (forall d, In d (disk :: disks evs) -> bounded_disk d) /\
    (forall k t, In (Open k t) evs -> In k all) /\ (forall k t more, In (Change k t more) evs -> In k all).

  Lemma handle_runs disk fuel s e : Inv fuel s -> bounded_disk disk -> bounded (files s) ->
    (forall k t, e = Open k t -> In k all) -> (forall k t more, e = Change k t more -> In k all) -> List.length all < fuel ->
    exists disk' s', handle disk fuel s e = Some (disk', s') /\ bounded (files s').
  Proof.
    intros Hi Hd Hf Ho Hc Hl.
    assert (Hset : forall k t, In k all -> bounded (set (files s) k t)).
    { intros k t Hk j x n Hj. unfold LspFiles.set, put in Hj. destruct (key_eq j k); [subst; exact Hk|eauto]. }
    assert (Hrun : exists disk' s', handle disk fuel s e = Some (disk', s')).
    { destruct Hi as (Hnd & Hg & Hno). destruct e as [k t|k t more|k|d]; cbn [LspFiles.handle]; [| |eauto|eauto].
      - unfold update. cbn [LspFiles.files LspFiles.comps LspFiles.shown].
        match goal with |- context [refresh_all ?a ?b ?c ?d ?e ?f] => destruct (refresh_all a b c d e f) as [rs fs] eqn:Er end.
        pose proof (refresh_all_deps _ _ _ _ _ Er) as Hdep.
        apply refresh_all_spec with (name := name) (imports := imports) (join := join) (blank := blank) (fuel := fuel) (sh := shown s) in Er.
        + destruct Er as (-> & _).
          destruct (show_all_runs disk fuel Hd Hl rs _ (shown s) (Hset k t (Ho k t eq_refl)) Hdep) as (s' & ->). eauto.
        + intros j c [Hin|Hin].
          * injection Hin; intros; subst.
            assert (Hk : exists n, set (files s) j t j = Some (Text t, S n)).
            { unfold LspFiles.set, put. destruct (key_eq j j); [|contradiction]. destruct (files s j) as [[y n]|]; eauto. }
            destruct Hk as (n & Hk). split; [|split].
            -- exists (Text t), (S n). simpl. split; [exact Hk|lia].
            -- intros j' w n' [].
            -- right; left. exists (Text t), (S n). simpl. split; [exact Hk|lia].
          * unfold without in Hin. apply filter_In in Hin as [Hin _]. destruct (Hg _ _ Hin) as (u & Hu & Hgu).
            eapply set_pre; eassumption.
      - unfold update. cbn [LspFiles.files LspFiles.comps LspFiles.shown].
        match goal with |- context [refresh_all ?a ?b ?c ?d ?e ?f] => destruct (refresh_all a b c d e f) as [rs fs] eqn:Er end.
        pose proof (refresh_all_deps _ _ _ _ _ Er) as Hdep.
        apply refresh_all_spec with (name := name) (imports := imports) (join := join) (blank := blank) (fuel := fuel) (sh := shown s) in Er.
        + destruct Er as (-> & _).
          destruct (show_all_runs disk fuel Hd Hl rs _ (shown s) (Hset k t (Hc k t more eq_refl)) Hdep) as (s' & ->). eauto.
        + intros j c Hin. destruct (Hg _ _ Hin) as (u & Hu & Hgu). eapply set_pre; eassumption. }
    destruct Hrun as (disk' & s' & H). exists disk', s'. split; [exact H|].
    apply handle_inv in H as (_ & He); [|exact Hi].
    destruct e as [k t|k t more|k|d].
    - destruct He as (_ & He & _). eapply bounded_ext; [exact Hd|apply Hset; eauto|exact He].
    - destruct He as (_ & He & _). eapply bounded_ext; [exact Hd|apply Hset; eauto|exact He].
    - destruct He as (_ & -> & _). exact Hf.
    - destruct He as (_ & ->). exact Hf.
  Qed.

  Theorem run_runs fuel disk evs : known disk evs -> List.length all < fuel -> exists s, run fuel disk evs = Some s.
  Proof.
    intros Hk Hl. unfold LspFiles.run.
    assert (G : forall evs disk s, Inv fuel s -> known disk evs -> bounded (files s) ->
              exists disk' s', handle_all disk fuel s evs = Some (disk', s')).
    { clear disk evs Hk. induction evs as [|e evs IH]; intros disk s Hi (Hd & Ho & Hc) Hf; simpl; [eauto|].
      destruct (handle_runs disk fuel s e Hi (Hd disk (or_introl eq_refl)) Hf
                  (fun k t E => Ho k t (or_introl E)) (fun k t more E => Hc k t more (or_introl E)) Hl) as (disk1 & s1 & E & Hf1).
      rewrite E. apply handle_inv in E as (Hi1 & He); [|exact Hi]. apply IH; [exact Hi1| |exact Hf1].
      split; [|split].
      - intros d Hin. apply Hd. destruct e; simpl in *; destruct He as [-> _]; tauto.
      - intros k t Hin. eapply Ho. right; exact Hin.
      - intros k t more Hin. eapply Hc. right; exact Hin. }
    destruct (G evs disk (new_server key text) (Inv_new fuel) Hk) as (disk' & s' & E).
    - intros k t n H. discriminate.
    - rewrite E. eauto.
  Qed.
End Main.
