(** Proofs about the language server's files (LspFiles.v). *)
From Coq Require Import List Bool Arith Lia.
From Verif Require Import LspFiles LspFilesSpec.
Import ListNotations.

Section Proofs.
  Variable key : Type.
  Variable key_eq : forall a b : key, {a = b} + {a <> b}.
  Variable name : Type.
  Variable text : Type.
  Variable imports : text -> list name.
  Variable join : key -> name -> option key.
  Variable blank : text.

  Notation content := (content text).
  Notation unit := (unit text).
  Notation outcome := (outcome text).
  Notation fileset := (fileset key text).
  Notation deps := (deps key text).
  Notation get := (get key key_eq text).
  Notation lookup := (lookup key key_eq name text imports join).
  Notation compile := (compile key key_eq name text imports join blank).
  Notation refresh := (refresh key key_eq text).
  Notation each := (each name text).

  (** ** The same compilation without file set and versions *)
  Definition pdeps := list (key * option unit).

  Fixpoint pfind (d : pdeps) (k : key) : option (option unit) :=
    match d with
    | [] => None
    | (j, u) :: d' => if key_eq j k then Some u else pfind d' k
    end.

  Fixpoint pstore (d : pdeps) (k : key) (u : unit) : pdeps :=
    match d with
    | [] => []
    | (j, w) :: d' => if key_eq j k then (j, Some u) :: d' else (j, w) :: pstore d' k u
    end.

  Definition erase (d : deps) : pdeps := map (fun x => (fst x, fst (snd x))) d.

  Fixpoint plook (v : key -> content) (fuel : nat) (cur : key) (n : name) (d : pdeps) : option (outcome * pdeps) :=
    match fuel with
    | O => None
    | S fuel' =>
        match join cur n with
        | None => Some (OMissing, d)
        | Some k =>
            match pfind d k with
            | Some None => Some (OCycle, d)
            | Some (Some u) => Some (OUnit u, d)
            | None =>
                match v k with
                | NotFound => Some (OMissing, (k, None) :: d)
                | IoError => Some (OIo, (k, None) :: d)
                | Text t =>
                    match each (plook v fuel' k) (imports t) ((k, None) :: d) with
                    | None => None
                    | Some (outs, d1) => Some (OUnit (Unit t outs), pstore d1 k (Unit t outs))
                    end
                end
            end
        end
    end.

  Definition source (c : content) : text := match c with Text t => t | _ => blank end.

  Definition pcompile (v : key -> content) (fuel : nat) (k : key) : option (unit * pdeps) :=
    match each (plook v fuel k) (imports (source (v k))) [] with
    | None => None
    | Some (outs, d) => Some (Unit (source (v k)) outs, d)
    end.

  (** ** The file set against its view *)
  Definition view (disk : key -> content) (fs : fileset) (k : key) : content :=
    match fs k with Some (c, _) => c | None => disk k end.

  Definition ext (disk : key -> content) (fs fs' : fileset) : Prop :=
    forall k, match fs k with
              | Some x => fs' k = Some x
              | None => fs' k = None \/ fs' k = Some (disk k, 1)
              end.

  Lemma ext_refl disk fs : ext disk fs fs.
  Proof. intros k. destruct (fs k); auto. Qed.

  Lemma ext_trans disk a b c : ext disk a b -> ext disk b c -> ext disk a c.
  Proof.
    intros H1 H2 k. specialize (H1 k). specialize (H2 k). destruct (a k) as [x|].
    - rewrite H1 in H2. exact H2.
    - destruct H1 as [H1|H1]; rewrite H1 in H2; [exact H2|right; exact H2].
  Qed.

  Lemma ext_view disk fs fs' : ext disk fs fs' -> forall k, view disk fs' k = view disk fs k.
  Proof.
    intros H k. specialize (H k). unfold view. destruct (fs k) as [[c v]|].
    - rewrite H. reflexivity.
    - destruct H as [H|H]; rewrite H; reflexivity.
  Qed.

  Lemma get_spec disk fs k c v fs1 : get disk fs k = ((c, v), fs1) ->
    fs1 k = Some (c, v) /\ c = view disk fs k /\ ext disk fs fs1.
  Proof.
    unfold LspFiles.get. destruct (fs k) as [x|] eqn:E; intros H; injection H; intros; subst.
    - split; [exact E|]. split; [unfold view; rewrite E; reflexivity|apply ext_refl].
    - split; [unfold put; destruct (key_eq k k); congruence|].
      split; [unfold view; rewrite E; reflexivity|].
      intros j. unfold put. destruct (fs j) as [y|] eqn:Ej.
      + destruct (key_eq j k); [congruence|reflexivity].
      + destruct (key_eq j k); [subst; auto|auto].
  Qed.

  Definition vers (fs : fileset) (d : deps) : Prop :=
    forall k u v, In (k, (u, v)) d -> exists c, fs k = Some (c, v).

  Lemma vers_ext disk fs fs' d : ext disk fs fs' -> vers fs d -> vers fs' d.
  Proof. intros He Hv k u v Hin. destruct (Hv k u v Hin) as (c & Hc). specialize (He k). rewrite Hc in He. eauto. Qed.

  Lemma find_erase d k : pfind (erase d) k = find_dep key key_eq text d k.
  Proof. induction d as [|[j [u v]] d IH]; simpl; [reflexivity|]. rewrite IH. reflexivity. Qed.

  Lemma store_erase d k u : erase (store key key_eq text d k u) = pstore (erase d) k u.
  Proof.
    induction d as [|[j [w v]] d IH]; simpl; [reflexivity|]. destruct (key_eq j k); simpl; [reflexivity|]. rewrite IH. reflexivity.
  Qed.

  Lemma store_in d k u : forall j w v, In (j, (w, v)) (store key key_eq text d k u) -> exists w', In (j, (w', v)) d.
  Proof.
    induction d as [|[j0 [w0 v0]] d IH]; intros j w v; simpl; [intros []|].
    destruct (key_eq j0 k).
    - intros [H|H]; [injection H; intros; subst; eauto|eauto].
    - intros [H|H]; [injection H; intros; subst; eauto|]. destruct (IH j w v H) as (w' & H'). eauto.
  Qed.

  Definition simres {A} (disk : key -> content) (fs : fileset) (r : option (A * state key text)) (r' : option (A * pdeps)) : Prop :=
    match r, r' with
    | None, None => True
    | Some (o, (fs', d')), Some (o', e') => o = o' /\ e' = erase d' /\ ext disk fs fs' /\ vers fs' d'
    | _, _ => False
    end.

  Lemma each_sim disk v (look : name -> state key text -> option (outcome * state key text)) look' names :
    (forall n fs d, (forall k, view disk fs k = v k) -> vers fs d ->
       simres disk fs (look n (fs, d)) (look' n (erase d))) ->
    forall fs d, (forall k, view disk fs k = v k) -> vers fs d ->
      simres disk fs (each look names (fs, d)) (each look' names (erase d)).
  Proof.
    intros HL. induction names as [|n ns IH]; intros fs d Hv Hd; simpl.
    - split; [reflexivity|]. split; [reflexivity|]. split; [apply ext_refl|exact Hd].
    - specialize (HL n fs d Hv Hd). unfold simres in HL.
      destruct (look n (fs, d)) as [[o [fs1 d1]]|]; destruct (look' n (erase d)) as [[o' e1]|]; try contradiction; [|exact I].
      destruct HL as (-> & -> & He & Hd1).
      assert (Hv1 : forall k, view disk fs1 k = v k) by (intros k; rewrite (ext_view _ _ _ He); apply Hv).
      specialize (IH fs1 d1 Hv1 Hd1). unfold simres in IH.
      destruct (each look ns (fs1, d1)) as [[os [fs2 d2]]|]; destruct (each look' ns (erase d1)) as [[os' e2]|]; try contradiction; [|exact I].
      destruct IH as (-> & -> & He2 & Hd2). simpl.
      split; [reflexivity|]. split; [reflexivity|]. split; [eapply ext_trans; eassumption|exact Hd2].
  Qed.

  Lemma lookup_sim disk v fuel : forall cur n fs d,
    (forall k, view disk fs k = v k) -> vers fs d ->
    simres disk fs (lookup disk fuel cur n (fs, d)) (plook v fuel cur n (erase d)).
  Proof.
    induction fuel as [|fuel IH]; intros cur n fs d Hv Hd; simpl; [exact I|].
    destruct (join cur n) as [k|].
    2:{ simpl. split; [reflexivity|]. split; [reflexivity|]. split; [apply ext_refl|exact Hd]. }
    destruct (get disk fs k) as [[c ver] fs1] eqn:Eg. apply get_spec in Eg as (H1 & Hc & He).
    rewrite find_erase. rewrite Hv in Hc. subst c.
    assert (Hd1 : vers fs1 d) by (eapply vers_ext; eassumption).
    destruct (find_dep key key_eq text d k) as [[u|]|] eqn:Ef.
    - simpl. auto.
    - simpl. auto.
    - assert (Hd2 : vers fs1 ((k, (None, ver)) :: d)).
      { intros j u w [Hin|Hin]; [injection Hin; intros; subst; eauto|eauto]. }
      assert (Hv1 : forall j, view disk fs1 j = v j) by (intros j; rewrite (ext_view _ _ _ He); apply Hv).
      destruct (v k) as [t| |] eqn:Evk; [|simpl; auto|simpl; auto].
      pose proof (each_sim disk v (lookup disk fuel k) (plook v fuel k) (imports t)
                    (fun m f e => IH k m f e) fs1 ((k, (None, ver)) :: d) Hv1 Hd2) as Hs.
      change (erase ((k, (None, ver)) :: d)) with ((k, None) :: erase d) in Hs.
      match goal with |- context [match ?e with Some _ => _ | None => None end] =>
        match type of e with option (list _ * state _ _) => change (simres disk fs1 e (each (plook v fuel k) (imports t) ((k, None) :: erase d))) in Hs; destruct e as [[os [fs2 d2]]|] end end;
        unfold simres in Hs;
        destruct (each (plook v fuel k) (imports t) ((k, None) :: erase d)) as [[os' e2]|]; try contradiction; [|exact I].
      destruct Hs as (-> & -> & He2 & Hd3). simpl.
      split; [reflexivity|]. split; [symmetry; apply store_erase|].
      split; [eapply ext_trans; eassumption|].
      intros j w ver' Hin. apply store_in in Hin as (w' & Hin). eauto.
  Qed.

  Lemma compile_sim disk v fuel k fs :
    (forall k, view disk fs k = v k) ->
    simres disk fs (compile disk fuel k (@pair fileset deps fs [])) (pcompile v fuel k) /\
    forall u fs' d', compile disk fuel k (@pair fileset deps fs []) = Some (u, (fs', d')) -> exists c ver, fs' k = Some (c, ver).
  Proof.
    intros Hv. unfold LspFiles.compile, pcompile. cbn [fst snd].
    destruct (get disk fs k) as [[c ver] fs1] eqn:Eg. apply get_spec in Eg as (H1 & Hc & He).
    rewrite Hv in Hc. subst c. change (match v k with Text t => t | _ => blank end) with (source (v k)).
    assert (Hv1 : forall j, view disk fs1 j = v j) by (intros j; rewrite (ext_view _ _ _ He); apply Hv).
    pose proof (each_sim disk v (lookup disk fuel k) (plook v fuel k) (imports (source (v k)))
                    (fun m f e => lookup_sim disk v fuel k m f e) fs1 [] Hv1 (fun _ _ _ (H : In _ []) => match H with end)) as Hs.
    match goal with |- context [each (lookup disk fuel k) ?a ?b] =>
      match goal with |- context [each (plook v fuel k) ?a' ?b'] =>
        change (simres disk fs1 (each (lookup disk fuel k) a b) (each (plook v fuel k) a' b')) in Hs;
        destruct (each (lookup disk fuel k) a b) as [[os [fs2 d2]]|];
        destruct (each (plook v fuel k) a' b') as [[os' e2]|]; unfold simres in Hs |- *; try contradiction
      end end.
    - destruct Hs as (-> & -> & He2 & Hd3). split.
      + split; [reflexivity|]. split; [reflexivity|]. split; [eapply ext_trans; eassumption|exact Hd3].
      + intros u fs' d' H. injection H; intros; subst. specialize (He2 k). rewrite H1 in He2. eauto.
    - split; [exact I|]. discriminate.
  Qed.

  (** ** Frame: only the keys met matter *)
  Definition keys (d : pdeps) : list key := map fst d.

  Lemma keys_store d k u : keys (pstore d k u) = keys d.
  Proof. induction d as [|[j w] d IH]; simpl; [reflexivity|]. destruct (key_eq j k); simpl; [reflexivity|]. unfold keys in *. rewrite IH. reflexivity. Qed.

  Definition grows (look : name -> pdeps -> option (outcome * pdeps)) : Prop :=
    forall n d o d', look n d = Some (o, d') -> incl (keys d) (keys d').

  Lemma each_grows look names : grows look -> forall d os d', each look names d = Some (os, d') -> incl (keys d) (keys d').
  Proof.
    intros H. induction names as [|n ns IH]; intros d os d' He; simpl in He.
    - injection He; intros; subst. apply incl_refl.
    - destruct (look n d) as [[o d1]|] eqn:E1; [|discriminate].
      destruct (each look ns d1) as [[os1 d2]|] eqn:E2; [|discriminate]. injection He; intros; subst.
      eapply incl_tran; [eapply H; exact E1|eapply IH; exact E2].
  Qed.

  Lemma plook_grows v fuel : forall cur, grows (plook v fuel cur).
  Proof.
    induction fuel as [|fuel IH]; intros cur n d o d' H; simpl in H; [discriminate|].
    destruct (join cur n) as [k|]; [|injection H; intros; subst; apply incl_refl].
    destruct (pfind d k) as [[u|]|]; [injection H; intros; subst; apply incl_refl..|].
    destruct (v k) as [t| |].
    - destruct (each (plook v fuel k) (imports t) ((k, None) :: d)) as [[os d1]|] eqn:E; [|discriminate].
      injection H; intros; subst. rewrite keys_store. eapply each_grows in E; [|apply IH].
      eapply incl_tran; [|exact E]. apply incl_tl, incl_refl.
    - injection H; intros; subst. apply incl_tl, incl_refl.
    - injection H; intros; subst. apply incl_tl, incl_refl.
  Qed.

  Lemma each_frame look look' names d' :
    grows look ->
    (forall n d o d1, incl (keys d1) (keys d') -> look n d = Some (o, d1) -> look' n d = Some (o, d1)) ->
    forall d os, each look names d = Some (os, d') -> each look' names d = Some (os, d').
  Proof.
    intros Hg H. induction names as [|n ns IH]; intros d os He; simpl in *; [exact He|].
    destruct (look n d) as [[o d1]|] eqn:E1; [|discriminate].
    destruct (each look ns d1) as [[os1 d2]|] eqn:E2; [|discriminate]. injection He; intros; subst.
    rewrite (H _ _ _ _ (each_grows _ _ Hg _ _ _ E2) E1). rewrite (IH _ _ E2). reflexivity.
  Qed.

  Lemma plook_frame v v' fuel : forall cur n d o d1,
    plook v fuel cur n d = Some (o, d1) -> (forall k, In k (keys d1) -> v' k = v k) ->
    plook v' fuel cur n d = Some (o, d1).
  Proof.
    induction fuel as [|fuel IH]; intros cur n d o d1 H Hag; simpl in *; [discriminate|].
    destruct (join cur n) as [k|]; [|exact H].
    destruct (pfind d k) as [[u|]|]; [exact H..|].
    assert (Hk : v' k = v k).
    { apply Hag. destruct (v k) as [t| |].
      - destruct (each (plook v fuel k) (imports t) ((k, None) :: d)) as [[os d2]|] eqn:E; [|discriminate].
        injection H; intros; subst. rewrite keys_store. apply (each_grows _ _ (plook_grows v fuel k) _ _ _ E). left; reflexivity.
      - injection H; intros; subst. left; reflexivity.
      - injection H; intros; subst. left; reflexivity. }
    rewrite Hk. destruct (v k) as [t| |]; [|exact H..].
    destruct (each (plook v fuel k) (imports t) ((k, None) :: d)) as [[os d2]|] eqn:E; [|discriminate].
    injection H; intros; subst. rewrite keys_store in Hag.
    erewrite each_frame with (look := plook v fuel k); [reflexivity|apply plook_grows| |exact E].
    intros m e o' e1 Hin Hl. apply IH; [exact Hl|]. auto.
  Qed.

  Lemma pcompile_frame v v' fuel k u d :
    pcompile v fuel k = Some (u, d) -> v' k = v k -> (forall j, In j (keys d) -> v' j = v j) ->
    pcompile v' fuel k = Some (u, d).
  Proof.
    unfold pcompile. intros H Hk Hag. rewrite Hk.
    destruct (each (plook v fuel k) (imports (source (v k))) []) as [[os d2]|] eqn:E; [|discriminate].
    injection H; intros; subst.
    erewrite each_frame with (look := plook v fuel k); [reflexivity|apply plook_grows| |exact E].
    intros m e o' e1 Hin Hl. eapply plook_frame; [exact Hl|]. auto.
  Qed.

  (** ** The server's invariant *)
  Definition agrees (fs : fileset) (v : key -> content) : Prop :=
    forall k c n, fs k = Some (c, n) -> v k = c.

  Lemma agrees_view disk fs : agrees fs (view disk fs).
  Proof. intros k c n H. unfold view. rewrite H. reflexivity. Qed.

  Definition good (fuel : nat) (fs : fileset) (k : key) (c : compilation key text) (u : unit) : Prop :=
    (exists x, fs k = Some (x, source_version key text c)) /\
    vers fs (dependencies key text c) /\
    forall v, agrees fs v -> pcompile v fuel k = Some (u, erase (dependencies key text c)).

  Lemma erase_keys d : keys (erase d) = map fst d.
  Proof. unfold keys, erase. rewrite map_map. reflexivity. Qed.

  (** good survives any change of files that keeps the entries met *)
  Lemma good_keep fuel fs fs' k c u :
    good fuel fs k c u ->
    fs' k = fs k -> (forall j, In j (map fst (dependencies key text c)) -> fs' j = fs j) ->
    good fuel fs' k c u.
  Proof.
    intros (Hk & Hd & Hp) Ek Ed. split; [rewrite Ek; exact Hk|]. split.
    - intros j w n Hin. rewrite Ed; [eapply Hd; exact Hin|]. apply (in_map fst) in Hin. exact Hin.
    - intros v Hv.
      set (v0 := fun j => match fs j with Some (x, _) => x | None => v j end).
      assert (Hv0 : agrees fs v0) by (intros j x n Hj; unfold v0; rewrite Hj; reflexivity).
      apply pcompile_frame with v0; [apply Hp; exact Hv0| |].
      + unfold v0. destruct Hk as (x & Hk). rewrite Hk. eapply Hv. rewrite Ek. exact Hk.
      + rewrite erase_keys. intros j Hj. unfold v0. apply in_map_iff in Hj as ([j0 [w n]] & <- & Hin). simpl.
        destruct (Hd _ _ _ Hin) as (x & Hx). rewrite Hx. eapply Hv.
        rewrite (Ed j0); [exact Hx|]. apply (in_map fst) in Hin. exact Hin.
  Qed.

  Lemma good_ext fuel disk fs fs' k c u : ext disk fs fs' -> good fuel fs k c u -> good fuel fs' k c u.
  Proof.
    intros He Hg. pose proof Hg as (Hk & Hd & _). apply good_keep with fs; [exact Hg| |].
    - destruct Hk as (x & Hx). pose proof (He k) as H. rewrite Hx in *. exact H.
    - intros j Hj. apply in_map_iff in Hj as ([j0 [w n]] & <- & Hin). simpl.
      destruct (Hd _ _ _ Hin) as (x & Hx). pose proof (He j0) as H. rewrite Hx in *. exact H.
  Qed.

  (** compiling makes a good compilation *)
  Lemma compile_good disk fuel k fs n u fs' d' :
    (exists x, fs k = Some (x, n)) ->
    compile disk fuel k (@pair fileset deps fs []) = Some (u, (fs', d')) ->
    ext disk fs fs' /\ good fuel fs' k {| source_version := n; dependencies := d' |} u.
  Proof.
    intros Hk H.
    destruct (compile_sim disk (view disk fs) fuel k fs (fun _ => eq_refl)) as [Hs _].
    assert (Hs' : simres disk fs (Some (u, (fs', d'))) (pcompile (view disk fs) fuel k)) by (rewrite <- H; exact Hs).
    clear Hs. rename Hs' into Hs. unfold simres in Hs.
    destruct (pcompile (view disk fs) fuel k) as [[u' e']|] eqn:Ep; [|contradiction].
    destruct Hs as (<- & -> & He & Hd). split; [exact He|].
    assert (Hk' : exists x, fs' k = Some (x, n)).
    { destruct Hk as (x & Hx). specialize (He k). rewrite Hx in He. eauto. }
    split; [exact Hk'|]. split; [exact Hd|]. intros v Hv.
    apply pcompile_frame with (view disk fs); [exact Ep| |].
    - destruct Hk' as (x & Hx). rewrite (Hv _ _ _ Hx). rewrite <- (ext_view _ _ _ He). unfold view. rewrite Hx. reflexivity.
    - cbn [dependencies]. rewrite erase_keys. intros j Hj. apply in_map_iff in Hj as ([j0 [w m]] & <- & Hin). simpl.
      destruct (Hd _ _ _ Hin) as (x & Hx). rewrite (Hv _ _ _ Hx). rewrite <- (ext_view _ _ _ He). unfold view. rewrite Hx. reflexivity.
  Qed.

  (** what a compilation is like before an update: up to date, or sure to be found stale *)
  Definition pre (fuel : nat) (fs : fileset) (sh : key -> option unit) (k : key) (c : compilation key text) : Prop :=
    (exists x n, fs k = Some (x, n) /\ source_version key text c <= n) /\
    (forall j w n, In (j, (w, n)) (dependencies key text c) -> exists x m, fs j = Some (x, m) /\ n <= m) /\
    ((exists u, sh k = Some u /\ good fuel fs k c u) \/
     (exists x n, fs k = Some (x, n) /\ source_version key text c < n) \/
     (exists j w n x m, In (j, (w, n)) (dependencies key text c) /\ fs j = Some (x, m) /\ n < m)).

  Lemma any_stale_spec disk fs d :
    (forall j w n, In (j, (w, n)) d -> exists x m, fs j = Some (x, m)) ->
    any_stale key key_eq text disk fs d =
      (existsb (fun x => match fs (fst x) with Some (_, m) => snd (snd x) <? m | None => false end) d, fs).
  Proof.
    induction d as [|[j [w n]] d IH]; intros H; simpl; [reflexivity|].
    destruct (H j w n (or_introl eq_refl)) as (x & m & Hx). unfold LspFiles.get. rewrite Hx. cbn [fst snd].
    destruct (n <? m); [reflexivity|]. simpl. apply IH. intros j' w' n' Hin. eapply H. right; exact Hin.
  Qed.

  Lemma refresh_spec disk fuel fs sh k c c1 m fs1 :
    pre fuel fs sh k c -> refresh disk fs k c = ((c1, m), fs1) ->
    fs1 = fs /\
    (if m then dependencies key text c1 = [] /\ (exists x, fs k = Some (x, source_version key text c1))
     else c1 = c /\ exists u, sh k = Some u /\ good fuel fs k c u).
  Proof.
    intros ((x & n & Hk & Hn) & Hd & Hor) H. unfold LspFiles.refresh in H.
    rewrite any_stale_spec in H.
    2:{ intros j w n' Hin. destruct (Hd j w n' Hin) as (y & m' & Hy & _). eauto. }
    unfold LspFiles.get in H. rewrite Hk in H.
    set (st := existsb _ _) in H.
    destruct (st || (source_version key text c <? n)) eqn:Es; injection H; intros; subst; split; auto.
    - split; [reflexivity|]. eauto.
    - split; [reflexivity|]. apply orb_false_iff in Es as [Es1 Es2]. subst st.
      destruct Hor as [Hg|[(x' & n' & Hk' & Hlt)|(j & w & n' & y & m' & Hin & Hy & Hlt)]]; [exact Hg| |].
      + exfalso. rewrite Hk in Hk'. injection Hk'; intros; subst. apply Nat.ltb_ge in Es2. lia.
      + exfalso. assert (Ht : existsb (fun x0 => match fs1 (fst x0) with Some (_, m0) => snd (snd x0) <? m0 | None => false end) (dependencies key text c1) = true).
        { apply existsb_exists. exists (j, (w, n')). split; [exact Hin|]. simpl. rewrite Hy. apply Nat.ltb_lt. exact Hlt. }
        congruence.
  Qed.

  Lemma refresh_all_spec disk fuel sh fs cs : forall rs fs1,
    (forall k c, In (k, c) cs -> pre fuel fs sh k c) ->
    refresh_all key key_eq text disk fs cs = (rs, fs1) ->
    fs1 = fs /\ map (fun r => fst (fst r)) rs = map fst cs /\
    (forall k c m, In (k, c, m) rs ->
       if m then dependencies key text c = [] /\ (exists x, fs k = Some (x, source_version key text c))
       else exists u, sh k = Some u /\ good fuel fs k c u).
  Proof.
    induction cs as [|[k c] cs IH]; intros rs fs1 Hp H; simpl in H.
    - injection H; intros; subst. split; [reflexivity|]. split; [reflexivity|]. intros k c m [].
    - destruct (refresh disk fs k c) as [[c1 m] fs2] eqn:Er.
      destruct (refresh_spec _ _ _ _ _ _ _ _ _ (Hp k c (or_introl eq_refl)) Er) as (-> & Hr).
      destruct (refresh_all key key_eq text disk fs cs) as [rs' fs3] eqn:Ea.
      destruct (IH rs' fs3 (fun k' c' Hin => Hp k' c' (or_intror Hin)) eq_refl) as (-> & Hm & Hin).
      injection H; intros; subst. split; [reflexivity|]. split; [simpl; rewrite Hm; reflexivity|].
      intros k' c' m' [He|He]; [|exact (Hin _ _ _ He)]. injection He; intros; subst.
      destruct m'; [exact Hr|]. destruct Hr as [-> Hr]. exact Hr.
  Qed.

  Lemma show_all_spec disk fuel : forall (rs : list (key * compilation key text * bool)) (fs : fileset) (sh : key -> option unit) s,
    NoDup (map (fun r => fst (fst r)) rs) ->
    (forall k c m, In (k, c, m) rs ->
       if m then dependencies key text c = [] /\ (exists x, fs k = Some (x, source_version key text c))
       else exists u, sh k = Some u /\ good fuel fs k c u) ->
    show_all key key_eq name text imports join blank disk fuel fs sh rs = Some s ->
    ext disk fs (files key text s) /\
    map fst (comps key text s) = map (fun r => fst (fst r)) rs /\
    (forall k c, In (k, c) (comps key text s) -> exists u, shown key text s k = Some u /\ good fuel (files key text s) k c u) /\
    (forall k, ~ In k (map fst (comps key text s)) -> shown key text s k = sh k).
  Proof.
    induction rs as [|[[k c] m] rs IH]; intros fs sh s Hnd Hr H; simpl in H.
    - injection H; intros; subst. simpl. split; [apply ext_refl|]. split; [reflexivity|]. split; [intros k c []|auto].
    - simpl in Hnd. inversion Hnd as [|k0 l Hni Hnd']; subst.
      pose proof (Hr k c m (or_introl eq_refl)) as Hrk. destruct m.
      + destruct Hrk as (Hdep & Hx). rewrite Hdep in H.
        destruct (compile disk fuel k (@pair fileset deps fs [])) as [[u [fs1 d1]]|] eqn:Ec; [|discriminate].
        destruct (compile_good _ _ _ _ _ _ _ _ Hx Ec) as (He & Hg).
        destruct (show_all key key_eq name text imports join blank disk fuel fs1 (show key key_eq text sh k (Some u)) rs) as [s1|] eqn:Es; [|discriminate].
        injection H; intros; subst.
        refine ((fun Hpre => _) _).
        { destruct (IH _ _ _ Hnd' Hpre Es) as (He1 & Hm1 & Hc1 & Ho1).
        cbn [files comps shown]. split; [eapply ext_trans; eassumption|]. split; [simpl; rewrite Hm1; reflexivity|].
        assert (Hk : shown key text s1 k = Some u).
        { rewrite Ho1; [|rewrite Hm1; exact Hni]. unfold show. destruct (key_eq k k); congruence. }
        split.
        * intros k' c' [Hin|Hin]; [|auto]. injection Hin; intros; subst. exists u. split; [exact Hk|].
          eapply good_ext; [exact He1|exact Hg].
        * intros k' Hni'. rewrite Ho1; [|intros Hx'; apply Hni'; right; exact Hx'].
          unfold show. destruct (key_eq k' k); [subst; exfalso; apply Hni'; left; reflexivity|reflexivity]. }
        { intros k' c' m' Hin. pose proof (Hr k' c' m' (or_intror Hin)) as Hk'.
          assert (Hne : k' <> k). { intros ->. apply Hni. apply (in_map (fun r => fst (fst r))) in Hin. exact Hin. }
          destruct m'.
          - destruct Hk' as (Hd' & x & Hx'). split; [exact Hd'|]. specialize (He k'). rewrite Hx' in He. eauto.
          - destruct Hk' as (u' & Hu' & Hg'). exists u'. split; [|eapply good_ext; eassumption].
            unfold show. destruct (key_eq k' k); [contradiction|exact Hu']. }
      + destruct Hrk as (u & Hu & Hg).
        destruct (show_all key key_eq name text imports join blank disk fuel fs sh rs) as [s1|] eqn:Es; [|discriminate].
        injection H; intros; subst.
        destruct (IH _ _ _ Hnd' (fun k' c' m' Hin => Hr k' c' m' (or_intror Hin)) Es) as (He1 & Hm1 & Hc1 & Ho1).
        cbn [files comps shown]. split; [exact He1|]. split; [simpl; rewrite Hm1; reflexivity|]. split.
        * intros k' c' [Hin|Hin]; [|auto]. injection Hin; intros; subst. exists u. split; [|eapply good_ext; eassumption].
          rewrite Ho1; [exact Hu|]. rewrite Hm1. exact Hni.
        * intros k' Hni'. apply Ho1. intros Hx'. apply Hni'. right. exact Hx'.
  Qed.

  (** *** The invariant between handlers *)
  Definition Inv (fuel : nat) (s : server key text) : Prop :=
    NoDup (map fst (comps key text s)) /\
    (forall k c, In (k, c) (comps key text s) -> exists u, shown key text s k = Some u /\ good fuel (files key text s) k c u) /\
    (forall k, ~ In k (map fst (comps key text s)) -> shown key text s k = None).

  Lemma update_spec disk fuel s s' :
    NoDup (map fst (comps key text s)) ->
    (forall k c, In (k, c) (comps key text s) -> pre fuel (files key text s) (shown key text s) k c) ->
    (forall k, ~ In k (map fst (comps key text s)) -> shown key text s k = None) ->
    update key key_eq name text imports join blank disk fuel s = Some s' ->
    Inv fuel s' /\ ext disk (files key text s) (files key text s') /\
    map fst (comps key text s') = map fst (comps key text s).
  Proof.
    intros Hnd Hp Hno H. unfold update in H.
    destruct (refresh_all key key_eq text disk (files key text s) (comps key text s)) as [rs fs] eqn:Er.
    destruct (refresh_all_spec _ _ _ _ _ _ _ Hp Er) as (-> & Hm & Hr).
    destruct (show_all_spec _ _ _ _ _ _ (eq_ind_r (@NoDup key) Hnd Hm) Hr H) as (He & Hm' & Hc & Ho).
    split; [|split; [exact He|congruence]]. split; [rewrite Hm', Hm; exact Hnd|]. split; [exact Hc|].
    intros k Hk. rewrite Ho by exact Hk. apply Hno. rewrite <- Hm, <- Hm'. exact Hk.
  Qed.

  Lemma without_fst cs k j : In j (map fst (without key key_eq text cs k)) <-> In j (map fst cs) /\ j <> k.
  Proof.
    unfold without. rewrite !in_map_iff. split.
    - intros ([j0 c] & <- & Hin). apply filter_In in Hin as [Hin Hf]. simpl in *.
      destruct (key_eq j0 k); [discriminate|]. split; [exists (j0, c); auto|assumption].
    - intros (([j0 c] & <- & Hin) & Hne). exists (j0, c). split; [reflexivity|]. apply filter_In. split; [exact Hin|].
      simpl in *. destruct (key_eq j0 k); [contradiction|reflexivity].
  Qed.

  Lemma without_nodup cs k : NoDup (map fst cs) -> NoDup (map fst (without key key_eq text cs k)).
  Proof.
    induction cs as [|[j c] cs IH]; intros H; simpl; [constructor|].
    inversion H; subst. destruct (key_eq j k); simpl; [auto|]. constructor; [|auto].
    intros Hin. apply without_fst in Hin. tauto.
  Qed.

  (** after one file is set, every compilation is up to date or noticed *)
  Lemma set_pre fuel fs sh a t k c u :
    sh k = Some u -> good fuel fs k c u -> pre fuel (set key key_eq text fs a t) sh k c.
  Proof.
    intros Hsh Hg. pose proof Hg as (Hk & Hd & _). destruct Hk as (x & Hk).
    assert (Hmono : forall j y n, fs j = Some (y, n) -> exists y' n', set key key_eq text fs a t j = Some (y', n') /\ n <= n' /\ (j = a -> n < n')).
    { intros j y n Hj. unfold set, put. destruct (key_eq j a) as [->|Hne].
      - rewrite Hj. exists (Text t), (S n). repeat split; auto; lia.
      - exists y, n. split; [exact Hj|]. split; [lia|contradiction]. }
    destruct (Hmono _ _ _ Hk) as (xk & nk & Hk1 & Hk2 & Hk3).
    split; [eauto|]. split.
    - intros j w n Hin. destruct (Hd _ _ _ Hin) as (y & Hy). destruct (Hmono _ _ _ Hy) as (y' & n' & H1 & H2 & _). eauto.
    - destruct (key_eq k a) as [Hka|Hka]; [right; left; eauto|].
      destruct (in_dec key_eq a (map fst (dependencies key text c))) as [Hin|Hni].
      + right; right. apply in_map_iff in Hin as ([j [w n]] & Hj & Hin). simpl in Hj.
        destruct (Hd _ _ _ Hin) as (y & Hy). destruct (Hmono _ _ _ Hy) as (y' & n' & H1 & _ & H3).
        exists j, w, n, y', n'. auto.
      + left. exists u. split; [exact Hsh|]. apply good_keep with fs; [exact Hg| |].
        * unfold set, put. destruct (key_eq k a); [contradiction|reflexivity].
        * intros j Hj. unfold set, put. destruct (key_eq j a); [subst; contradiction|reflexivity].
  Qed.

  Definition opened (s : server key text) (k : key) : Prop := In k (map fst (comps key text s)).

  Lemma handle_inv disk fuel s e disk' s' :
    Inv fuel s -> handle key key_eq name text imports join blank disk fuel s e = Some (disk', s') ->
    Inv fuel s' /\
    match e with
    | Open k t => disk' = disk /\ ext disk (set key key_eq text (files key text s) k t) (files key text s') /\
                  (forall j, opened s' j <-> j = k \/ opened s j)
    | Change k t _ => disk' = disk /\ ext disk (set key key_eq text (files key text s) k t) (files key text s') /\
                  (forall j, opened s' j <-> opened s j)
    | Close k => disk' = disk /\ files key text s' = files key text s /\ (forall j, opened s' j <-> opened s j /\ j <> k)
    | Disk d => disk' = d /\ s' = s
    end.
  Proof.
    intros (Hnd & Hg & Hno) H. destruct e as [k t|k t more|k|d]; cbn [handle] in H.
    - match type of H with match ?u with _ => _ end = _ => destruct u as [s1|] eqn:Eu; [|discriminate] end.
      injection H; intros; subst.
      apply update_spec in Eu; cbn [files comps shown] in *.
      + destruct Eu as (Hi & He & Hm). split; [exact Hi|]. split; [reflexivity|]. split; [exact He|].
        intros j. unfold opened. rewrite Hm. simpl. rewrite without_fst. unfold opened.
        destruct (key_eq j k); intuition congruence.
      + simpl. constructor; [rewrite without_fst; tauto|apply without_nodup; exact Hnd].
      + intros j c [Hin|Hin].
        * injection Hin; intros; subst. unfold new_compilation.
          assert (Hk : exists n, set key key_eq text (files key text s) j t j = Some (Text t, S n)).
          { unfold set, put. destruct (key_eq j j); [|contradiction]. destruct (files key text s j) as [[y n]|]; eauto. }
          destruct Hk as (n & Hk). split; [|split].
          -- exists (Text t), (S n). simpl. split; [exact Hk|lia].
          -- intros j' w n' [].
          -- right; left. exists (Text t), (S n). simpl. split; [exact Hk|lia].
        * unfold without in Hin. apply filter_In in Hin as [Hin _]. destruct (Hg _ _ Hin) as (u & Hu & Hgu).
          eapply set_pre; eassumption.
      + intros j Hj. apply Hno. intros Hin. apply Hj. simpl. destruct (key_eq j k); [left; congruence|right].
        apply without_fst. auto.
    - match type of H with match ?u with _ => _ end = _ => destruct u as [s1|] eqn:Eu; [|discriminate] end.
      injection H; intros; subst.
      apply update_spec in Eu; cbn [files comps shown] in *.
      + destruct Eu as (Hi & He & Hm). split; [exact Hi|]. split; [reflexivity|]. split; [exact He|].
        intros j. unfold opened. rewrite Hm. tauto.
      + exact Hnd.
      + intros j c Hin. destruct (Hg _ _ Hin) as (u & Hu & Hgu). eapply set_pre; eassumption.
      + exact Hno.
    - injection H; intros; subst. cbn [files comps shown]. split.
      + split; [apply without_nodup; exact Hnd|]. cbn [files comps shown]. split.
        * intros j c Hin. apply filter_In in Hin as [Hin Hf]. simpl in Hf.
          unfold show. destruct (key_eq j k); [discriminate|]. apply Hg. exact Hin.
        * intros j Hj. unfold show. destruct (key_eq j k); [reflexivity|]. apply Hno. intros Hin. apply Hj.
          apply without_fst. auto.
      + split; [reflexivity|]. split; [reflexivity|]. intros j. unfold opened. cbn [comps]. apply without_fst.
    - injection H; intros; subst. split; [split; [|split]; assumption|]. auto.
  Qed.
End Proofs.
