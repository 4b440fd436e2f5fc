(** Applying related functions to related values gives related outcomes (C44). *)
From Verif Require Import GenSpec FoldSpec GenFacts GenNames FoldOk TypeTable EvalFacts IterateOk CompileStatic SrcSim SrcSem SrcRel.
Set Implicit Arguments.

Section Apply.
  Variable K : list (sym * ctor).
  Variable tys : stypes.
  Hypothesis K_inj : forall c1 c2 k1 k2 f1 f2, lookup c1 K = Some k1 -> lookup c2 K = Some k2 ->
    tag f1 k1 = tag f2 k2 -> c1 = c2 /\ f1 = f2.
  Variable o : order.
  Notation vrel := (vrel K tys). Notation vrels := (vrels K tys). Notation names_rel := (names_rel K tys).
  Notation erel := (erel K tys). Notation good := (good K tys). Notation rrel := (rrel K tys). Notation static := (static tys).

  Lemma vrels_app l1 l1' l2 l2' : vrels l1 l1' -> vrels l2 l2' -> vrels (l1 ++ l2) (l1' ++ l2').
  Proof. revert l1'. induction l1; intros l1' H; inversion H; subst; simpl; intros; auto. constructor; auto. Qed.

  Lemma names_length ns vs en' : names_rel ns vs en' -> length ns = length vs.
  Proof. revert vs. induction ns; intros vs H; inversion H; subst; simpl; auto. Qed.
  Lemma names_app ns1 vs1 ns2 vs2 en' : names_rel ns1 vs1 en' -> names_rel ns2 vs2 en' -> names_rel (ns1 ++ ns2) (vs1 ++ vs2) en'.
  Proof. revert vs1. induction ns1; intros vs1 H; inversion H; subst; simpl; auto. econstructor; eauto. Qed.
  Lemma names_ext ns vs en' n v' : ~ In n ns -> names_rel ns vs en' -> names_rel ns vs ((n, v') :: en').
  Proof.
    revert vs. induction ns as [|y ns IH]; intros vs Hn H; inversion H; subst; [constructor|].
    simpl in Hn. econstructor; eauto. simpl. destruct (Nat.eqb_spec y n); [subst; tauto|eauto].
  Qed.
  Lemma names_snoc ns vs en' n v v' : ~ In n ns -> names_rel ns vs en' -> vrel v v' ->
    names_rel (ns ++ [n]) (vs ++ [v]) ((n, v') :: en').
  Proof.
    intros Hn H Hv. apply names_app; [apply names_ext; auto|]. econstructor; eauto; [|constructor]. simpl. rewrite Nat.eqb_refl. auto.
  Qed.
  Lemma names_eval m ns vs en' : names_rel ns vs en' -> exists vs', mapM (eval_o o m en') (map EName ns) = Ok vs' /\ vrels vs vs'.
  Proof.
    revert vs. induction ns as [|y ns IH]; intros vs H; inversion H; subst.
    - exists []. split; [auto|constructor].
    - match goal with H : SrcRel.names_rel _ _ ns _ _ |- _ => destruct (IH _ H) as (vs' & E & R) end.
      exists (v' :: vs'). split; [|constructor; auto]. cbn [map]. rewrite mapM_cons, eval_name.
      match goal with H : lookup y en' = Some _ |- _ => rewrite H end. cbn [bind]. rewrite E. auto.
  Qed.
  Lemma names_get ns : forall vs en', names_rel ns vs en' -> forall m,
     Forall2 (fun n v => exists v', eval_o o m en' (EName n) = Ok v' /\ vrel v v') ns vs.
  Proof.
    induction ns as [|y ns IH]; intros vs en' H m; inversion H; subst; constructor; auto.
    exists v'. rewrite eval_name. match goal with H : lookup y en' = Some _ |- _ => rewrite H end. auto.
  Qed.

  Lemma bind_sim {A} (r : res sval) r' (f : sval -> res A) g (R : res A -> res value -> Prop) :
    rrel r r' -> (forall v v', vrel v v' -> R (f v) (g v')) -> (forall e, R (Trap e) (Trap e)) -> R Panic Panic -> R OutOfFuel OutOfFuel ->
    R (bind r f) (bind r' g).
  Proof. intros HR H1 H2 H3 H4. destruct r, r'; simpl in HR; try contradiction; subst; simpl; auto. Qed.

  (** String functions. *)
  Definition as_str (v : sval) : res bytes := match v with WStr s => Ok s | _ => Panic end.
  Lemma as_int_rel v v' : vrel v v' -> into_int v' = as_int v.
  Proof. intros H; inversion H; subst; reflexivity. Qed.
  Lemma as_str_rel v v' : vrel v v' -> into_string v' = as_str v.
  Proof. intros H; inversion H; subst; reflexivity. Qed.
  Lemma str_op_eq i args : length args = op_arity i -> str_op i args =
    match i, args with
    | StringLen, [a] => s <- as_str a ;; Ok (WInt (str_len s))
    | StringConcat, [a; b] => x <- as_str a ;; y <- as_str b ;; Ok (WStr (x ++ y))
    | StringCharAt, [a; b] => n <- as_int a ;; s <- as_str b ;; Ok (WInt (str_char_at n s))
    | StringSubstring, [a; b; c] => x <- as_int a ;; n <- as_int b ;; s <- as_str c ;; Ok (WStr (str_substring x n s))
    | StringFromChar, [a] => c <- as_int a ;; Ok (WStr (str_from_char c))
    | IntToString, [a] => n <- as_int a ;; Ok (WStr (int_to_string n))
    | _, _ => Panic
    end.
  Proof.
    unfold op_arity. intros H. destruct i; simpl in H; repeat (destruct args as [|? args]; simpl in H; try discriminate);
      unfold str_op;
      repeat match goal with v : sval |- _ => destruct v; cbn [as_str as_int bind]; try reflexivity end.
  Qed.
  Lemma str_op_sim i got ns en' m : names_rel ns got en' -> length ns = op_arity i ->
    rrel (str_op i got) (eval_o o m en' (EIntr i (map EName ns))).
  Proof.
    intros H HL. pose proof (@names_get _ _ _ H m) as HG. rewrite str_op_eq by (rewrite <- (names_length H); auto). clear H.
    destruct i; unfold op_arity in HL; simpl in HL;
      repeat (destruct ns as [|? ns]; simpl in HL; try discriminate);
      repeat match goal with H : Forall2 _ (_ :: _) _ |- _ => inversion H; clear H; subst
                        | H : Forall2 _ [] _ |- _ => inversion H; clear H; subst end;
      repeat match goal with H : exists _, _ |- _ => destruct H as (? & ? & ?) end;
      rewrite eval_unfold; cbn [eval_eqn map];
      repeat match goal with H : eval_o _ _ _ _ = _ |- _ => rewrite H; clear H end; cbn [bind];
      repeat match goal with H : SrcRel.vrel _ _ ?a _ |- _ => rewrite ?(as_int_rel H), ?(as_str_rel H); clear H end;
      repeat match goal with |- context [as_int ?v] => destruct (as_int v); cbn [bind]; try exact I; try reflexivity
                        | |- context [as_str ?v] => destruct (as_str v); cbn [bind]; try exact I; try reflexivity end; constructor.
  Qed.

  (** The loop of [iterate]. *)
  Section Loop.
    Variables (n f x go n2 x2 : name) (fv : value) (cenv : env).
    Hypothesis Hnd : NoDup [n; f; x; go; n2; x2].
    Hypothesis Hf : lookup f cenv = Some fv.
    Lemma go_any m k v : k <> 0%N ->
      eval_o o m (go_env f go n2 x2 cenv k v) (go_body f go n2 x2) =
      (w <- call_o o m fv [v] ;; call_o o m (go_val f go n2 x2 cenv) [eval_op Subtract k 1; w]).
    Proof.
      intros Hk. pose proof (@lookups n f x go n2 x2 fv cenv Hnd Hf k v) as (L1 & L2 & L3 & L4).
      set (E := go_env f go n2 x2 cenv k v) in *. set (gv := go_val f go n2 x2 cenv) in *.
      assert (Ego : eval_o o m E (EName go) = Ok gv) by (rewrite eval_name, L4; auto).
      assert (Ef : eval_o o m E (EName f) = Ok fv) by (rewrite eval_name, L3; auto).
      assert (Ex : eval_o o m E (EName x2) = Ok v) by (rewrite eval_name, L2; auto).
      assert (En : eval_o o m E (EName n2) = Ok (VInt k)) by (rewrite eval_name, L1; auto).
      assert (Es : eval_o o m E (EOp (EName n2) Subtract (EInt 1)) = Ok (eval_op Subtract k 1)).
      { rewrite eval_unfold. cbn [eval_eqn]. rewrite En, (eval_unfold o m E (EInt 1)). reflexivity. }
      assert (Ea : eval_o o m E (ECall (EName f) [EName x2]) = call_o o m fv [v]) by (apply call1; auto).
      rewrite eval_unfold. unfold go_body, eval_eqn. fold (go_body f go n2 x2).
      rewrite (eval_unfold o m E (EOp (EName n2) LessEq (EInt 0))). cbn [eval_eqn].
      rewrite En, (eval_unfold o m E (EInt 0)). cbn [eval_eqn bind into_int eval_op into_bool].
      destruct (N.leb_spec k 0) as [?|_]; [lia|]. cbn [bind into_bool].
      rewrite (eval_unfold o m E (ECall _ _)). cbn [eval_eqn].
      destruct o; rewrite !mapM_cons, Ego, Es, Ea; cbn [bind mapM]; unfold gv at 1, go_val; destruct (call_o _ m fv [v]); auto.
    Qed.
  End Loop.

  Lemma sapply_unfold k f a : sapply o tys (S k) f a =
    match f with
    | WFun en x b => seval o tys (sapply o tys k) ((x, a) :: en) b
    | WFold tbl en x b =>
      match a with
      | WCon false c fs =>
        match lookup c tbl with
        | Some recs =>
          if length recs =? length fs then
            ws <- mapM (fun rf : bool * sval => if fst rf then sapply o tys k f (snd rf) else Ok (snd rf)) (combine recs fs) ;;
            w <- build true c ws ;; seval o tys (sapply o tys k) ((x, w) :: en) b
          else Panic
        | None => Panic
        end
      | _ => Panic
      end
    | WCtor c n got => if S (length got) =? n then build false c (got ++ [a]) else Ok (WCtor c n (got ++ [a]))
    | WOp i got => if S (length got) =? op_arity i then str_op i (got ++ [a]) else Ok (WOp i (got ++ [a]))
    | WIter got => match got with [n; g] => siter o tys k n g a | _ => Ok (WIter (got ++ [a])) end
    | _ => Panic
    end.
  Proof. destruct f; reflexivity. Qed.
  Lemma siter_unfold k n g x : siter o tys (S k) n g x =
    (i <- as_int n ;; if N.eqb i 0 then Ok x else w <- sapply o tys k g x ;; siter o tys k (arith Subtract i 1) g w).
  Proof. reflexivity. Qed.

  (** Looking up a constructor in the table of a fold. *)
  Lemma table_sym (F : ctor -> list bool) cs c k : lookup c K = Some k -> (forall d, In d cs -> lookup (k_sym d) K = Some d) ->
    lookup (k_regular k) (map (fun c => (k_regular c, (k_folded c, F c))) cs) =
    match lookup c (map (fun c => (k_sym c, F c)) cs) with Some r => Some (k_folded k, r) | None => None end.
  Proof.
    intros Hk. induction cs as [|d cs IH]; simpl; intros H; auto.
    assert (Hd := H d (or_introl eq_refl)).
    destruct (Nat.eqb_spec c (k_sym d)) as [->|Hne].
    - assert (d = k) by congruence. subst. rewrite Nat.eqb_refl. auto.
    - destruct (Nat.eqb_spec (k_regular k) (k_regular d)) as [E|_]; [|apply IH; auto].
      destruct (@K_inj _ _ _ _ false false Hk Hd E) as [E1 _]. congruence.
  Qed.
  Lemma table_none (F : ctor -> list bool) cs c k : lookup c K = Some k -> (forall d, In d cs -> lookup (k_sym d) K = Some d) ->
    lookup (k_folded k) (map (fun c => (k_regular c, (k_folded c, F c))) cs) = None.
  Proof.
    intros Hk. induction cs as [|d cs IH]; simpl; intros H; auto.
    assert (Hd := H d (or_introl eq_refl)).
    destruct (Nat.eqb_spec (k_folded k) (k_regular d)) as [E|_]; [|apply IH; auto].
    destruct (@K_inj _ _ _ _ true false Hk Hd E) as [_ E1]. discriminate.
  Qed.

  (** A match in core, by its branch. *)
  Lemma eval_match m en d brs c fs : eval_o o m en d = Ok (VComp c fs) ->
    eval_o o m en (EMatch d brs) = match find_branch c brs with
                                   | Some (bs, b) => if length bs =? length fs then eval_o o m (add_all en bs fs) b else Panic
                                   | None => Panic
                                   end.
  Proof.
    intros H. rewrite eval_unfold. cbn [eval_eqn]. rewrite H. reflexivity.
  Qed.

  Lemma call_one m ce p b v : call_o o (S m) (VFn ce None [p] b) [v] = eval_o o m ((p, v) :: ce) b.
  Proof. reflexivity. Qed.

  Theorem apply_sim n : (forall f f' v v', vrel f f' -> vrel v v' -> rrel (sapply o tys n f v) (call_o o n f' [v'])) /\
    (forall nv nv' g fv x v nm f xx go n2 x2 cenv, NoDup [nm; f; xx; go; n2; x2] -> lookup f cenv = Some fv ->
       vrel nv nv' -> vrel g fv -> vrel x v ->
       rrel (siter o tys n nv g x) (call_o o n (go_val f go n2 x2 cenv) [nv'; v])).
  Proof.
    induction n as [|n [IHa IHi]].
    { split; [|intros; exact I]. intros f f' v v' Hf Hv. inversion Hf; subst; simpl; exact I. }
    pose proof (@sval_sim K tys K_inj o n (sapply o tys n) IHa) as SIM.
    split.
    - intros f f' v v' Hf Hv. rewrite sapply_unfold.
      inversion Hf as [| | | |en en' x b nm b' D s s' HG Gd St Hx HD HE
                      |en en' x b fold temp real b' D s s' HG Gd St Hx HD Htf HE
                      |en en' x b fold temp real b' D s s' cs ts brs HG Gd St Hx HD Htf HE Hbr Hcs
                      |c k ts got done p rest en' Hk Hnd Hns|i got done p rest en' HL Hnd Hns
                      |en' nm g x go n2 x2 a Hnd|en' nm g x go n2 x2 a nv nv' b Hnd H1 H2 Eb
                      |en' nm g x go n2 x2 a nv nv' fv fv' b Hnd H1 H2 H3 H4 Eb]; subst; try exact I.
      + (* lambda *)
        unfold call_o. cbn [length Nat.eqb call_env add_all]. eapply SIM; [exact HG|auto|exact St|].
        apply erel_bind; auto.
      + (* a fold that keeps its argument *)
        unfold call_o. cbn [length Nat.eqb call_env add_all].
        rewrite eval_unfold. cbn [eval_eqn]. rewrite eval_name. simpl lookup.
        destruct (Nat.eqb_spec temp fold); [congruence|]. rewrite Nat.eqb_refl. cbn [bind].
        eapply SIM; [exact HG|auto|exact St|]. apply erel_bind; auto.
        * apply erel_core; [apply erel_core; auto|]; intros y Hy Hc; destruct (HD y _ Hy Hc) as (? & ? & ? & ?); congruence.
        * intros y Hy. split; [|intros Hc; destruct (HD y _ Hy Hc) as (? & ? & ? & ?); congruence].
          destruct (@erel_get _ _ _ _ _ _ y HE Hy) as (m & _ & _ & Hm & _). apply (HD y m Hy Hm).
      + (* a fold over a declared type *)
        unfold call_o. cbn [length Nat.eqb call_env add_all].
        set (self := VFn en' (Some fold) [temp] (ELet real (EMatch (EName temp) brs) b')).
        set (E := (fold, self) :: (temp, v') :: en').
        rewrite eval_unfold. cbn [eval_eqn].
        assert (Et : eval_o o n E (EName temp) = Ok v').
        { rewrite eval_name. simpl. destruct (Nat.eqb_spec temp fold); [congruence|]. rewrite Nat.eqb_refl. auto. }
        inversion Hv as [|b0|s0|ff c k fs fs' Hk Hvs| | | | | | | |]; subst;
          try (match goal with |- rrel Panic (bind ?r _) => replace r with (@Panic value); [exact I|]; symmetry; rewrite eval_unfold; cbn [eval_eqn]; rewrite Et; reflexivity end).
        rewrite (@eval_match n E (EName temp) brs (tag ff k) fs' Et).
        set (F := fun c0 : ctor => match lookup (k_sym c0) (g_fields s) with Some l => map is_rec l | None => [] end).
        match goal with |- context [map ?g cs] => change (map g cs) with (map (fun c0 => (k_sym c0, F c0)) cs) end.
        match type of Hf with context [map ?g cs] => change (map g cs) with (map (fun c0 => (k_sym c0, F c0)) cs) in Hf end.
        pose proof (@table_sym F cs c k Hk Hcs) as TS. pose proof (@table_none F cs c k Hk Hcs) as TN.
        change (map (fun c => (k_regular c, (k_folded c, F c))) cs) with (fold_table s cs) in TS, TN.
        destruct ff; cbn [tag].
        { destruct (find_branch (k_folded k) brs) as [[bs b0]|] eqn:Eb; [|exact I].
          destruct (@branch_lookup _ _ _ _ Hbr _ _ _ Eb) as (c' & recs & Hl & _). congruence. }
        destruct (lookup c (map (fun c0 => (k_sym c0, F c0)) cs)) as [recs|] eqn:El.
        2:{ destruct (find_branch (k_regular k) brs) as [[bs b0]|] eqn:Eb; [|exact I].
            destruct (@branch_lookup _ _ _ _ Hbr _ _ _ Eb) as (c' & recs & Hl & _). congruence. }
        destruct (@table_branch _ _ _ _ Hbr _ _ _ TS) as (bs & b0 & -> & ffs & bs1 & Eq & Hbl & Hnd & Hnf & Hrec).
        simpl in Hrec. subst recs. injection Eq as <- ->. cbn [snd fst].
        rewrite map_length. pose proof (vrels_length Hvs) as LV. rewrite LV, <- Hbl.
        destruct (Nat.eqb_spec (length bs) (length fs')) as [Hlen|_]; [|exact I].
        assert (EE : forall en0, eval_o o n en0 (EConstruct (k_folded k) ts (map (fun fb : option sty * name => match fst fb with None => ECall (EName fold) [EName (snd fb)] | Some _ => EName (snd fb) end) (combine ffs bs)))
                  = (vs <- mapM (eval_o o n en0) (map (fun fb : option sty * name => match fst fb with None => ECall (EName fold) [EName (snd fb)] | Some _ => EName (snd fb) end) (combine ffs bs)) ;; mk_tagged (k_folded k) vs)).
        { intros. rewrite eval_unfold. reflexivity. }
        rewrite EE. clear EE.
        (* the fields *)
        assert (FS : forall en0 ffs bs fs fs', lookup fold en0 = Some self -> vrels fs fs' -> Forall2 (fun b v => lookup b en0 = Some v) bs fs' -> length bs = length ffs ->
                  match mapM (fun rf : bool * sval => if fst rf then sapply o tys n (WFold (map (fun c0 => (k_sym c0, F c0)) cs) en x b) (snd rf) else Ok (snd rf)) (combine (map is_rec ffs) fs),
                        mapM (eval_o o n en0) (map (fun fb : option sty * name => match fst fb with None => ECall (EName fold) [EName (snd fb)] | Some _ => EName (snd fb) end) (combine ffs bs)) with
                  | Ok ws, Ok ws' => vrels ws ws'
                  | Trap e, Trap e' => e = e'
                  | Panic, Panic => True
                  | OutOfFuel, OutOfFuel => True
                  | _, _ => False
                  end).
        { clear - IHa Hf. intros en0 ffs. induction ffs as [|ff ffs IH]; intros [|b1 bs] fs fs' Hfold Hvs HF2 HL; simpl in HL; try discriminate.
          - simpl. constructor.
          - inversion HF2 as [|? v1' ? fs1' Hb HF2']; subst. inversion Hvs as [|v1 ? fs1 ? Hv1 Hvs']; subst.
            cbn [map combine]. rewrite !mapM_cons. cbn [fst snd is_rec].
            specialize (IH bs fs1 fs1' Hfold Hvs' HF2' ltac:(lia)).
            assert (R1 : rrel (if is_rec ff then sapply o tys n (WFold (map (fun c0 => (k_sym c0, F c0)) cs) en x b) v1 else Ok v1)
                           (eval_o o n en0 match ff with None => ECall (EName fold) [EName b1] | Some _ => EName b1 end)).
            { destruct ff; simpl.
              - rewrite eval_name, Hb. exact Hv1.
              - rewrite call1 with (fv := self) (av := v1'); [apply IHa; auto|rewrite eval_name, Hfold; auto|rewrite eval_name, Hb; auto]. }
            match type of R1 with rrel ?a ?b => destruct a as [w| | |], b as [w'| | |]; try contradiction; auto end. cbn [bind].
            match type of IH with match ?a with _ => _ end => destruct a as [ws| | |] end;
            match type of IH with match ?a with _ => _ end => destruct a as [ws'| | |]; try contradiction; auto end.
            cbn [bind]. constructor; auto. }
        specialize (FS (add_all E bs fs') ffs bs fs fs').
        rewrite lookup_add_all_not in FS by auto. unfold E in FS at 1. simpl lookup in FS. rewrite Nat.eqb_refl in FS.
        specialize (FS eq_refl Hvs (lookups_bound Htf Hnd E fs' Hlen) Hbl).
        match type of FS with match ?a with _ => _ end => destruct a as [ws| | |] end;
          match type of FS with match ?a with _ => _ end => destruct a as [ws'| | |]; try contradiction; auto end.
        cbn [bind]. unfold build, mk_tagged. rewrite (vrels_length FS). destruct (length ws' <=? max_fields); [|exact I]. cbn [bind].
        eapply SIM; [exact HG|auto|exact St|]. apply erel_bind; auto.
        * unfold E. apply erel_core; [apply erel_core; auto|]; intros y Hy Hc; destruct (HD y _ Hy Hc) as (? & ? & ? & ?); congruence.
        * change (k_folded k) with (tag true k). constructor; auto.
        * intros y Hy. split; [|intros Hc; destruct (HD y _ Hy Hc) as (? & ? & ? & ?); congruence].
          destruct (@erel_get _ _ _ _ _ _ y HE Hy) as (m & _ & _ & Hm & _). apply (HD y m Hy Hm).
      + (* a constructor *)
        rewrite call_one. pose proof (names_length Hns) as LN.
        assert (Hp : ~ In (fst p) done) by (intros Hc; apply NoDup_remove_2 in Hnd; apply Hnd; apply in_or_app; auto).
        assert (NS : names_rel (done ++ [fst p]) (got ++ [v]) ((fst p, v') :: en')) by (apply names_snoc; auto).
        destruct rest as [|q rest]; cbn [lams fold_right length].
        * rewrite <- LN. destruct (Nat.eqb_spec (S (length done)) (length done + 1)) as [_|?]; [|lia].
          rewrite eval_unfold. cbn [eval_eqn]. destruct (@names_eval n _ _ _ NS) as (vs' & E & R). cbn [map]. rewrite E. cbn [bind].
          unfold build, mk_tagged. rewrite (vrels_length R). destruct (length vs' <=? max_fields); [|exact I].
          change (k_regular k) with (tag false k). constructor; auto.
        * rewrite <- LN. destruct (Nat.eqb_spec (S (length done)) (length done + S (S (length rest)))) as [?|_]; [lia|].
          rewrite eval_unfold. cbn [eval_eqn map].
          assert (VC := @VR_ctor K tys c k ts (got ++ [v]) (done ++ [fst p]) q rest ((fst p, v') :: en') Hk).
          rewrite <- !app_assoc in VC. simpl in VC. specialize (VC Hnd NS). rewrite app_length in VC. simpl in VC.
          replace (length done + 1 + S (length rest)) with (length done + S (S (length rest))) in VC by lia. exact VC.
      + (* a string function *)
        rewrite call_one. pose proof (names_length Hns) as LN.
        assert (Hp : ~ In (fst p) done) by (intros Hc; apply NoDup_remove_2 in Hnd; apply Hnd; apply in_or_app; auto).
        assert (NS : names_rel (done ++ [fst p]) (got ++ [v]) ((fst p, v') :: en')) by (apply names_snoc; auto).
        rewrite <- LN. destruct rest as [|q rest]; cbn [lams fold_right length] in *.
        * destruct (Nat.eqb_spec (S (length done)) (op_arity i)) as [_|?]; [|lia].
          apply str_op_sim; auto. rewrite app_length; simpl; lia.
        * destruct (Nat.eqb_spec (S (length done)) (op_arity i)) as [?|_]; [lia|].
          rewrite eval_unfold. cbn [eval_eqn map].
          assert (VC := @VR_op K tys i (got ++ [v]) (done ++ [fst p]) q rest ((fst p, v') :: en')).
          rewrite app_length in VC. rewrite <- !app_assoc in VC. simpl in VC. specialize (VC ltac:(lia) Hnd NS). exact VC.
      + (* iterate *)
        unfold iterate_val, iterate_core. cbn [map fst]. rewrite call_lam. simpl. eapply VR_iter1; eauto.
        * simpl. rewrite Nat.eqb_refl. auto.
        * reflexivity.
      + unfold iterate_core in Eb. injection Eb as <-. rewrite call_lam. simpl.
        pose proof (@names_differ nm g x go n2 x2 Hnd) as ND.
        eapply VR_iter2 with (n := nm) (f := g); eauto.
        * simpl. destruct (Nat.eqb_spec nm g); [lia|auto].
        * simpl. rewrite Nat.eqb_refl. auto.
        * reflexivity.
      + unfold iterate_core in Eb. injection Eb as <-.
        pose proof (@names_differ nm g x go n2 x2 Hnd) as (N1 & N2 & N3 & N4 & N5 & N6 & N7 & N8 & N9 & N10 & N11).
        unfold call_o. cbn [length Nat.eqb call_env add_all].
        set (E := (x, v') :: en').
        rewrite eval_unfold. cbn [eval_eqn strip_pis map fst].
        fold (go_body g go n2 x2). fold (go_val g go n2 x2 E).
        rewrite eval_unfold. cbn [eval_eqn].
        set (E2 := (go, go_val g go n2 x2 E) :: E).
        assert (A1 : eval_o o n E2 (EName go) = Ok (go_val g go n2 x2 E)) by (rewrite eval_name; simpl; rewrite Nat.eqb_refl; auto).
        assert (A2 : eval_o o n E2 (EName nm) = Ok nv').
        { rewrite eval_name. simpl. destruct (Nat.eqb_spec nm go); [congruence|]. destruct (Nat.eqb_spec nm x); [congruence|]. rewrite H1; auto. }
        assert (A3 : eval_o o n E2 (EName x) = Ok v').
        { rewrite eval_name. simpl. destruct (Nat.eqb_spec x go); [congruence|]. rewrite Nat.eqb_refl; auto. }
        assert (R : rrel (siter o tys n nv fv v) (call_o o n (go_val g go n2 x2 E) [nv'; v'])).
        { eapply IHi with (nm := nm) (xx := x); eauto. simpl. destruct (Nat.eqb_spec g x); [congruence|auto]. }
        destruct o; rewrite !mapM_cons, A1, A2, A3; cbn [bind mapM]; exact R.
    - intros nv nv' g fv x v nm f xx go n2 x2 cenv Hnd Hf Hn Hg Hx. rewrite siter_unfold.
      pose proof (@names_differ nm f xx go n2 x2 Hnd) as (N1 & N2 & N3 & N4 & N5 & N6 & _).
      inversion Hn as [i|b0|s0|ff c k fs fs' Hk Hvs| | | | | | | |]; subst; cbn [as_int bind];
        try (unfold call_o, go_val; cbn [length Nat.eqb call_env add_all];
             match goal with |- context [eval_o o n ?E (go_body _ _ _ _)] => set (E0 := E) end;
             assert (A1 : exists w, eval_o o n E0 (EName n2) = Ok w /\ into_int w = Panic)
               by (eexists; rewrite eval_name; unfold E0; simpl; destruct (Nat.eqb_spec n2 go); [congruence|];
                   destruct (Nat.eqb_spec n2 x2); [congruence|]; rewrite Nat.eqb_refl; split; [reflexivity|reflexivity]);
             destruct A1 as (w & A1 & A2);
             rewrite eval_unfold; unfold go_body; cbn [eval_eqn];
             rewrite (eval_unfold o n E0 (EOp _ _ _)); cbn [eval_eqn]; rewrite A1; cbn [bind]; rewrite A2; exact I).
      rewrite call_go. destruct (N.eqb_spec i 0) as [->|Hi].
      + rewrite (@go_stop nm f xx go n2 x2 fv cenv Hnd Hf). exact Hx.
      + rewrite (@go_any nm f xx go n2 x2 fv cenv Hnd Hf) by auto.
        pose proof (IHa _ _ _ _ Hg Hx) as R.
        destruct (sapply o tys n g x) as [w| | |], (call_o o n fv [v]) as [w'| | |]; try contradiction; auto. cbn [bind].
        eapply IHi; eauto. constructor.
  Qed.
End Apply.
