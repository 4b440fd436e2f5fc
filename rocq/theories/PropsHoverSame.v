(** C57: what is shown does not depend on what was asked before. *)
From Verif Require CompileCorrect.
From Verif Require Import TypeckProg ResolveFacts ResolveProofs ResolveLex PropsHover.
From Verif Require Import HoverText NavProofs NavUnits PropsNav TokenSpec HoverSpec HoverProofs Hover NavSpec.
Set Implicit Arguments.

Fixpoint mentions (t : irty) (s : sym) : Prop :=
  match t with
  | IrNamed x args => x = s \/ (fix go (l : list irty) : Prop := match l with [] => False | t :: r => mentions t s \/ go r end) args
  | IrFn a b | IrFolded a b => mentions a s \/ mentions b s
  | _ => False
  end.
(** The types found for definitions mention types compiled so far. *)
Definition knows (ts : sym -> irty) (r : nav * option info) : Prop :=
  forall e s, In e (all_defs (nv_items (fst r))) -> mentions (ts (d_sym e)) s -> exists e', In e' (all_defs (nv_items (fst r))) /\ d_sym e' = s.
Lemma hover_ext f g t : (forall s, mentions t s -> f s = g s) -> forall p, hover_type f p t = hover_type g p t.
Proof.
  induction t as [| | |s args IH|a b IHa IHb| | |a b IHa IHb] using UnifyFacts.irty_ind'; intros H p; auto; cbn [hover_type].
  - rewrite (H s) by (cbn; auto).
    match goal with |- _ ++ _ ++ ?x ++ _ = _ ++ _ ++ ?y ++ _ => assert (E : x = y); [|rewrite E; auto] end.
    assert (H' : forall s', (fix go (l : list irty) : Prop := match l with [] => False | t :: r => mentions t s' \/ go r end) args -> f s' = g s') by (intros s' Q; apply H; cbn; auto).
    clear H. induction IH as [|x l Hx _ IHl]; auto. rewrite (Hx (fun s' Q => H' s' (or_introl Q))). do 2 f_equal. apply IHl. intros s' Q. apply H'. right. exact Q.
  - rewrite (IHa (fun s Q => H s (or_introl Q))), (IHb (fun s Q => H s (or_intror Q))). auto.
  - rewrite (IHa (fun s Q => H s (or_introl Q))), (IHb (fun s Q => H s (or_intror Q))). auto.
Qed.
Lemma unique {A B} (f : A -> B) l a b : NoDup (map f l) -> In a l -> In b l -> f a = f b -> a = b.
Proof.
  induction l as [|x l IH]; [intros _ []|]. cbn. intros N Ha Hb E. inversion_clear N as [|? ? N1 N2]. destruct Ha as [->|Ha], Hb as [->|Hb]; auto.
  - destruct N1. rewrite E. apply in_map. auto.
  - destruct N1. rewrite <- E. apply in_map. auto.
Qed.
Lemma whole sy ps ts offs pos e : (forall a b, sy a = sy b -> a = b) -> laid_out ps ->
  In e (all_defs (nv_items (fst (info_at sy ts ps pos (nav_after sy ps offs))))) -> In e (flat_map idefs (nv_items (run sy 0 ps c0 0))).
Proof.
  intros J LO. destruct (after_reached sy ps offs) as (ps0 & R0). destruct (@up_to_reached sy ps _ ps0 (pos + 1) R0) as (ps1 & (P1 & E) & HP). unfold info_at. cbn [fst]. rewrite E.
  intros He. apply (@def_sub sy ps LO ps1 P1 pos HP). exact He.
Qed.
Theorem C57_same_answer sy ts ps offs offs' pos : (forall a b, sy a = sy b -> a = b) -> laid_out ps ->
  let r := info_at sy ts ps pos (nav_after sy ps offs) in let r' := info_at sy ts ps pos (nav_after sy ps offs') in
  knows ts r -> knows ts r' -> snd r = snd r'.
Proof.
  intros J LO r r' K K'. destruct (@C57_hover sy ts ps offs pos J LO) as (U & B & N & L). destruct (@C57_hover sy ts ps offs' pos J LO) as (U' & B' & N' & L').
  fold r in U, B, N, L. fold r' in U', B', N', L'.
  assert (ND : NoDup (map d_name (flat_map idefs (nv_items (run sy 0 ps c0 0))))).
  { rewrite (@binder_names sy ps). pose proof (lo_once LO) as Q. apply CompileCorrect.NoDup_app_iff in Q as (_ & Q & _). exact Q. }
  assert (SAME : forall n d, In d (binders ps) -> tells ts ps r n d -> tells ts ps r' n d -> snd r = snd r').
  { intros n d Hd (e & t & He & En & Er & W & I) (e' & t' & He' & En' & Er' & W' & I'). rewrite Er, Er'. do 4 f_equal.
    assert (e' = e) as -> by (apply (unique d_name _ _ _ ND); [eapply whole; eauto|eapply whole; eauto|congruence]).
    rewrite <- (C57_all_declared LO) in Hd. apply in_map_iff in Hd as ([d' [w|]] & Ed & Hd); cbn in Ed; subst d'.
    - rewrite (W _ Hd), (W' _ Hd). auto.
    - rewrite (I Hd), (I' Hd). apply hover_ext. intros s M. destruct (K _ _ He M) as (x & Hx & Ex), (K' _ _ He' M) as (y & Hy & Ey).
      pose proof (L _ Hx) as Lx. pose proof (L' _ Hy) as Ly. rewrite Ex in Lx. rewrite Ey in Ly. rewrite Lx, Ly. do 2 f_equal.
      eapply nodup_sym; [apply (@run_distinct sy J ps)|eapply whole; eauto|eapply whole; eauto|congruence]. }
  destruct (find (fun u => on (fst u) pos) (uses ps)) as [[n d]|] eqn:Fu.
  - apply find_some in Fu as [Hu O]. cbn in O. apply (SAME n d); auto. apply (C53_uses_are_of_the_unit _ _ _ Hu).
  - destruct (find (fun d => on d pos) (binders ps)) as [d|] eqn:Fb.
    + apply find_some in Fb as [Hd O]. apply (SAME d d); auto.
    + assert (Z : forall n, In n (map fst (uses ps) ++ binders ps) -> on n pos = false).
      { intros n Hn. apply in_app_iff in Hn as [Hn|Hn]; [|exact (find_none _ _ Fb _ Hn)]. apply in_map_iff in Hn as (u & <- & Hu). exact (find_none _ _ Fu _ Hu). }
      rewrite (N Z), (N' Z). auto.
Qed.
Print Assumptions C57_same_answer.
From Verif Require PropsTokens.
(** In the program of C56, where the type of [x] mentions the type [T]. *)
Example C57_same_example : let ts := fun s => if s =? 5 then IrNamed 0 [IrInt] else IrInt in
  let r := info_at (fun n => n) ts PropsTokens.hs 43 (nav_after (fun n => n) PropsTokens.hs [30]) in
  let r' := info_at (fun n => n) ts PropsTokens.hs 43 (nav_after (fun n => n) PropsTokens.hs [1; 60]) in
  knows ts r /\ knows ts r' /\ map d_sym (filter (fun e => d_sym e =? 5) (all_defs (nv_items (fst r)))) = [5].
Proof.
  cbn zeta. assert (Q : forall l, In 0 (map d_sym l) -> forall e s, In e l -> mentions (if d_sym e =? 5 then IrNamed 0 [IrInt] else IrInt) s -> exists e', In e' l /\ d_sym e' = s).
  { intros l H e s _ M. destruct (d_sym e =? 5); cbn in M; [|tauto]. destruct M as [<-|[[]|[]]]. apply in_map_iff in H as (x & Ex & Hx). eauto. }
  split; [refine (Q _ _); vm_compute; tauto|]. split; [refine (Q _ _); vm_compute; tauto|]. vm_compute. reflexivity.
Qed.
