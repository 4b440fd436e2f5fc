(** What a run of the resolver adds to its state. *)
From Coq Require Import Permutation.
From Verif Require Import VerifyState.
From Verif Require Import TypeckSpec TypeckProg Resolve Typeck.
Set Implicit Arguments.

Lemma rbind_inv A B (m : rm A) (f : A -> rm B) s b s2 : rbind m f s = (b, s2) -> exists a s1, m s = (a, s1) /\ f a s1 = (b, s2).
Proof. unfold rbind. destruct (m s) as [a s1]. eauto. Qed.
Ltac rb := repeat match goal with
  | H : rbind _ _ _ = (_, _) |- _ => apply rbind_inv in H as (? & ? & ? & H)
  | H : rret _ _ = (_, _, _, _) |- _ => unfold rret in H; injection H as <- <- <- <-
  | H : rret _ _ = (_, _) |- _ => unfold rret in H; injection H as <- <-
  | H : record_ref _ _ = (_, _) |- _ => unfold record_ref in H; injection H as <- <-
  | H : record_error _ = (_, _) |- _ => unfold record_error in H; injection H as <- <-
  end.

Definition kd (d : rdef) : sym * dkind := (d_sym d, d_kind d).
Definition entries (c : scope) : names := sc_values c ++ sc_types c ++ sc_ctors c.
(** A reference is to a name in scope or to a definition of the same name. *)
Definition named (ds : list rdef) (p : list N * sym) : Prop := exists d, In d ds /\ (id_text (d_name d), d_sym d) = p.
Definition ext (c : scope) (ds : list rdef) (c' : scope) : Prop := forall p, In p (entries c') -> In p (entries c) \/ named ds p.
Definition ref_ok (c : scope) (ds : list rdef) (r : rref) : Prop :=
  In (id_text (r_name r), r_sym r) (entries c) \/ named ds (id_text (r_name r), r_sym r).

Lemma lookup_text_in l t s : lookup_text l t = Some s -> In (t, s) l.
Proof.
  induction l as [|[t' s'] l IH]; cbn; [discriminate|]. unfold text_eqb. destruct (list_eq_dec _ t' t) as [->|]; [intros E; injection E as ->; auto|auto].
Qed.
Lemma named_app a b p : named (a ++ b) p <-> named a p \/ named b p.
Proof.
  split.
  - intros (d & Hd & E). apply in_app_iff in Hd as [Hd|Hd]; [left|right]; exists d; auto.
  - intros [(d & Hd & E)|(d & Hd & E)]; exists d; rewrite in_app_iff; auto.
Qed.
Lemma ext_refl c ds : ext c ds c. Proof. intros p H. auto. Qed.
Lemma ext_more c ds ds' c' : ext c ds c' -> incl ds ds' -> ext c ds' c'.
Proof. intros H I p Hp. apply H in Hp as [Hp|(d & Hd & E)]; auto. right. exists d. auto. Qed.
Lemma ext_trans c ds c1 ds' c2 : ext c ds c1 -> ext c1 ds' c2 -> ext c (ds ++ ds') c2.
Proof.
  intros A B p Hp. rewrite named_app. apply B in Hp as [Hp|Hp]; [|tauto]. apply A in Hp. tauto.
Qed.
Lemma ext_value c d : ext c [d] (add_value (id_text (d_name d)) (d_sym d) c).
Proof. intros p Hp. unfold entries in *. cbn in Hp. destruct Hp as [<-|Hp]; auto. right. exists d. cbn. auto. Qed.
Lemma ext_type c d : ext c [d] (add_type (id_text (d_name d)) (d_sym d) c).
Proof.
  intros p Hp. unfold entries in *. cbn in Hp. rewrite in_app_iff in Hp. cbn in Hp. rewrite !in_app_iff in *.
  destruct Hp as [Hp|[<-|Hp]]; [tauto| |tauto]. right. exists d. cbn. auto.
Qed.

Section Facts.
  Variable sy : nat -> sym.

  Definition made (lo hi : nat) (T : defset) : Prop := exists is, NoDup is /\ Forall (fun i => lo <= i < hi) is /\ map fst T = map sy is.
  Lemma made_nil lo hi : made lo hi []. Proof. exists []. repeat split; constructor. Qed.
  Lemma made_one n k : made n (S n) [(sy n, k)].
  Proof. exists [n]. repeat split; repeat constructor; auto. Qed.
  Lemma made_app lo mid hi a b : lo <= mid -> mid <= hi -> made lo mid a -> made mid hi b -> made lo hi (a ++ b).
  Proof.
    intros L1 L2 (i & N1 & F1 & E1) (j & N2 & F2 & E2). exists (i ++ j). split; [|split].
    - apply NoDup_app_iff. split; auto. split; auto. intros x Hx Hy. rewrite Forall_forall in *. specialize (F1 _ Hx). specialize (F2 _ Hy). lia.
    - apply Forall_app. split; [eapply Forall_impl; [|exact F1]|eapply Forall_impl; [|exact F2]]; cbn; intros; lia.
    - rewrite !map_app. congruence.
  Qed.
  Lemma made_perm lo hi a b : Permutation a b -> made lo hi a -> made lo hi b.
  Proof.
    intros P (i & N & F & E). assert (P' : Permutation (map fst b) (map sy i)) by (rewrite <- E; apply Permutation_map; symmetry; auto).
    apply Permutation_map_inv in P' as (j & Ej & Pj). exists j. split; [eapply Permutation_NoDup; eauto|]. split; auto. eapply Permutation_Forall; eauto.
  Qed.
  Lemma made_wide lo hi lo' hi' T : lo' <= lo -> hi <= hi' -> made lo hi T -> made lo' hi' T.
  Proof. intros L1 L2 (i & N & F & E). exists i. split; auto. split; auto. eapply Forall_impl; [|exact F]. cbn. intros; lia. Qed.

  Section Step.
  Variable vok : rdef -> Prop.
  Record step (c : scope) (s s' : rstate) (ds : list rdef) (T : defset) : Prop := mkStep {
    sp_next : st_next s <= st_next s';
    sp_defs : st_defs s' = st_defs s ++ ds;
    sp_made : made (st_next s) (st_next s') (map kd ds);
    sp_tree : made (st_next s) (st_next s') T;
    sp_ok : st_ok s' = true -> st_ok s = true /\ Permutation (map kd ds) T;
    sp_vis : Forall vok ds;
    sp_refs : exists rf, st_refs s' = st_refs s ++ rf /\ Forall (ref_ok c ds) rf }.

  Lemma step_none c s s' rf : st_next s' = st_next s -> st_defs s' = st_defs s -> st_refs s' = st_refs s ++ rf -> (st_ok s' = true -> st_ok s = true) ->
    Forall (ref_ok c []) rf -> step c s s' [] [].
  Proof.
    intros A B C D E. constructor.
    - lia.
    - rewrite app_nil_r. auto.
    - apply made_nil.
    - apply made_nil.
    - intros H. auto.
    - constructor.
    - eauto.
  Qed.
  Lemma step_nil c s : step c s s [] [].
  Proof. apply step_none with (rf := []); auto. symmetry. apply app_nil_r. Qed.
  Lemma step_ref c s t x n : t = id_text n -> In (t, x) (entries c) ->
    step c s (mkRstate (st_next s) (st_defs s) (st_refs s ++ [mkRref x n]) (st_ok s)) [] [].
  Proof. intros -> H. apply step_none with (rf := [mkRref x n]); auto. constructor; auto. left. auto. Qed.
  Lemma step_error c s : step c s (mkRstate (st_next s) (st_defs s) (st_refs s) false) [] [].
  Proof. apply step_none with (rf := []); auto; [symmetry; apply app_nil_r|discriminate]. Qed.
  Lemma step_trans c s s1 ds1 T1 c1 s2 ds2 T2 : step c s s1 ds1 T1 -> ext c ds1 c1 -> step c1 s1 s2 ds2 T2 -> step c s s2 (ds1 ++ ds2) (T1 ++ T2).
  Proof.
    intros [A1 A2 A3 A4 A5 A6 (r1 & A7 & A8)] E [B1 B2 B3 B4 B5 B6 (r2 & B7 & B8)]. constructor.
    - lia.
    - rewrite B2, A2, app_assoc. auto.
    - rewrite map_app. eapply made_app; [| |exact A3|exact B3]; auto.
    - eapply made_app; [| |exact A4|exact B4]; auto.
    - intros H. apply B5 in H as [H P2]. apply A5 in H as [H P1]. split; auto. rewrite map_app. apply Permutation_app; auto.
    - apply Forall_app; auto.
    - exists (r1 ++ r2). split; [rewrite B7, A7, app_assoc; auto|]. apply Forall_app. split.
      + eapply Forall_impl; [|exact A8]. intros r [H|H]; [left; auto|right]. rewrite named_app. auto.
      + eapply Forall_impl; [|exact B8]. intros r [H|H]; [apply E in H as [H|H]; [left; auto|right]|right]; rewrite named_app; auto.
  Qed.
  Lemma step_perm c s s' ds T T' : Permutation T T' -> step c s s' ds T -> step c s s' ds T'.
  Proof.
    intros P [A1 A2 A3 A4 A5 A6 A7]. constructor; auto; [eapply made_perm; eauto|]. intros H. apply A5 in H as [H Q]. split; auto. etransitivity; eauto.
  Qed.
  (** A new definition. *)
  Lemma step_def c s k v n s1 x : fresh sy s = (x, s1) -> vok (mkRdef x k v n) ->
    step c s (mkRstate (st_next s1) (st_defs s1 ++ [mkRdef x k v n]) (st_refs s1) (st_ok s1)) [mkRdef x k v n] [(x, k)].
  Proof.
    unfold fresh. intros E V. injection E as <- <-. cbn. constructor; cbn.
    - lia.
    - auto.
    - apply made_one.
    - apply made_one.
    - auto.
    - auto.
    - exists []. split; [symmetry; apply app_nil_r|constructor].
  Qed.
  (** One whose symbol is made first and that is recorded last. *)
  Lemma step_around c s k v n s1 x s2 ds T : fresh sy s = (x, s1) -> vok (mkRdef x k v n) -> step c s1 s2 ds T ->
    step c s (mkRstate (st_next s2) (st_defs s2 ++ [mkRdef x k v n]) (st_refs s2) (st_ok s2)) (ds ++ [mkRdef x k v n]) ((x, k) :: T).
  Proof.
    unfold fresh. intros E V [A1 A2 A3 A4 A5 A6 (r1 & A7 & A8)]. injection E as <- <-. cbn [st_next st_defs st_refs st_ok] in *.
    assert (M : forall Y, made (S (st_next s)) (st_next s2) Y -> made (st_next s) (st_next s2) ((sy (st_next s), k) :: Y)).
    { intros Y HY. apply (@made_app _ (S (st_next s)) _ [(sy (st_next s), k)]); auto. apply made_one. }
    constructor; cbn [st_next st_defs st_refs st_ok].
    - lia.
    - rewrite A2, app_assoc. auto.
    - rewrite map_app. eapply made_perm; [apply Permutation_cons_append|]. apply M. auto.
    - auto.
    - intros H. apply A5 in H as [H P]. split; auto. rewrite map_app. cbn. rewrite <- Permutation_cons_append. constructor. auto.
    - apply Forall_app. auto.
    - exists r1. split; auto. eapply Forall_impl; [|exact A8]. intros r [H|H]; [left; auto|right]. rewrite named_app. auto.
  Qed.
  (** Part of the tree is left out after an error. *)
  Lemma step_drop c s s' ds T T' : step c s s' ds T -> st_ok s' = false -> made (st_next s) (st_next s') T' -> step c s s' ds T'.
  Proof. intros [A1 A2 A3 A4 A5 A6 A7] H M. constructor; auto. congruence. Qed.
  End Step.
  Lemma step_weak (P Q : rdef -> Prop) c s s' ds T : (forall d, P d -> Q d) -> step P c s s' ds T -> step Q c s s' ds T.
  Proof. intros I [A1 A2 A3 A4 A5 A6 A7]. constructor; auto. eapply Forall_impl; [|exact A6]. auto. Qed.
  Definition local (d : rdef) : Prop := d_vis d = Local.

  (** ** Types *)
  Section XtyInd.
    Variable P : xty -> Prop.
    Hypotheses (HI : P XInt) (HB : P XBool) (HS : P XString) (HF : forall a b, P a -> P b -> P (XFn a b))
      (HN : forall n args, Forall P args -> P (XNamed n args)) (HP : forall t, P t -> P (XParen t)).
    Fixpoint xty_ind' (t : xty) : P t :=
      match t with
      | XInt => HI | XBool => HB | XString => HS
      | XFn a b => HF (xty_ind' a) (xty_ind' b)
      | XNamed n args => HN n ((fix go l : Forall P l := match l with [] => Forall_nil _ | t :: r => Forall_cons _ (xty_ind' t) (go r) end) args)
      | XParen t => HP (xty_ind' t)
      end.
  End XtyInd.
  Lemma types_entry c t x : lookup_text (sc_types c) t = Some x -> In (t, x) (entries c).
  Proof. intros E. apply lookup_text_in in E. unfold entries. rewrite !in_app_iff. auto. Qed.
  Lemma values_entry c t x : lookup_text (sc_values c) t = Some x -> In (t, x) (entries c).
  Proof. intros E. apply lookup_text_in in E. unfold entries. rewrite !in_app_iff. auto. Qed.
  Lemma ctors_entry c t x : lookup_text (sc_ctors c) t = Some x -> In (t, x) (entries c).
  Proof. intros E. apply lookup_text_in in E. unfold entries. rewrite !in_app_iff. auto. Qed.

  Definition in_types (c : scope) (t : irty) : Prop := names_in (map snd (sc_types c)) t.
  Lemma resolve_type_ok c : forall t s r s', resolve_type c t s = (r, s') -> step local c s s' [] [] /\ in_types c r /\ r <> IrInfer.
  Proof.
    induction t using xty_ind'; intros s r s' E; cbn [resolve_type] in E.
    1-3: rb; split; [apply step_nil|split; [intros x []|discriminate]].
    - rb. destruct (IHt1 _ _ _ H) as (A & N1 & _), (IHt2 _ _ _ H0) as (B & N2 & _). split; [|split; [|discriminate]].
      + exact (step_trans A (ext_refl _ _) B).
      + intros z Hz. cbn in Hz. apply in_app_iff in Hz as [Hz|Hz]; auto.
    - apply rbind_inv in E as (o & s1 & Eo & E). apply rbind_inv in E as (args' & s2 & Ea & E). unfold rret in E. injection E as <- <-.
      assert (A : step local c s s1 [] [] /\ match o with Some x => In x (map snd (sc_types c)) | None => True end).
      { destruct (lookup_text (sc_types c) (id_text n)) as [x|] eqn:El; rb.
        - split; [eapply step_ref; eauto; apply types_entry; auto|]. apply lookup_text_in in El. apply in_map_iff. exists (id_text n, x). auto.
        - split; auto. apply step_error. }
      assert (B : step local c s1 s2 [] [] /\ Forall (in_types c) args').
      { clear Eo A. revert s1 args' Ea. induction H as [|t args Ht _ IH]; intros s1 args' Ea; rb; [split; [apply step_nil|constructor]|].
        destruct (Ht _ _ _ H) as (A & N1 & _), (IH _ _ H0) as (B & N2). split; [exact (step_trans A (ext_refl _ _) B)|constructor; auto]. }
      destruct A as [A Nx], B as [B Na]. split; [exact (step_trans A (ext_refl _ _) B)|]. destruct o as [x|]; split; try discriminate; intros y Hy; cbn in Hy; [|destruct Hy].
      destruct Hy as [<-|Hy]; auto. apply in_flat_map in Hy as (t & Ht & Hy). rewrite Forall_forall in Na. apply (Na _ Ht _ Hy).
    - eauto.
  Qed.
  (** Type variables: the definitions added are those of the new variables, at the end of [vars]. *)
  Lemma resolve_type_vars_ok : forall t c vars s r c' vars' s', resolve_type_vars sy t c vars s = (r, c', vars', s') ->
    exists ds new, vars' = vars ++ new /\ step local c s s' ds (map (fun v => (v, type_var)) new) /\ ext c ds c' /\
      sc_values c' = sc_values c /\ sc_ctors c' = sc_ctors c /\ map snd (sc_types c') = rev new ++ map snd (sc_types c) /\ in_types c' r /\ r <> IrInfer.
  Proof.
    assert (Z : forall c vars s, exists ds new, vars = vars ++ new /\ step local c s s ds (map (fun v => (v, type_var)) new) /\ ext c ds c /\
      sc_values c = sc_values c /\ sc_ctors c = sc_ctors c /\ map snd (sc_types c) = rev new ++ map snd (sc_types c)).
    { intros c vars s. exists [], []. split; [symmetry; apply app_nil_r|]. split; [apply step_nil|]. split; [apply ext_refl|]. auto. }
    induction t using xty_ind'; intros c vars s r c' vars' s' E; cbn [resolve_type_vars] in E.
    1-3: unfold rret in E; injection E as <- <- <- <-; destruct (Z c vars s) as (ds & new & A & B & C & D & F & G); exists ds, new; refine (conj A (conj B (conj C (conj D (conj F (conj G (conj _ _)))))));  [intros z []|discriminate].
    - apply rbind_inv in E as ([[a' c1] v1] & s1 & Ea & E). apply rbind_inv in E as ([[b' c2] v2] & s2 & Eb & E). unfold rret in E. injection E as <- <- <- <-.
      destruct (IHt1 _ _ _ _ _ _ _ Ea) as (d1 & n1 & -> & A1 & A2 & A3 & A4 & A5 & A6 & _).
      destruct (IHt2 _ _ _ _ _ _ _ Eb) as (d2 & n2 & -> & B1 & B2 & B3 & B4 & B5 & B6 & _).
      exists (d1 ++ d2), (n1 ++ n2). split; [rewrite app_assoc; auto|]. split; [rewrite map_app; exact (step_trans A1 A2 B1)|]. split; [eapply ext_trans; eauto|].
      split; [congruence|]. split; [congruence|]. split; [rewrite B5, A5, rev_app_distr, app_assoc; auto|]. split; [|discriminate].
      intros x Hx. cbn in Hx. apply in_app_iff in Hx as [Hx|Hx]; auto. apply A6 in Hx. rewrite B5. apply in_app_iff. auto.
    - apply rbind_inv in E as ([[o c1] v1] & s1 & Eo & E). apply rbind_inv in E as ([[args' c2] v2] & s2 & Ea & E). unfold rret in E. injection E as <- <- <- <-.
      assert (A : exists ds new, v1 = vars ++ new /\ step local c s s1 ds (map (fun v => (v, type_var)) new) /\ ext c ds c1 /\
        sc_values c1 = sc_values c /\ sc_ctors c1 = sc_ctors c /\ map snd (sc_types c1) = rev new ++ map snd (sc_types c) /\
        match o with Some x => In x (map snd (sc_types c1)) | None => True end).
      { destruct (lookup_text (sc_types c) (id_text n)) as [x|] eqn:El.
        - rb. exists [], []. split; [symmetry; apply app_nil_r|]. split; [eapply step_ref; eauto; apply types_entry; auto|]. split; [apply ext_refl|].
          repeat (split; auto). apply lookup_text_in in El. apply in_map_iff. exists (id_text n, x). auto.
        - destruct (lower _ && _).
          + rb. unfold record_def in H1. injection H1 as <- <-. eexists [_], [_]. split; [reflexivity|]. split; [apply (@step_def local c s type_var Local n _ _ H0 eq_refl)|].
            split; [apply (ext_type c (mkRdef x type_var Local n))|]. cbn. auto 8.
          + rb. exists [], []. split; [symmetry; apply app_nil_r|]. split; [apply step_error|]. split; [apply ext_refl|]. auto 8. }
      destruct A as (d1 & n1 & -> & A1 & A2 & A3 & A4 & A5 & A6).
      assert (B : exists ds new, v2 = (vars ++ n1) ++ new /\ step local c1 s1 s2 ds (map (fun v => (v, type_var)) new) /\ ext c1 ds c2 /\
        sc_values c2 = sc_values c1 /\ sc_ctors c2 = sc_ctors c1 /\ map snd (sc_types c2) = rev new ++ map snd (sc_types c1) /\ Forall (in_types c2) args').
      { clear - H Ea Z. revert Ea. generalize (vars ++ n1). revert c1 s1 args'. induction H as [|t args Ht _ IH]; intros c1 s1 args' vs Ea.
        - unfold rret in Ea. injection Ea as <- <- <- <-. destruct (Z c1 vs s1) as (ds & new & A & B & C & D & F & G). exists ds, new. auto 10.
        - apply rbind_inv in Ea as ([[t' c3] v3] & s3 & Et & Ea). apply rbind_inv in Ea as ([[r' c4] v4] & s4 & Er & Ea). unfold rret in Ea. injection Ea as <- -> -> ->.
          destruct (Ht _ _ _ _ _ _ _ Et) as (d1 & m1 & -> & A1 & A2 & A3 & A4 & A5 & A6 & _).
          destruct (IH _ _ _ _ Er) as (d2 & m2 & -> & B1 & B2 & B3 & B4 & B5 & B6).
          exists (d1 ++ d2), (m1 ++ m2). split; [rewrite app_assoc; auto|]. split; [rewrite map_app; exact (step_trans A1 A2 B1)|]. split; [eapply ext_trans; eauto|].
          split; [congruence|]. split; [congruence|]. split; [rewrite B5, A5, rev_app_distr, app_assoc; auto|]. constructor; auto.
          intros x Hx. apply A6 in Hx. rewrite B5. apply in_app_iff. auto. }
      destruct B as (d2 & n2 & -> & B1 & B2 & B3 & B4 & B5 & B6).
      exists (d1 ++ d2), (n1 ++ n2). split; [rewrite app_assoc; auto|]. split; [rewrite map_app; exact (step_trans A1 A2 B1)|]. split; [eapply ext_trans; eauto|].
      split; [congruence|]. split; [congruence|]. split; [rewrite B5, A5, rev_app_distr, app_assoc; auto|].
      destruct o as [x|]; split; try discriminate; intros y Hy; cbn in Hy; [|destruct Hy]. destruct Hy as [<-|Hy].
      + rewrite B5. apply in_app_iff. auto.
      + apply in_flat_map in Hy as (t & Ht & Hy). rewrite Forall_forall in B6. apply (B6 _ Ht _ Hy).
    - eauto.
  Qed.
End Facts.
