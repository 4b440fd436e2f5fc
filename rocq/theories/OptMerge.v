(** merge_match preserves results when no match has two branches for one constructor. *)
From Verif Require Import EvalFacts Orders Compile CompileStatic Wf Vm RunnerCorrect OptEv OptRel OptWalk OptGood OptPasses OptLaws OptProg OptSmall.
From Coq Require Import Permutation.
Set Implicit Arguments.

Notation branch := (name * list name * expr)%type.
Definition ctors (brs : list branch) : list name := map (fun br => fst (fst br)) brs.

Lemma NoDup_nodupb l : NoDup l -> nodupb l = true.
Proof.
  induction 1 as [|x l Hx _ IH]; simpl; auto. rewrite IH, andb_true_r. destruct (mem x l) eqn:E; auto. apply mem_In in E. tauto.
Qed.
Lemma recs_child m c e : child c e -> recs m e = true -> recs m c = true.
Proof.
  destruct e; cbn [child recs]; try contradiction; rewrite ?andb_true_iff.
  - intros [->|H] [H1 H2]; auto. rewrite forallb_forall in H2; auto.
  - intros [->|[->| ->]]; intuition.
  - intros [->| ->]; intuition.
  - intros H H1. rewrite forallb_forall in H1; auto.
  - intros ->; auto.
  - intros [->|H] [[H1 H2] _]; auto. apply in_map_iff in H as (br & <- & Hin). rewrite forallb_forall in H2. apply (H2 _ Hin).
  - intros H H1. rewrite forallb_forall in H1; auto.
  - intros [->| ->]; intuition.
  - intros [->| ->]; intuition.
  - intros ->; auto.
  - intros ->; auto.
Qed.

(** ** Branches *)
Lemma fb_in c brs bs b : find_branch c brs = Some (bs, b) -> In ((c, bs), b) brs.
Proof.
  induction brs as [|[[c' bs'] b'] l IH]; simpl; [discriminate|]. destruct (Nat.eqb_spec c' c) as [->|]; intros H; auto.
  injection H as -> ->; auto.
Qed.
Lemma in_fb c brs bs b : NoDup (ctors brs) -> In ((c, bs), b) brs -> find_branch c brs = Some (bs, b).
Proof.
  induction brs as [|[[c' bs'] b'] l IH]; simpl; [contradiction|]. intros Hn Hin. inversion Hn as [|? ? Hni Hn2]; subst.
  destruct Hin as [E|Hin].
  - injection E as -> -> ->. rewrite Nat.eqb_refl; auto.
  - destruct (Nat.eqb_spec c' c) as [->|]; auto. exfalso. apply Hni. unfold ctors. apply in_map_iff. exists ((c, bs), b); auto.
Qed.
Lemma last_in c brs bs b : last_branch c brs = Some (bs, b) -> In ((c, bs), b) brs.
Proof.
  unfold last_branch. destruct (find _ _) as [[[c' bs'] b']|] eqn:E; [|discriminate]. apply find_some in E as [H1 H2].
  simpl in H2. apply Nat.eqb_eq in H2 as ->. intros H. injection H as -> ->. apply in_rev; auto.
Qed.

Lemma insert_perm br l : Permutation (insert_branch br l) (br :: l).
Proof.
  induction l as [|b l IH]; simpl; auto. destruct (branch_key br <=? branch_key b); auto.
  etransitivity; [apply perm_skip; exact IH|]. apply perm_swap.
Qed.
Lemma sort_perm l : Permutation (sort_branches l) l.
Proof. induction l as [|b l IH]; simpl; auto. etransitivity; [apply insert_perm|]. auto. Qed.

Lemma can_merge_all brs : can_merge brs = true -> NoDup (map (fun br => extract_ctor (snd br)) brs) /\
  forall br, In br brs -> exists c, extract_ctor (snd br) = Some c.
Proof.
  unfold can_merge. intros H. apply Nat.eqb_eq in H.
  set (f := fun br : branch => match extract_ctor (snd br) with Some c => [c] | None => [] end) in *.
  assert (Hle : forall l, length (flat_map f l) <= length l).
  { induction l as [|b l IH]; simpl; auto. rewrite app_length. unfold f at 1. destruct (extract_ctor (snd b)); simpl; lia. }
  assert (Hnd : forall l, length (nodup Nat.eq_dec (flat_map f l)) = length l -> NoDup (flat_map f l)).
  { intros l Hl. specialize (Hle l). apply NoDup_incl_NoDup with (l := nodup Nat.eq_dec (flat_map f l)).
    - apply NoDup_nodup.
    - lia.
    - intros x. apply nodup_In. }
  assert (Hlen : length (flat_map f brs) = length brs).
  { pose proof (NoDup_incl_length (NoDup_nodup Nat.eq_dec (flat_map f brs)) (fun x => proj1 (nodup_In Nat.eq_dec (flat_map f brs) x))).
    specialize (Hle brs). lia. }
  assert (Hn := Hnd _ H). clear H Hnd.
  assert (Hall : forall br, In br brs -> exists c, extract_ctor (snd br) = Some c).
  { clear Hn. revert Hlen. induction brs as [|b l IH]; intros Hlen br []; subst.
    - simpl in Hlen. rewrite app_length in Hlen. unfold f at 1 in Hlen. destruct (extract_ctor (snd br)); eauto.
      simpl in Hlen. specialize (Hle l). lia.
    - apply IH; auto. simpl in Hlen. rewrite app_length in Hlen. unfold f at 1 in Hlen. specialize (Hle l).
      destruct (extract_ctor (snd b)); simpl in Hlen; lia. }
  split; auto. clear Hle Hlen.
  assert (E : map (fun br => extract_ctor (snd br)) brs = map Some (flat_map f brs)).
  { clear Hn. induction brs as [|b l IH]; simpl; auto. destruct (Hall b) as [c Ec]; simpl; auto. unfold f at 1. rewrite Ec. simpl. f_equal.
    apply IH. intros; apply Hall; simpl; auto. }
  rewrite E. apply FinFun.Injective_map_NoDup; auto. intros x y Hxy. congruence.
Qed.

(** ** Counting *)
Lemma sum_incl {A} (f : A -> nat) l1 : forall l2, NoDup l1 -> incl l1 l2 -> list_sum (map f l1) <= list_sum (map f l2).
Proof.
  induction l1 as [|a l1 IH]; intros l2 Hn Hi; [simpl; lia|]. inversion Hn; subst.
  assert (Ha : In a l2) by (apply Hi; simpl; auto). apply in_split in Ha as (u & w & ->).
  assert (H : list_sum (map f l1) <= list_sum (map f (u ++ w))).
  { apply IH; auto. intros x Hx. assert (In x (u ++ a :: w)) by (apply Hi; simpl; auto).
    apply in_app_iff in H as [|[->|]]; [apply in_or_app; auto|tauto|apply in_or_app; auto]. }
  rewrite !map_app, !list_sum_app in *. cbn [map list_sum fold_right]. unfold list_sum in *. lia.
Qed.
Lemma cnt_sum {A} (f : A -> list name) x l : cnt x (flat_map f l) = list_sum (map (fun a => cnt x (f a)) l).
Proof. induction l as [|a l IH]; auto. cbn [flat_map map]. rewrite cnt_app, IH. reflexivity. Qed.
Lemma sum_perm {A} (f : A -> nat) l l' : Permutation l l' -> list_sum (map f l) = list_sum (map f l').
Proof. induction 1; cbn [map list_sum fold_right]; unfold list_sum in *; lia. Qed.

Lemma size_lets ps : forall args b, length ps = length args ->
  size (lets ps args b) = length args + (fix sum (l : list expr) : nat := match l with [] => 0 | x :: r => size x + sum r end) args + size b.
Proof.
  induction ps as [|p ps IH]; intros [|a args] b Hl; simpl in Hl; try discriminate; auto.
  cbn [lets size]. rewrite IH by lia. cbn [length]. lia.
Qed.

Record merged (bs : list name) (v b m : expr) : Prop := {
  mg_cnt : forall x, cnt x (binders m) = cnt x (binders b) + cnt x bs + cnt x (binders v);
  mg_fv : forall x, In x (fv m) -> In x (fv b) \/ (In x (fv v) /\ ~ In x bs);
  mg_rec : forall k, recs k b = true -> recs k v = true -> recs k m = true;
  mg_size : S (size m) = size b + size v }.

Lemma merge_branch_ok c bs v b : forall m, merge_branch c bs v b = Some m -> merged bs v b m.
Proof.
  induction b; intros m H; cbn [merge_branch] in H; try discriminate.
  - destruct (Nat.eqb c0 c && (length fields =? length bs)) eqn:E; [|discriminate]. injection H as <-.
    apply andb_true_iff in E as [_ E]. apply Nat.eqb_eq in E. symmetry in E. split.
    + intros x. rewrite cnt_lets by auto. cbn [binders]. lia.
    + intros x Hx. apply fv_lets in Hx; auto.
    + intros k. cbn [recs]. apply recs_lets.
    + rewrite size_lets by auto. cbn [size]. lia.
  - destruct (merge_branch c bs v b2) as [m2|] eqn:E; simpl in H; [|discriminate]. injection H as <-.
    destruct (IHb2 _ eq_refl) as [A1 A2 A3 A4]. split.
    + intros x. cbn [binders]. rewrite !cnt_cons, !cnt_app, A1. lia.
    + intros x. cbn [fv]. rewrite !in_app_iff, !in_minus. intros [|[Hx Hn]]; auto. apply A2 in Hx as []; auto.
    + intros k. cbn [recs]. rewrite !andb_true_iff. intros [] ?; auto.
    + cbn [size]. lia.
  - destruct (merge_branch c bs v b2) as [m2|] eqn:E; simpl in H; [|discriminate]. injection H as <-.
    destruct (IHb2 _ eq_refl) as [A1 A2 A3 A4]. split.
    + intros x. cbn [binders]. rewrite !cnt_cons, !cnt_app, A1. lia.
    + intros x. cbn [fv]. rewrite !in_minus, !in_app_iff. intros [[Hx|Hx] Hn]; auto. apply A2 in Hx as []; auto.
    + intros k. cbn [recs]. rewrite !andb_true_iff. intros [] ?; auto.
    + cbn [size]. lia.
  - destruct (merge_branch c bs v b) as [m2|] eqn:E; simpl in H; [|discriminate]. injection H as <-.
    destruct (IHb _ eq_refl) as [A1 A2 A3 A4]. split; cbn [binders fv recs size]; auto; lia.
  - destruct (merge_branch c bs v b) as [m2|] eqn:E; simpl in H; [|discriminate]. injection H as <-.
    destruct (IHb _ eq_refl) as [A1 A2 A3 A4]. split; cbn [binders fv recs size]; auto; lia.
Qed.

(** ** Evaluation *)
Lemma extract_ev c e : extract_ctor e = Some c -> forall i r v, ev i r e v -> exists vs, v = VComp c vs.
Proof.
  induction e; cbn [extract_ctor]; intros He ii r w Hev; try discriminate.
  - injection He as ->. apply ev_construct_inv in Hev as (vs & -> & _). eauto.
  - apply ev_let_inv in Hev as (? & ? & ? & _ & _ & Hev). eauto.
  - apply ev_letrec_inv in Hev as (? & ? & _ & Hev). eauto.
  - apply ev_pi_inv in Hev. eauto.
  - apply ev_piapp_inv in Hev. eauto.
Qed.


(** The merged branch evaluates the inner one, then the outer one, in an environment in which only names bound
    inside the inner branch have been added. *)
Lemma merge_branch_ev c bs v b : forall m, merge_branch c bs v b = Some m ->
  (forall y, In y bs -> ~ In y (fv b) /\ ~ In y (binders b)) ->
  forall k r r' i gs, G (idS (fv b)) k r r' -> i <= k -> ev i r b (VComp c gs) ->
  exists gs' r2 cc, Forall2 (V (k - i)) gs gs' /\ length gs' = length bs /\ (forall y, ~ In y (binders b) -> lookup y r2 = lookup y r') /\
    forall j w, ev j (add_all r2 bs gs') v w -> ev (cc + j) r' m w.
Proof.
  induction b; intros m H Hd k r r' ii gs HG Hi Hev; cbn [merge_branch] in H; try discriminate.
  - destruct (Nat.eqb c0 c && (length fields =? length bs)) eqn:E; [|discriminate]. injection H as <-.
    apply andb_true_iff in E as [_ E]. apply Nat.eqb_eq in E. symmetry in E.
    apply ev_construct_inv in Hev as (vs & Eq & Hev & _). injection Eq as _ <-. cbn [fv] in *.
    destruct (@lets_fwd bs fields k r r' ii gs) as (cc & vs' & HV & HE); auto; [intros p Hp; apply Hd; auto|].
    exists vs', r', cc. repeat split; auto. apply evs_length in Hev. apply Forall2_len in HV. congruence.
  - destruct (merge_branch c bs v b2) as [m2|] eqn:E; simpl in H; [|discriminate]. injection H as <-.
    apply ev_let_inv in Hev as (i1 & i2 & va & -> & H1 & H2). cbn [fv binders] in *.
    destruct (@ev_fv b1 k r r' i1 va) as (c1 & va' & E1 & V1); auto; [|lia|].
    { eapply G_idS_sub; [|exact HG]. intros; apply in_or_app; auto. }
    destruct (IHb2 _ eq_refl) with (k := k - i1) (r := (n, va) :: r) (r' := (n, va') :: r') (i := i2) (gs := gs) as (gs' & r2 & cc & A1 & A2 & A3 & A4); auto; try lia.
    + intros y Hy. destruct (Hd y Hy) as [D1 D2]. rewrite in_app_iff in D1. simpl in D2. rewrite in_app_iff in D2.
      split; [|tauto]. intros Hf. apply D1. right. apply in_minus. split; auto. simpl. intuition.
    + eapply G_sub; [|apply G_ext; [eapply G_mono; [|exact HG]; lia|exact V1]].
      apply ext_id. intros a Ha. destruct (Nat.eq_dec a n) as [|Hn]; auto. right. apply in_or_app; right. apply in_minus. split; auto. simpl; intuition.
    + exists gs', r2, (c1 + cc). split; [eapply Vs_mono; [|exact A1]; lia|]. split; auto. split.
      * intros y Hy. simpl in Hy. rewrite in_app_iff in Hy. rewrite A3 by tauto. simpl. destruct (Nat.eqb_spec y n); [subst; tauto|auto].
      * intros j w Hw. rewrite <- Nat.add_assoc. econstructor; eauto.
  - destruct (merge_branch c bs v b2) as [m2|] eqn:E; simpl in H; [|discriminate]. injection H as <-.
    apply ev_letrec_inv in Hev as (ps & f & Es & H2). cbn [fv binders] in *.
    destruct (IHb2 _ eq_refl) with (k := k) (r := (n, VFn r (Some n) (map fst ps) f) :: r) (r' := (n, VFn r' (Some n) (map fst ps) f) :: r') (i := ii) (gs := gs) as (gs' & r2 & cc & A1 & A2 & A3 & A4); auto; try lia.
    + intros y Hy. destruct (Hd y Hy) as [D1 D2]. rewrite in_minus, in_app_iff in D1. simpl in D2. rewrite in_app_iff in D2.
      split; [|tauto]. intros Hf. apply D1. split; auto. simpl. intuition.
    + eapply G_sub; [|apply G_ext; [exact HG|]].
      * apply ext_id. intros a Ha. destruct (Nat.eq_dec a n) as [|Hn]; auto. right. apply in_minus. split; [apply in_or_app; auto|]. simpl; intuition.
      * apply V_rec with (P := idS (minus (fv b1 ++ fv b2) [n])); auto.
        set (S := minus (fv b1 ++ fv b2) [n]).
        eapply rel_sub; [|apply (@rel_refl_S f (n :: map fst ps ++ S))].
        -- intros a e0 He0. eapply ext_sub; [|eapply ext_id with (S' := n :: map fst ps ++ S); [|exact He0]].
           ++ apply exts_id. intros y Hy. instantiate (1 := map fst ps ++ S) in Hy. apply in_app_iff in Hy; auto.
           ++ intros y [->|Hy]; auto.
        -- intros x Hx. simpl. rewrite in_app_iff. destruct (Nat.eq_dec x n) as [->|Hn]; auto.
           destruct (in_dec Nat.eq_dec x (map fst ps)); auto. right; right. unfold S. apply in_minus. rewrite in_app_iff.
           split; [left; rewrite <- fv_strip, Es; simpl; apply in_minus; auto|]. simpl; intuition congruence.
    + exists gs', r2, cc. split; [auto|]. split; auto. split.
      * intros y Hy. simpl in Hy. rewrite in_app_iff in Hy. rewrite A3 by tauto. simpl. destruct (Nat.eqb_spec y n); [subst; tauto|auto].
      * intros j w Hw. econstructor; eauto.
  - destruct (merge_branch c bs v b) as [m2|] eqn:E; simpl in H; [|discriminate]. injection H as <-. apply ev_pi_inv in Hev.
    destruct (IHb _ eq_refl Hd _ _ _ _ _ HG Hi Hev) as (gs' & r2 & cc & A1 & A2 & A3 & A4). exists gs', r2, cc. repeat split; auto.
    intros j w Hw. constructor; auto.
  - destruct (merge_branch c bs v b) as [m2|] eqn:E; simpl in H; [|discriminate]. injection H as <-. apply ev_piapp_inv in Hev.
    destruct (IHb _ eq_refl Hd _ _ _ _ _ HG Hi Hev) as (gs' & r2 & cc & A1 & A2 & A3 & A4). exists gs', r2, cc. repeat split; auto.
    intros j w Hw. constructor; auto.
Qed.

Lemma add_all_G S ps k r r' vs vs' : length ps = length vs -> Forall2 (V k) vs vs' -> G (idS (minus S ps)) k r r' ->
  G (idS S) k (add_all r ps vs) (add_all r' ps vs').
Proof.
  intros Hl HV HG. eapply G_sub; [|apply G_exts; eauto]. apply exts_id.
  intros a Ha. destruct (in_dec Nat.eq_dec a ps); auto. right. apply in_minus; auto.
Qed.
Lemma G_idS_look S k r r' r'' : (forall y, In y S -> lookup y r'' = lookup y r') -> G (idS S) k r r' -> G (idS S) k r r''.
Proof.
  intros H HG x e' [Hx ->] v Hv r3 Ha. apply (HG x (EName x)) with (v := v); auto; [split; auto|].
  intros z [<-|[]]. rewrite <- (Ha x) by (simpl; auto). rewrite H; auto.
Qed.

Lemma merge_ones outer : forall l l', omap (merge_one outer) l = Some l' ->
  Forall2 (fun br br' => fst br' = fst br /\ exists c bs v, extract_ctor (snd br) = Some c /\ In ((c, bs), v) outer /\ merge_branch c bs v (snd br) = Some (snd br')) l l'.
Proof.
  intros l l' H. apply omap_F2 in H. eapply Forall2_weak; [|exact H]. intros br br' E. unfold merge_one in E. simpl in E.
  destruct (extract_ctor (snd br)) as [c|] eqn:Ec; simpl in E; [|discriminate].
  destruct (last_branch c outer) as [[bs v]|] eqn:El; simpl in E; [|discriminate].
  destruct (merge_branch c bs v (snd br)) as [m|] eqn:Em; simpl in E; [|discriminate]. injection E as <-.
  split; auto. exists c, bs, v. repeat split; auto. apply last_in; auto.
Qed.

Lemma F2_in_l {A B} (R : A -> B -> Prop) l l' a : Forall2 R l l' -> In a l -> exists b, In b l' /\ R a b.
Proof. induction 1 as [|x y l l' Hxy _ IH]; intros []; subst; [exists y; simpl; auto|]. destruct (IH H) as (b & ? & ?). exists b; simpl; auto. Qed.
Lemma F2_in_r {A B} (R : A -> B -> Prop) l l' b : Forall2 R l l' -> In b l' -> exists a, In a l /\ R a b.
Proof. induction 1 as [|x y l l' Hxy _ IH]; intros []; subst; [exists x; simpl; auto|]. destruct (IH H) as (a & ? & ?). exists a; simpl; auto. Qed.

Lemma law_merge d inner outer brs : uq (EMatch (EMatch d inner) outer) -> NoDup (ctors inner) -> NoDup (ctors outer) ->
  omap (merge_one outer) (sort_branches inner) = Some brs -> lr (EMatch (EMatch d inner) outer) (EMatch d brs).
Proof.
  intros (U1 & U2 & _) Hin Hout HO. apply merge_ones in HO. cbn [binders fv] in U1, U2.
  assert (Hc : ctors brs = ctors (sort_branches inner)).
  { clear - HO. unfold ctors. induction HO as [|a b l l' [E _] _ IH]; simpl; auto. rewrite E, IH; auto. }
  assert (Hbrs : NoDup (ctors brs)).
  { rewrite Hc. eapply Permutation_NoDup; [|exact Hin]. unfold ctors. apply Permutation_map. symmetry. apply sort_perm. }
  intros k r r' n w HG Hn Hev.
  apply ev_match_inv in Hev as (i1 & j & c2 & gs & bs2 & b2 & -> & Hd & Hf2 & Hl2 & Hb2).
  apply ev_match_inv in Hd as (i & i2 & c & fs & bs & b & -> & Hd & Hf & Hl & Hb).
  destruct (@rel_refl d k r r' i _ HG ltac:(lia) Hd) as (cd & vd & Ed & Vd). apply V_comp_inv in Vd as (fs' & -> & Vf).
  pose proof (fb_in _ _ Hf) as Hi1. pose proof (fb_in _ _ Hf2) as Hi2.
  assert (Hs : In ((c, bs), b) (sort_branches inner)) by (eapply Permutation_in; [symmetry; apply sort_perm|auto]).
  destruct (F2_in_l _ HO Hs) as ([[c' bs'] m] & Hm & Eq & ce & bse & ve & Hx & Hie & Hmb). simpl in *. injection Eq as -> ->.
  destruct (@extract_ev _ _ Hx _ _ _ Hb) as [gs0 Eg]. injection Eg as <- <-.
  assert (Esame : bse = bs2 /\ ve = b2).
  { pose proof (@in_fb _ _ _ _ Hout Hie) as A. pose proof (@in_fb _ _ _ _ Hout Hi2) as B. rewrite A in B. injection B as -> ->. auto. }
  destruct Esame as [-> ->].
  (* names *)
  set (F := fun br : branch => snd (fst br) ++ binders (snd br)) in *.
  assert (Ninner : forall y, cnt y bs + cnt y (binders b) <= cnt y (flat_map F inner)).
  { intros y. pose proof (@cnt_flat _ F y _ _ Hi1) as A. unfold F at 1 in A. simpl in A. rewrite cnt_app in A. auto. }
  assert (Nouter : forall y, cnt y bs2 + cnt y (binders b2) <= cnt y (flat_map F outer)).
  { intros y. pose proof (@cnt_flat _ F y _ _ Hi2) as A. unfold F at 1 in A. simpl in A. rewrite cnt_app in A. auto. }
  assert (Hfb2 : forall y, In y (fv b2) -> ~ In y bs2 -> In y ((fv d ++ flat_map (fun br => minus (fv (snd br)) (snd (fst br))) inner) ++ flat_map (fun br => minus (fv (snd br)) (snd (fst br))) outer)).
  { intros y Hy Hny. apply in_or_app; right. apply in_flat_map. exists ((c2, bs2), b2). split; auto. apply in_minus; auto. }
  assert (Hfb : forall y, In y (fv b) -> ~ In y bs -> In y ((fv d ++ flat_map (fun br => minus (fv (snd br)) (snd (fst br))) inner) ++ flat_map (fun br => minus (fv (snd br)) (snd (fst br))) outer)).
  { intros y Hy Hny. apply in_or_app; left. apply in_or_app; right. apply in_flat_map. exists ((c, bs), b). split; auto. apply in_minus; auto. }
  assert (Hbin : forall y, In y bs \/ In y (binders b) -> In y ((binders d ++ flat_map F inner) ++ flat_map F outer)).
  { intros y Hy. apply cnt_in. rewrite !cnt_app. specialize (Ninner y). rewrite !cnt_in in Hy. lia. }
  assert (Hbin2 : forall y, In y bs2 -> In y ((binders d ++ flat_map F inner) ++ flat_map F outer)).
  { intros y Hy. apply cnt_in. rewrite !cnt_app. specialize (Nouter y). rewrite !cnt_in in Hy. lia. }
  assert (Hdis : forall y, In y bs2 -> ~ In y bs /\ ~ In y (binders b)).
  { intros y Hy. specialize (U1 y). rewrite !cnt_app in U1. specialize (Ninner y). specialize (Nouter y). rewrite !cnt_in in *. lia. }
  destruct (@merge_branch_ev c2 bs2 b2 b m Hmb) with (k := k - i) (r := add_all r bs fs) (r' := add_all r' bs fs') (i := i2) (gs := gs)
    as (gs' & r2 & cc & A1 & A2 & A3 & A4); auto; try lia.
  - intros y Hy. destruct (Hdis y Hy) as [D1 D2]. split; auto. intros Hfy. apply (U2 y); auto.
  - apply G_idS_of. apply idP_add_all; auto. eapply G_mono; [|exact HG]; lia.
  - destruct (@ev_fv b2 (k - i - i2) (add_all r bs2 gs) (add_all r2 bs2 gs') j w) as (c3 & w' & E3 & V3); auto; try lia.
    + apply add_all_G; auto.
      assert (HG0 : G (idS (minus (fv b2) bs2)) (k - i - i2) r r') by (apply G_idS_of; eapply G_mono; [|exact HG]; lia).
      eapply G_idS_look; [|exact HG0]. intros y Hy. apply in_minus in Hy as [Hy Hny].
      assert (Hyn : ~ In y bs /\ ~ In y (binders b)).
      { split; intros Hc0; apply (U2 y); auto. }
      rewrite A3 by tauto. apply add_all_in; [apply Forall2_len in Vf; congruence|tauto].
    + exists (cd + (cc + c3)), w'. split; [|eapply V_mono; [|exact V3]; lia].
      econstructor; [exact Ed|apply in_fb; eauto| |].
      * apply Forall2_len in Vf. congruence.
      * auto.
Qed.

Lemma find_nodup (outer : list branch) c b1 v1 b2 v2 : NoDup (ctors outer) -> In ((c, b1), v1) outer -> In ((c, b2), v2) outer -> (b1, v1) = (b2, v2).
Proof.
  intros Hn H1 H2. pose proof (@in_fb _ _ _ _ Hn H1) as A. pose proof (@in_fb _ _ _ _ Hn H2) as B. congruence.
Qed.

(** The outer branches used are different ones. *)
Lemma outer_used outer l l' : NoDup (map (fun br => extract_ctor (snd br)) l) ->
  Forall2 (fun br br' => fst br' = fst br /\ exists c bs v, extract_ctor (snd br) = Some c /\ In ((c, bs), v) outer /\ merge_branch c bs v (snd br) = Some (snd br')) l l' ->
  exists os, NoDup os /\ incl os outer /\ (forall o, In o os -> exists br, In br l /\ extract_ctor (snd br) = Some (fst (fst o))) /\
    Forall2 (fun (p : branch * branch) (o : branch) => fst (snd p) = fst (fst p) /\ merged (snd (fst o)) (snd o) (snd (fst p)) (snd (snd p))) (combine l l') os.
Proof.
  intros Hn H. induction H as [|br br' l l' (E & c & bs & v & Ec & Hi & Hm) _ IH]; simpl in *.
  - exists []. repeat split; auto; [constructor|intros x []|intros o []].
  - inversion Hn as [|? ? Hni Hn2]; subst. destruct (IH Hn2) as (os & I1 & I2 & I3 & I4).
    exists (((c, bs), v) :: os). repeat split.
    + constructor; auto. intros Hc. destruct (I3 _ Hc) as (b0 & Hb & Eb). simpl in Eb. apply Hni. apply in_map_iff. exists b0. split; congruence.
    + intros x [<-|Hx]; auto.
    + intros o [<-|Ho]; [exists br; simpl; auto|]. destruct (I3 _ Ho) as (b0 & ? & ?). exists b0. auto.
    + constructor; auto. simpl. split; auto. eapply merge_branch_ok; eauto.
Qed.

Lemma list_sum_app_map {A} (f g : A -> nat) l : list_sum (map (fun a => f a + g a) l) = list_sum (map f l) + list_sum (map g l).
Proof. induction l as [|a l IH]; cbn [map list_sum fold_right]; unfold list_sum in *; lia. Qed.

Lemma used_sum (f g h : branch -> nat) l l' os : length l = length l' ->
  Forall2 (fun (p : branch * branch) (o : branch) => h (snd p) <= f (fst p) + g o) (combine l l') os ->
  list_sum (map h l') <= list_sum (map f l) + list_sum (map g os).
Proof.
  revert l' os. induction l as [|b l IH]; intros [|b' l'] os Hl H; try discriminate; [simpl; lia|].
  simpl in H. inversion H as [|? o ? os2 Ho H2]; subst. apply IH in H2; auto. simpl in Ho.
  cbn [map list_sum fold_right]. unfold list_sum in *. lia.
Qed.

Lemma sumb_eq l : (fix sumb (l : list branch) : nat := match l with [] => 0 | x :: r => size (snd x) + sumb r end) l = list_sum (map (fun br => size (snd br)) l).
Proof. induction l as [|b l IH]; simpl; auto. Qed.

Lemma merge_match_step_good e e' : uq e -> recs true e = true -> merge_match_step e = Some e' ->
  good lr e e' /\ recs true e' = true /\ size e' <= size e.
Proof.
  intros Hu Hr H.
  destruct e as [| | | | | | | | |d0 outer| | | | | |]; try (injection H as <-; split; [apply (good_refl cong_lr)|split; auto]).
  destruct d0 as [| | | | | | | | |d inner| | | | | |]; try (injection H as <-; split; [apply (good_refl cong_lr)|split; auto]).
  cbn [merge_match_step] in H. destruct (can_merge inner) eqn:Ecm; [|injection H as <-; split; [apply (good_refl cong_lr)|split; auto]].
  destruct (omap (merge_one outer) (sort_branches inner)) as [brs|] eqn:EO; simpl in H; [|discriminate]. injection H as <-.
  assert (Hnd : NoDup (ctors inner) /\ NoDup (ctors outer)).
  { cbn [recs negb orb] in Hr. rewrite !andb_true_iff in Hr. destruct Hr as [[[[_ _] N1] _] N2]. split; apply nodupb_NoDup; auto. }
  destruct Hnd as [Hn1 Hn2]. pose proof (law_merge Hu Hn1 Hn2 EO) as Hlr.
  apply merge_ones in EO. destruct (can_merge_all _ Ecm) as [Hk _].
  assert (Hk2 : NoDup (map (fun br => extract_ctor (snd br)) (sort_branches inner))).
  { eapply Permutation_NoDup; [apply Permutation_map; symmetry; apply sort_perm|auto]. }
  destruct (@outer_used _ _ _ Hk2 EO) as (os & O1 & O2 & _ & O4).
  assert (Hc : ctors brs = ctors (sort_branches inner)).
  { clear - EO. unfold ctors. induction EO as [|a b l l' [E _] _ IH]; simpl; auto. rewrite E, IH; auto. }
  assert (Hlen : length (sort_branches inner) = length brs) by (eapply Forall2_len; eauto).
  assert (Htame : tame (EMatch (EMatch d inner) outer) (EMatch d brs)).
  { split.
    - intros x. cbn [binders]. rewrite !cnt_app. set (F := fun br : branch => snd (fst br) ++ binders (snd br)).
      rewrite !(cnt_sum F). rewrite <- (sum_perm (fun a => cnt x (F a)) (sort_perm inner)).
      pose proof (sum_incl (fun a => cnt x (F a)) O1 O2) as A.
      assert (B : list_sum (map (fun a => cnt x (F a)) brs) <= list_sum (map (fun a => cnt x (F a)) (sort_branches inner)) + list_sum (map (fun a => cnt x (F a)) os)).
      { apply used_sum; auto. eapply Forall2_weak; [|exact O4]. intros [p p'] o [E [M1 _ _ _]]. simpl in *. unfold F.
        rewrite !cnt_app, E, M1. lia. }
      lia.
    - intros x. cbn [fv]. rewrite !in_app_iff. intros [Hx|Hx]; auto.
      apply in_flat_map in Hx as ([[c' bs'] m] & Hin & Hx). apply in_minus in Hx as [Hx Hn]. simpl in *.
      destruct (F2_in_r _ EO Hin) as ([[c0 bs0] b0] & Hin0 & E & c2 & bs2 & v2 & Ec & Hi2 & Hm). simpl in *. injection E as -> ->.
      apply merge_branch_ok in Hm as [_ M2 _ _]. destruct (M2 _ Hx) as [Hb|[Hv Hnv]].
      + left; right. apply in_flat_map. exists ((c0, bs0), b0). split; [eapply Permutation_in; [apply sort_perm|auto]|]. apply in_minus; auto.
      + right. apply in_flat_map. exists ((c2, bs2), v2). split; auto. apply in_minus; auto.
    - intros k. cbn [recs]. rewrite !andb_true_iff. intros [[[[R1 R2] R3] R4] R5]. repeat split; auto.
      + rewrite forallb_forall in *. intros [[c' bs'] m] Hin. simpl.
        destruct (F2_in_r _ EO Hin) as ([[c0 bs0] b0] & Hin0 & E & c2 & bs2 & v2 & Ec & Hi2 & Hm). simpl in *.
        apply merge_branch_ok in Hm as [_ _ M3 _]. apply M3.
        * apply (R2 ((c0, bs0), b0)). eapply Permutation_in; [apply sort_perm|auto].
        * apply (R4 _ Hi2).
      + destruct k; auto. cbn [negb orb] in *. fold (ctors brs). rewrite Hc. apply NoDup_nodupb.
        eapply Permutation_NoDup; [|exact Hn1]. unfold ctors. apply Permutation_map. symmetry. apply sort_perm. }
  split; [apply good_head; auto; discriminate|]. split; [apply Htame; auto|].
  cbn [size]. rewrite !sumb_eq. rewrite <- (sum_perm (fun a => size (snd a)) (sort_perm inner)).
  pose proof (sum_incl (fun a : branch => size (snd a)) O1 O2) as A.
  assert (B : list_sum (map (fun a : branch => size (snd a)) brs) <= list_sum (map (fun a : branch => size (snd a)) (sort_branches inner)) + list_sum (map (fun a : branch => size (snd a)) os)).
  { apply used_sum; auto. eapply Forall2_weak; [|exact O4]. intros [p p'] o [E [_ _ _ M4]]. simpl in *. lia. }
  lia.
Qed.

Definition distinct_branches (p : program) : bool := forallb (fun d => recs true (vd_value d)) (p_defs p).

Theorem merge_match_ok p exprs p' : ok_names p -> distinct_branches p = true -> merge_match p = Some p' -> results_kept p p' exprs.
Proof.
  intros Hw Hd H. apply on_defs_F2 in H as [_ H]. apply lr_prog. apply ok_uq in Hw. unfold distinct_branches in Hd. rewrite forallb_forall in Hd.
  rewrite Forall_forall in Hw.
  assert (HH : forall d, In d (p_defs p) -> uq (vd_value d) /\ recs true (vd_value d) = true) by auto. clear Hw Hd.
  revert HH. induction H as [|d d' ds ds' (E1 & _ & _ & E2) _ IH]; intros HH; constructor.
  - split; auto. destruct (HH d (or_introl eq_refl)) as [Hu Hr].
    destruct (@pre_good lr cong_lr merge_match_step (fun e => recs true e = true)) with (n := size (vd_value d)) (e := vd_value d) (e' := vd_value d') as (H1 & _); auto.
    + intros c e. apply recs_child.
    + intros e0 e1 Hu0 Hi E. destruct (merge_match_step_good Hu0 Hi E) as (? & ? & ?); auto.
  - apply IH. intros; apply HH; simpl; auto.
Qed.
